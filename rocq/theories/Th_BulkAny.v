(** The bulk analyzer for any FBAS (C83). *)
From Coq Require Import ZArith Reals Ascii.
From Verif Require Import P_ThBulkAny.
Local Open Scope string_scope.
Local Open Scope list_scope.
Local Open Scope nat_scope.

(** C83: for every input that can be read there is a row. It says the same as C64 apart from the sizes of blocking and splitting sets,
    which are only right under the conditions of C17 and C18; but the sets behind the sizes of blocking sets always block. *)
Theorem C83_row : forall (E : ext) (digest : json -> string) (files : path -> option json) (clock : input_data_point -> durations) (input : input_data_point)
  (j : json) (l : list raw_node) (f : fbas), ext_ok E ->
  files (nodes_path input) = Some j -> raw_fbas_of_json j = Ok l -> fbas_from_json j = Ok f -> unique_keys l ->
  (forall n s, In n l -> raw_isp n = Some s \/ country_name n = Some s -> ~ uncleanable s) ->
  (forall p, organizations_path input = Some p -> exists jo G, files p = Some jo /\ groupings_from_json jo f = Ok G /\ disjoint_groups (g_groupings G)) ->
  exists row I C s, bulk_analyze E digest files clock input = Ok row /\ out_label row = in_label input /\ any_node_results f row /\
    match organizations_path input with
    | Some p => exists jo G, files p = Some jo /\ groupings_from_json jo f = Ok G /\ any_group_results f (g_groupings G) (out_orgs row)
    | None => out_orgs row = no_results
    end /\
    isps_from_json j f = Ok I /\ (g_groupings I = [] -> out_isps row = no_results) /\ (g_groupings I <> [] -> any_group_results f (g_groupings I) (out_isps row)) /\
    countries_from_json j f = Ok C /\ (g_groupings C = [] -> out_ctries row = no_results) /\ (g_groupings C <> [] -> any_group_results f (g_groupings C) (out_ctries row)) /\
    to_standard_form E f = Ok s /\ out_standard_form_hash row = digest (fbas_to_json s) /\ out_durations row = clock input.
Proof. exact any_analyzed_row. Qed.
Print Assumptions C83_row.

(** A run whose inputs can all be read is complete and contains a row for each of them. *)
Theorem C83_fresh : forall (E : ext) (digest : json -> string) (files : path -> option json) (clock : input_data_point -> durations) (paths : list path) (ignored : string)
  (inputs : list input_data_point) (out : target), ext_ok E ->
  extract_inputs paths ignored = Ok (Some inputs) -> (forall i, In i inputs -> analyzable files i) -> out = Stdout \/ out = File None ->
  exists rows, bulk_main E digest files clock paths ignored out false = Ok (Some (rows, true)) /\ by_label out_label rows /\
  forall L, Forall2 (fun i row => exists j f, files (nodes_path i) = Some j /\ fbas_from_json j = Ok f /\ out_label row = in_label i /\ any_node_results f row)
    (with_label in_label L inputs) (with_label out_label L rows).
Proof. exact any_fresh_run. Qed.
Print Assumptions C83_fresh.

Theorem C83_complete : forall (E : ext) (digest : json -> string) (files : path -> option json) (clock : input_data_point -> durations) (paths : list path) (ignored : string)
  (inputs : list input_data_point) (out : target) (update : bool) (rows : list output_data_point) (complete : bool), ext_ok E ->
  extract_inputs paths ignored = Ok (Some inputs) -> (forall i, In i inputs -> analyzable files i) ->
  bulk_main E digest files clock paths ignored out update = Ok (Some (rows, complete)) -> complete = true.
Proof. exact any_complete. Qed.
Print Assumptions C83_complete.

Definition shown_sizes (r : res (option (list output_data_point * bool))) : option (list (string * bool * list nat)) :=
  match r with
  | Ok (Some (rows, true)) => Some (map (fun o => (out_label o, out_has_quorum_intersection o, [out_top_tier_size o; out_mq_min o; out_mq_max o; out_mbs_min o; out_mss_min o])) rows)
  | _ => None
  end.
(** an FBAS for which the shortcut for blocking sets is wrong *)
Example C83_example : extract_inputs ["data/x_nodes.json"] "" = Ok (Some [mk_input "x" "data/x_nodes.json" None]) /\
  analyzable hollow_files (mk_input "x" "data/x_nodes.json" None) /\ ~ sane_clusters hollow_fbas /\
  shown_sizes (bulk_main std_ext (fun _ => "") hollow_files no_clock ["data/x_nodes.json"] "" Stdout false) = Some [("x", true, [1; 1; 1; 0; 0])].
Proof. split; [vm_compute; reflexivity|]. split; [exact hollow_analyzable|]. split; [exact hollow_insane|]. vm_compute. reflexivity. Qed.
