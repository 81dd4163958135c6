(** Theorems about the bulk analyzer. *)
From Coq Require Import ZArith Reals Ascii.
From Verif Require Import P_Durations.
Local Open Scope string_scope.
Local Open Scope list_scope.
Local Open Scope nat_scope.

(** C51 *)
Theorem C51_tasks : forall (inputs : list input_data_point) (existing : list (string * output_data_point)), output_map existing ->
  by_label task_label (make_sorted_tasklist inputs existing) /\
  (forall L o, In (L, o) existing -> with_label task_label L (make_sorted_tasklist inputs existing) = [Reuse o]) /\
  (forall L, ~ In L (map fst existing) ->
     with_label task_label L (make_sorted_tasklist inputs existing) = map Analyze (with_label in_label L inputs)).
Proof. exact tasklist_spec. Qed.
Print Assumptions C51_tasks.

Theorem C51_loaded : forall (rows : list output_data_point), output_map (outputs_by_label rows) /\
  forall L o, In (L, o) (outputs_by_label rows) <-> latest rows L o.
Proof. exact outputs_spec. Qed.
Print Assumptions C51_loaded.

(** Of several rows with the same label only the last is kept. *)
Theorem C51_repeated_label_refuted : exists rows o, In o rows /\ ~ In (Reuse o) (make_sorted_tasklist [] (outputs_by_label rows)).
Proof. exact dropped_task. Qed.
Print Assumptions C51_repeated_label_refuted.

Example C51_example : let old := [plain_row "c" 1; plain_row "a" 2] in
  output_map (outputs_by_label old) /\
  make_sorted_tasklist [mk_input "d" "d.json" None; mk_input "c" "c.json" None; mk_input "b" "b.json" None] (outputs_by_label old) =
    [Reuse (plain_row "a" 2); Analyze (mk_input "b" "b.json" None); Reuse (plain_row "c" 1); Analyze (mk_input "d" "d.json" None)].
Proof. split; [apply outputs_spec|reflexivity]. Qed.

(** C62: runs *)
Theorem C62_fresh : forall (E : ext) (digest : json -> string) (files : path -> option json) (clock : input_data_point -> durations) (paths : list path) (ignored : string)
  (inputs : list input_data_point) (out : target),
  extract_inputs paths ignored = Ok (Some inputs) ->
  (forall i, In i inputs -> exists row, bulk_analyze E digest files clock i = Ok row) -> out = Stdout \/ out = File None ->
  exists rows, bulk_main E digest files clock paths ignored out false = Ok (Some (rows, true)) /\ by_label out_label rows /\
  forall L, Forall2 (fun i row => bulk_analyze E digest files clock i = Ok row) (with_label in_label L inputs) (with_label out_label L rows).
Proof. exact fresh_run. Qed.
Print Assumptions C62_fresh.

Theorem C62_update : forall (E : ext) (digest : json -> string) (files : path -> option json) (clock : input_data_point -> durations) (paths : list path) (ignored : string)
  (inputs : list input_data_point) (old : list output_data_point),
  extract_inputs paths ignored = Ok (Some inputs) -> distinct_labels out_label old ->
  (forall i, In i inputs -> (forall o, In o old -> out_label o <> in_label i) -> exists row, bulk_analyze E digest files clock i = Ok row) ->
  exists rows, bulk_main E digest files clock paths ignored (File (Some old)) true = Ok (Some (rows, true)) /\ by_label out_label rows /\
  (forall o, In o old -> with_label out_label (out_label o) rows = [o]) /\
  (forall L, (forall o, In o old -> out_label o <> L) ->
     Forall2 (fun i row => bulk_analyze E digest files clock i = Ok row) (with_label in_label L inputs) (with_label out_label L rows)).
Proof. exact update_run. Qed.
Print Assumptions C62_update.

Theorem C62_incremental : forall (E : ext) (digest : json -> string) (files : path -> option json)
  (clock1 clock2 clock3 : input_data_point -> durations) (paths1 paths2 : list path) (ign1 ign2 : string)
  (inputs1 inputs2 : list input_data_point) (rows1 : list output_data_point),
  extract_inputs paths1 ign1 = Ok (Some inputs1) -> extract_inputs paths2 ign2 = Ok (Some inputs2) ->
  incl inputs1 inputs2 -> distinct_labels in_label inputs1 -> distinct_labels in_label inputs2 ->
  bulk_main E digest files clock1 paths1 ign1 (File None) false = Ok (Some (rows1, true)) ->
  same_outcome (bulk_main E digest files clock2 paths2 ign2 (File (Some rows1)) true) (bulk_main E digest files clock3 paths2 ign2 Stdout false).
Proof. exact incremental_any_clock. Qed.
Print Assumptions C62_incremental.

(** A run is complete iff all analyses it needs succeed; even an incomplete run writes only proper rows. *)
Theorem C62_complete : forall (E : ext) (digest : json -> string) (files : path -> option json) (clock : input_data_point -> durations) (paths : list path) (ignored : string)
  (inputs : list input_data_point) (out : target) (update : bool) (rows : list output_data_point) (complete : bool),
  extract_inputs paths ignored = Ok (Some inputs) -> bulk_main E digest files clock paths ignored out update = Ok (Some (rows, complete)) ->
  (complete = true <->
     forall i, In i inputs -> (forall o, found out update o -> out_label o <> in_label i) -> exists row, bulk_analyze E digest files clock i = Ok row) /\
  forall row, In row rows -> found out update row \/ exists i, In i inputs /\ bulk_analyze E digest files clock i = Ok row.
Proof. exact complete_run. Qed.
Print Assumptions C62_complete.

Theorem C62_refused : forall (E : ext) (digest : json -> string) (files : path -> option json) (clock : input_data_point -> durations) (paths : list path) (ignored : string),
  (forall rows, bulk_main E digest files clock paths ignored (File (Some rows)) false = Panic \/
     bulk_main E digest files clock paths ignored (File (Some rows)) false = Ok None) /\
  (bulk_main E digest files clock paths ignored (File None) true = Panic \/ bulk_main E digest files clock paths ignored (File None) true = Ok None).
Proof. exact refused_run. Qed.
Print Assumptions C62_refused.

(** With repeated labels an update drops rows. *)
Theorem C62_repeated_label_refuted : exists files paths rows rows',
  bulk_main std_ext (fun _ => "") files no_clock paths "" (File None) false = Ok (Some (rows, true)) /\
  bulk_main std_ext (fun _ => "") files no_clock paths "" (File (Some rows)) true = Ok (Some (rows', true)) /\ List.length rows' < List.length rows.
Proof. exact dropped_row. Qed.
Print Assumptions C62_repeated_label_refuted.

(** An update that fails loses existing rows. *)
Theorem C62_failure_refuted : exists files paths old o, In o old /\
  exists rows, bulk_main std_ext (fun _ => "") files no_clock paths "" (File (Some old)) true = Ok (Some (rows, false)) /\ ~ In o rows.
Proof. exact lost_row. Qed.
Print Assumptions C62_failure_refuted.

Example C62_example : extract_inputs ["data/x_nodes.json"; "data/x_organizations.json"] "" =
    Ok (Some [mk_input "x" "data/x_nodes.json" (Some "data/x_organizations.json")]) /\
  distinct_labels in_label [mk_input "x" "data/x_nodes.json" (Some "data/x_organizations.json")] /\
  row_count (bulk_main std_ext (fun _ => "") three_files no_clock ["data/x_nodes.json"; "data/x_organizations.json"] "" (File None) false) = Some (1, true).
Proof.
  split; [vm_compute; reflexivity|]. split; [repeat constructor; intros []|]. vm_compute. reflexivity.
Qed.

(** C63: labels and inputs *)
Theorem C63_file_name : forall (p : path) (name : string), file_name p = Some name <-> leads_to p name.
Proof. exact file_name_of. Qed.
Print Assumptions C63_file_name.

Theorem C63_label : forall (p : path) (ignored label : string), extract_label p ignored = Ok label <-> gets_label ignored p label.
Proof. exact label_spec. Qed.
Print Assumptions C63_label.

Theorem C63_naming_scheme : forall (p q : path) (name name' : string) (X Y m m' : list string) (ignored : string),
  leads_to p name -> leads_to q name' -> composed_of (X ++ m ++ Y) name -> composed_of (X ++ m' ++ Y) name' ->
  Forall (meaningless ignored) m -> Forall (meaningless ignored) m' ->
  extract_label p ignored = extract_label q ignored.
Proof. exact same_label. Qed.
Print Assumptions C63_naming_scheme.

Theorem C63_inputs : forall (paths : list path) (ignored : string), (forall p, In p paths -> exists name, leads_to p name) ->
  (extract_inputs paths ignored = Ok None <->
     (exists p name, In p paths /\ leads_to p name /\ ~ json_name name) \/
     (exists l1 p l2 q l3 label, paths = l1 ++ p :: l2 ++ q :: l3 /\ organizations_file p /\ organizations_file q /\
        gets_label ignored p label /\ gets_label ignored q label)) /\
  (forall inputs, extract_inputs paths ignored = Ok (Some inputs) -> exists nodes_paths, selects nodes_file paths nodes_paths /\
     Forall2 (fun p i => nodes_path i = p /\ gets_label ignored p (in_label i) /\
       forall q, organizations_path i = Some q <-> In q paths /\ organizations_file q /\ gets_label ignored q (in_label i)) nodes_paths inputs).
Proof. exact inputs_spec. Qed.
Print Assumptions C63_inputs.

Theorem C63_panic : forall (paths : list path) (ignored : string),
  extract_inputs paths ignored = Panic <-> exists p, In p paths /\ forall name, ~ leads_to p name.
Proof. exact inputs_panic_spec. Qed.
Print Assumptions C63_panic.

(** The error says that some files were not recognized. *)
Theorem C63_error_refuted : exists paths ignored, Forall (fun p => nodes_file p \/ organizations_file p) paths /\ extract_inputs paths ignored = Ok None.
Proof. exact refused_inputs. Qed.
Print Assumptions C63_error_refuted.

(** Only whole parts of a file name are filtered out of the label. *)
Theorem C63_ignored_refuted : exists p ignored label, leads_to p p /\ extract_label p ignored = Ok label /\ ignored <> "" /\
  exists a b, label = (a ++ ignored ++ b)%string.
Proof. exact kept_ignored. Qed.
Print Assumptions C63_ignored_refuted.

Example C63_example : leads_to "../data/2020-06-03_stellarbeat_nodes.json" "2020-06-03_stellarbeat_nodes.json" /\
  composed_of ["2020-06-03"; "stellarbeat"; "nodes"] "2020-06-03_stellarbeat_nodes.json" /\
  extract_label "../data/2020-06-03_stellarbeat_nodes.json" "stellarbeat" = Ok "2020-06-03" /\
  extract_inputs ["b/1_organizations.json"; "b/1_nodes.json"; "c/2.json"] "" =
    Ok (Some [mk_input "1" "b/1_nodes.json" (Some "b/1_organizations.json"); mk_input "2" "c/2.json" None]) /\
  extract_label "a/x_.json_b/." "" = Ok "x_b" /\ extract_inputs ["a.csv"] "" = Ok None /\ extract_inputs [".."] "" = Panic.
Proof.
  split; [apply file_name_of; reflexivity|].
  split. { split; [repeat (constructor; [cbn; repeat split; discriminate|]); constructor|]. exists ["2020-06-03_stellarbeat_nodes"; ""].
    split; [reflexivity|]. split; [|left; split; [reflexivity|discriminate]]. repeat constructor; intros a b H.
    - assert (contains ".json" "2020-06-03_stellarbeat_nodes" = true) as F by (apply contains_spec; eauto). vm_compute in F. discriminate.
    - destruct a; discriminate. }
  repeat split; vm_compute; reflexivity.
Qed.

(** C64: rows. The conditions of C17 and C18 are needed. *)
Theorem C64_row_partial : forall (E : ext) (digest : json -> string) (files : path -> option json) (clock : input_data_point -> durations) (input : input_data_point)
  (j : json) (l : list raw_node) (f : fbas), ext_ok E ->
  files (nodes_path input) = Some j -> raw_fbas_of_json j = Ok l -> fbas_from_json j = Ok f -> unique_keys l ->
  (forall n s, In n l -> raw_isp n = Some s \/ country_name n = Some s -> ~ uncleanable s) ->
  has_a_quorum f -> sane_clusters f -> splittable_clusters f ->
  (forall p, organizations_path input = Some p -> exists jo G, files p = Some jo /\ groupings_from_json jo f = Ok G /\ disjoint_groups (g_groupings G)) ->
  exists row I C s, bulk_analyze E digest files clock input = Ok row /\ out_label row = in_label input /\ node_results f row /\
    match organizations_path input with
    | Some p => exists jo G, files p = Some jo /\ groupings_from_json jo f = Ok G /\ group_results f (g_groupings G) (out_orgs row)
    | None => out_orgs row = no_results
    end /\
    isps_from_json j f = Ok I /\ (g_groupings I = [] -> out_isps row = no_results) /\ (g_groupings I <> [] -> group_results f (g_groupings I) (out_isps row)) /\
    countries_from_json j f = Ok C /\ (g_groupings C = [] -> out_ctries row = no_results) /\ (g_groupings C <> [] -> group_results f (g_groupings C) (out_ctries row)) /\
    to_standard_form E f = Ok s /\ out_standard_form_hash row = digest (fbas_to_json s) /\ out_durations row = clock input.
Proof. exact analyzed_row. Qed.
Print Assumptions C64_row_partial.

Definition shown_row (r : res output_data_point) : option (list nat * list (option nat)) :=
  match r with
  | Ok o => Some ([out_top_tier_size o; out_mq_min o; out_mq_max o; out_mbs_min o; out_mss_min o],
                  [gr_top_tier_size (out_orgs o); gr_mq_max (out_orgs o); gr_mbs_min (out_orgs o); gr_mss_min (out_orgs o);
                   gr_top_tier_size (out_isps o); gr_top_tier_size (out_ctries o)])
  | Panic => None
  end.
Example C64_example : three_files "data/x_nodes.json" = Some three_json /\ raw_fbas_of_json three_json = Ok three_raw /\ fbas_from_json three_json = Ok three /\
  unique_keys three_raw /\ (forall n s, In n three_raw -> raw_isp n = Some s \/ country_name n = Some s -> ~ uncleanable s) /\
  has_a_quorum three /\ sane_clusters three /\ splittable_clusters three /\
  (exists jo G, three_files "data/x_organizations.json" = Some jo /\ groupings_from_json jo three = Ok G /\ disjoint_groups (g_groupings G)) /\
  shown_row (bulk_analyze std_ext (fun _ => "") three_files no_clock (mk_input "x" "data/x_nodes.json" (Some "data/x_organizations.json"))) =
    Some ([3; 2; 2; 2; 1], [Some 2; Some 1; Some 1; Some 1; Some 2; None]).
Proof.
  split; [reflexivity|]. split; [apply three_read|]. split; [apply three_read|]. split; [exact three_unique|]. split; [exact three_clean|].
  split; [apply (has_quorum three (of_list [0;1])); vm_compute; reflexivity|]. split; [apply saneCb_ok; vm_compute; reflexivity|].
  split; [apply splitCb_ok; vm_compute; reflexivity|]. split; [exact three_orgs|]. vm_compute. reflexivity.
Qed.
