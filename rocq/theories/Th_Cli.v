(** The command line tool [fbas_analyzer] (C66-C68). *)
From Coq Require Import ZArith Reals Ascii.
From Verif Require Import P_ThCli.
Local Open Scope string_scope.
Local Open Scope list_scope.
Local Open Scope nat_scope.

(** C66: the report. The conditions of C17 and C18 are needed. *)
Theorem C66_report_partial : forall (E : ext) (files : path -> option json) (stdin : option json) (args : cli)
  (j : json) (l : list raw_node) (f : fbas) (o : option groupings), ext_ok E ->
  nodes_document args files stdin j -> raw_fbas_of_json j = Ok l -> fbas_from_json j = Ok f ->
  groups_to_merge args files f o -> (forall G, o = Some G -> disjoint_groups (g_groupings G)) ->
  (uses_alternative args -> has_a_quorum f) -> (wants_blocking args -> has_a_quorum f /\ sane_clusters f) ->
  (wants_splitting args -> has_a_quorum f /\ splittable_clusters f) ->
  exists items, cli_main E files stdin args = Ok items /\ report args f o (results items).
Proof. exact full_report. Qed.
Print Assumptions C66_report_partial.

(** The groups can be read and, those of organizations aside, do not overlap. *)
Theorem C66_groups : forall (args : cli) (files : path -> option json) (stdin : option json) (j : json) (l : list raw_node) (f : fbas),
  nodes_document args files stdin j -> raw_fbas_of_json j = Ok l -> fbas_from_json j = Ok f -> unique_keys l ->
  (forall n s, In n l -> raw_isp n = Some s \/ country_name n = Some s -> ~ uncleanable s) ->
  (forall p, cli_organizations_path args = Some p -> exists jo G, files p = Some jo /\ groupings_from_json jo f = Ok G /\ disjoint_groups (g_groupings G)) ->
  exists o, groups_to_merge args files f o /\ forall G, o = Some G -> disjoint_groups (g_groupings G).
Proof. exact groups_found. Qed.
Print Assumptions C66_groups.

Example C66_example : nodes_document with_orgs three_files None three_json /\ raw_fbas_of_json three_json = Ok three_raw /\ fbas_from_json three_json = Ok three /\
  unique_keys three_raw /\ (forall n s, In n three_raw -> raw_isp n = Some s \/ country_name n = Some s -> ~ uncleanable s) /\
  (exists jo G, three_files "data/x_organizations.json" = Some jo /\ groupings_from_json jo three = Ok G /\ disjoint_groups (g_groupings G)) /\
  has_a_quorum three /\ sane_clusters three /\ splittable_clusters three /\
  cli_main std_ext three_files None with_orgs = Ok
    [Line "nodes_total" (VNat 3); Line "nodes_total_merged" (VNat 2);
     Line "symmetric_clusters" (VPrettyQsets [PQS 2 ["a"; "Org"; "Org"] []]); Duration "symmetric_clusters";
     Line "minimal_quorums" (VNameLists [["Org"]]); Duration "minimal_quorums";
     Line "has_quorum_intersection" (VBool true); Duration "has_quorum_intersection";
     Line "minimal_blocking_sets" (VNameLists [["Org"]]); Duration "minimal_blocking_sets";
     Line "minimal_splitting_sets" (VNameLists [["a"]; ["Org"]]); Duration "minimal_splitting_sets";
     Line "top_tier" (VNames ["a"; "Org"])].
Proof.
  split; [reflexivity|]. split; [apply three_read|]. split; [apply three_read|]. split; [exact three_unique|]. split; [exact three_clean|].
  split; [exact three_orgs|]. split; [apply (has_quorum three (of_list [0;1])); vm_compute; reflexivity|]. split; [apply saneCb_ok; vm_compute; reflexivity|].
  split; [apply splitCb_ok; vm_compute; reflexivity|]. vm_compute. reflexivity.
Qed.

(** C67: options decide what is reported, not what it says. *)
Theorem C67_same_values_partial : forall (E : ext) (files : path -> option json) (stdin : option json) (args args' : cli)
  (j : json) (l : list raw_node) (f : fbas) (o : option groupings) (items items' : list item), ext_ok E -> same_input_and_form args args' ->
  nodes_document args files stdin j -> raw_fbas_of_json j = Ok l -> fbas_from_json j = Ok f ->
  groups_to_merge args files f o -> (forall G, o = Some G -> disjoint_groups (g_groupings G)) ->
  (o = None -> distinct_clusters f) ->
  (uses_alternative args \/ uses_alternative args' -> has_a_quorum f) ->
  (wants_blocking args \/ wants_blocking args' -> has_a_quorum f /\ sane_clusters f) ->
  (wants_splitting args \/ wants_splitting args' -> has_a_quorum f /\ splittable_clusters f) ->
  cli_main E files stdin args = Ok items -> cli_main E files stdin args' = Ok items' ->
  forall name v v', name <> "nonintersecting_quorums" -> In (Line name v) items -> In (Line name v') items' -> v = v'.
Proof. exact same_values. Qed.
Print Assumptions C67_same_values_partial.

(** [--results-only] leaves out the comments and changes nothing else, for all inputs. *)
Theorem C67_results_only : forall (E : ext) (files : path -> option json) (stdin : option json) (args : cli),
  cli_main E files stdin (with_results_only args) = res_map results (cli_main E files stdin args).
Proof. exact results_only_run. Qed.
Print Assumptions C67_results_only.

(** Without the conditions, the top tier depends on the other options. *)
Theorem C67_options_refuted : exists files args args' items items' v v', same_input_and_form args args' /\
  cli_main std_ext files None args = Ok items /\ cli_main std_ext files None args' = Ok items' /\
  In (Line "top_tier" v) items /\ In (Line "top_tier" v') items' /\ v <> v'.
Proof. exact options_matter. Qed.
Print Assumptions C67_options_refuted.

Example C67_example : same_input_and_form with_orgs (options false true false true false false true true (Some "data/x_organizations.json") false false) /\
  cli_main std_ext three_files None (options false true false true false false true true (Some "data/x_organizations.json") false false) = Ok
    [Line "nodes_total" (VNat 3); Line "nodes_total_merged" (VNat 2);
     Line "symmetric_clusters" (VPrettyQsets [PQS 2 ["a"; "Org"; "Org"] []]); Duration "symmetric_clusters";
     Line "has_quorum_intersection" (VBool true); Duration "has_quorum_intersection";
     Line "minimal_blocking_sets" (VNameLists [["Org"]]); Duration "minimal_blocking_sets";
     Line "top_tier" (VNames ["a"; "Org"])].
Proof. split; [repeat split|vm_compute; reflexivity]. Qed.

(** C68: the numbers in comments are those of sets of nodes, also if groups are merged. *)
Theorem C68_counts_partial : forall (E : ext) (files : path -> option json) (stdin : option json) (args : cli)
  (j : json) (l : list raw_node) (f : fbas) (o : option groupings), ext_ok E ->
  nodes_document args files stdin j -> raw_fbas_of_json j = Ok l -> fbas_from_json j = Ok f ->
  groups_to_merge args files f o -> (forall G, o = Some G -> disjoint_groups (g_groupings G)) ->
  (uses_alternative args -> has_a_quorum f) -> (wants_blocking args -> has_a_quorum f /\ sane_clusters f) ->
  (wants_splitting args -> has_a_quorum f /\ splittable_clusters f) -> cli_results_only args = false ->
  exists items, cli_main E files stdin args = Ok items /\
  (wants_quorums args -> exists sets, lists_weakly (minimal_quorum f) sets /\ (distinct_clusters f -> lists (minimal_quorum f) sets) /\
     counts "minimal_quorums" (List.length sets) " minimal quorums." items) /\
  (wants_blocking args -> exists sets, lists (minimal_blocking f) sets /\
     counts "minimal_blocking_sets" (List.length sets) (" minimal blocking sets (minimal indispensable sets for global liveness). " ++
       "Control over any of these sets is sufficient to compromise the liveness of all nodes and to censor future transactions.")%string items) /\
  (wants_splitting args -> exists sets, lists (minimal_splitting f) sets /\
     counts "minimal_splitting_sets" (List.length sets) (" minimal splitting sets (minimal indispensable sets for safety). " ++
       "Control over any of these sets is sufficient to compromise safety by undermining the quorum intersection of at least two quorums.")%string items) /\
  (wants_quorums args \/ wants_blocking args \/ wants_splitting args ->
     exists v R pre post, shows_set args f (group_list o) R v /\
       items = pre ++ [Line "top_tier" v; Message [inl (line_break ++ "There is a total of ")%string; inr (len R);
         inl (" distinct nodes involved in all of these sets (this is the ""top tier"")." ++ line_break)%string]] ++ post) /\
  (wants_check args ->
     (quorum_intersection f /\ In (Message [inl (line_break ++ "All quorums intersect 👍" ++ line_break)%string]) items) \/
     (~ quorum_intersection f /\ exists more, In (Message [inl (line_break ++ "Some quorums don't intersect 👎" ++ more)%string]) items)).
Proof. exact comment_counts. Qed.
Print Assumptions C68_counts_partial.

(** With merging, the number is not the number of the sets shown. *)
Theorem C68_merged_refuted : exists files args items n l, cli_main std_ext files None args = Ok items /\
  counts "minimal_quorums" n " minimal quorums." items /\ In (Line "minimal_quorums" (VIdLists l)) items /\
  (forall l', In (Line "minimal_quorums" l') items -> l' = VIdLists l) /\ n <> List.length l.
Proof. exact wrong_count. Qed.
Print Assumptions C68_merged_refuted.

Example C68_example : nodes_document talkative three_files None three_json /\ cli_results_only talkative = false /\ wants_quorums talkative /\
  (exists items, cli_main std_ext three_files None talkative = Ok items /\
     In (Message [inl (line_break ++ "We found ")%string; inr 3; inl (" minimal quorums." ++ line_break)%string]) items).
Proof. split; [reflexivity|]. split; [reflexivity|]. split; [right; reflexivity|]. eexists. split; [vm_compute; reflexivity|]. cbn. tauto. Qed.
