(** The texts that [fbas_analyzer] prints: C74. *)
From Coq Require Import ZArith Ascii.
From Flocq Require Import IEEE754.BinarySingleNaN.
From Verif Require Import P_CliText.
Local Open Scope string_scope.
Local Open Scope list_scope.
Local Open Scope nat_scope.

(** C74: the printed text of a result is a JSON document that says what the result is *)
Theorem C74_results : forall (minus_zero : bool) (float_text : f64 -> list ascii) (v : M_Cli.value), float_format minus_zero float_text ->
  says minus_zero float_text v (value_text float_text v).
Proof. exact value_says. Qed.
Print Assumptions C74_results.

Theorem C74_unambiguous : forall (minus_zero : bool) (float_text : f64 -> list ascii) (v v' : M_Cli.value),
  float_format minus_zero float_text -> faithful_format float_text -> same_kind v v' ->
  value_text float_text v = value_text float_text v' -> v = v'.
Proof. exact value_text_inj. Qed.
Print Assumptions C74_unambiguous.

(** the output is one text per item, and results take one line each, except for symmetric clusters with names *)
Theorem C74_lines_partial : forall (float_text : f64 -> list ascii) (duration_text : string -> list ascii) (E : ext) (minus_zero : bool)
  (files : path -> option (list ascii)) (stdin : option (list ascii)) (args : cli) (out : list ascii),
  float_format minus_zero float_text -> (forall name, ~ In end_of_line (duration_text name)) ->
  cli_output float_text duration_text E minus_zero files stdin args = Ok out ->
  exists items texts, cli_main E (fun p => tree_of minus_zero (files p)) (tree_of minus_zero stdin) args = Ok items /\ out = concat texts /\
    Forall2 (fun i t => printed_item minus_zero float_text duration_text i t /\
                        (is_result i = true -> cli_pretty args = false \/ (forall v, i <> Line "symmetric_clusters" v) -> one_line t)) items texts.
Proof. exact output_printed. Qed.
Print Assumptions C74_lines_partial.

(** from the texts of the files to the text of the report; the conditions are those of C66 *)
Theorem C74_report_partial : forall (float_text : f64 -> list ascii) (duration_text : string -> list ascii) (E : ext) (minus_zero : bool)
  (files : path -> option (list ascii)) (stdin : option (list ascii)) (args : cli) (s : list ascii) (f : fbas) (o : option groupings),
  ext_ok E -> float_format minus_zero float_text ->
  nodes_text args files stdin s -> fbas_from_text minus_zero s = Ok f ->
  text_groups_to_merge minus_zero args files f o -> (forall G, o = Some G -> disjoint_groups (g_groupings G)) ->
  (uses_alternative args -> has_a_quorum f) -> (wants_blocking args -> has_a_quorum f /\ sane_clusters f) ->
  (wants_splitting args -> has_a_quorum f /\ splittable_clusters f) ->
  exists out items, cli_output float_text duration_text E minus_zero files stdin args = Ok out /\
    prints minus_zero float_text duration_text items out /\ report args f o (results items).
Proof. exact printed_report. Qed.
Print Assumptions C74_report_partial.

(** with [--pretty], symmetric clusters are printed on several lines *)
Theorem C74_several_lines_refuted : exists v, (exists l, v = VPrettyQsets l) /\
  forall float_text duration_text, ~ one_line (item_text float_text duration_text (Line "symmetric_clusters" v)).
Proof. exact several_lines. Qed.
Print Assumptions C74_several_lines_refuted.

(** formats as required exist *)
Example C74_format : exists float_text, faithful_format float_text /\ forall minus_zero, float_format minus_zero float_text.
Proof. exists plain_format. split; [exact plain_format_faithful|exact plain_format_ok]. Qed.
Definition shown (r : res (list ascii)) : res string := res_map string_of_list_ascii r.
Example C74_example : nodes_text with_orgs text_files None (fbas_to_text_pretty three) /\ fbas_from_text true (fbas_to_text_pretty three) = Ok three /\
  (exists G, text_groups_to_merge true with_orgs text_files three (Some G) /\ disjoint_groups (g_groupings G)) /\
  has_a_quorum three /\ sane_clusters three /\ splittable_clusters three /\
  shown (cli_output some_format some_duration std_ext true text_files None with_orgs) = Ok
"nodes_total: 3
nodes_total_merged: 2
symmetric_clusters: [
  {
    ""threshold"": 2,
    ""validators"": [
      ""a"",
      ""Org\n"",
      ""Org\n""
    ]
  }
]
symmetric_clusters_analysis_duration: 0.25s
minimal_quorums: [[""Org\n""]]
minimal_quorums_analysis_duration: 0.25s
has_quorum_intersection: true
has_quorum_intersection_analysis_duration: 0.25s
minimal_blocking_sets: [[""Org\n""]]
minimal_blocking_sets_analysis_duration: 0.25s
minimal_splitting_sets: [[""a""],[""Org\n""]]
minimal_splitting_sets_analysis_duration: 0.25s
top_tier: [""a"",""Org\n""]
".
Proof.
  split; [reflexivity|]. split; [vm_compute; reflexivity|]. split; [exact text_orgs|].
  split; [apply (has_quorum three (of_list [0;1])); vm_compute; reflexivity|]. split; [apply saneCb_ok; vm_compute; reflexivity|].
  split; [apply splitCb_ok; vm_compute; reflexivity|]. vm_compute. reflexivity.
Qed.
Example C74_by_id : shown (cli_output some_format some_duration std_ext true text_files None talkative) = Ok
"In the following dumps, nodes are identified by node IDs corresponding to their index in the input file.
nodes_total: 3
nodes_total_merged: 2
(Nodes belonging to the same grouping will be counted as one.)

symmetric_clusters: [{""threshold"":2,""validators"":[0,1,1]}]
symmetric_clusters_analysis_duration: 0.25s

minimal_quorums: [[1]]
minimal_quorums_analysis_duration: 0.25s

We found 3 minimal quorums.

has_quorum_intersection: true
has_quorum_intersection_analysis_duration: 0.25s

All quorums intersect 👍

top_tier: [0,1]

There is a total of 2 distinct nodes involved in all of these sets (this is the ""top tier"").

".
Proof. vm_compute. reflexivity. Qed.
