(** The command line tool [fbas_analyzer] for any FBAS (C82). *)
From Coq Require Import ZArith Reals Ascii.
From Verif Require Import P_ThCliAny.
Local Open Scope string_scope.
Local Open Scope list_scope.
Local Open Scope nat_scope.

(** C82: for every input that can be read and every choice of options there is a report. It says the same as [report] (C66) apart from
    the blocking and the splitting sets, which are only right under the conditions of C17 and C18; sets reported as blocking always block. *)
Theorem C82_report : forall (E : ext) (files : path -> option json) (stdin : option json) (args : cli)
  (j : json) (l : list raw_node) (f : fbas) (o : option groupings), ext_ok E ->
  nodes_document args files stdin j -> raw_fbas_of_json j = Ok l -> fbas_from_json j = Ok f ->
  groups_to_merge args files f o -> (forall G, o = Some G -> disjoint_groups (g_groupings G)) ->
  (uses_alternative args -> has_a_quorum f) ->
  exists items, cli_main E files stdin args = Ok items /\ any_report args f o (results items).
Proof. exact any_full_report. Qed.
Print Assumptions C82_report.

(** The tool panics if and only if the alternative check is asked for and there is no quorum. *)
Theorem C82_panics : forall (E : ext) (files : path -> option json) (stdin : option json) (args : cli)
  (j : json) (l : list raw_node) (f : fbas) (o : option groupings), ext_ok E ->
  nodes_document args files stdin j -> raw_fbas_of_json j = Ok l -> fbas_from_json j = Ok f ->
  groups_to_merge args files f o -> (forall G, o = Some G -> disjoint_groups (g_groupings G)) ->
  (cli_main E files stdin args = Panic <-> uses_alternative args /\ ~ has_a_quorum f).
Proof. exact panics_exactly. Qed.
Print Assumptions C82_panics.

(** Settled values do not depend on the other options. *)
Theorem C82_same_values : forall (E : ext) (files : path -> option json) (stdin : option json) (args args' : cli)
  (j : json) (l : list raw_node) (f : fbas) (o : option groupings) (items items' : list item), ext_ok E -> same_input_and_form args args' ->
  nodes_document args files stdin j -> raw_fbas_of_json j = Ok l -> fbas_from_json j = Ok f ->
  groups_to_merge args files f o -> (forall G, o = Some G -> disjoint_groups (g_groupings G)) ->
  cli_main E files stdin args = Ok items -> cli_main E files stdin args' = Ok items' ->
  forall name v v', settled args f o name -> settled args' f o name -> In (Line name v) items -> In (Line name v') items' -> v = v'.
Proof. exact settled_same. Qed.
Print Assumptions C82_same_values.

(** Everything is asked for and the shortcut for blocking sets is wrong: the quorums and the top tier are right. *)
Example C82_example : nodes_document everything hollow_files None hollow_json /\ raw_fbas_of_json hollow_json = Ok hollow_raw /\ fbas_from_json hollow_json = Ok hollow_fbas /\
  groups_to_merge everything hollow_files hollow_fbas None /\ has_a_quorum hollow_fbas /\ ~ sane_clusters hollow_fbas /\ orderly everything hollow_fbas /\
  settled everything hollow_fbas None "top_tier" /\ same_input_and_form everything unordered /\
  cli_main std_ext hollow_files None everything = Ok
    [Line "nodes_total" (VNat 1); Line "symmetric_clusters" (VQsets [QS 1 [0] [QS 1 [] []]]); Duration "symmetric_clusters";
     Line "minimal_quorums" (VIdLists [[0]]); Duration "minimal_quorums"; Line "has_quorum_intersection" (VBool true); Duration "has_quorum_intersection";
     Line "minimal_blocking_sets" (VIdLists []); Duration "minimal_blocking_sets"; Line "minimal_splitting_sets" (VIdLists []);
     Duration "minimal_splitting_sets"; Line "top_tier" (VIds [0])].
Proof.
  split; [reflexivity|]. split; [apply hollow_read|]. split; [apply hollow_read|]. split; [reflexivity|]. split; [exact hollow_quorum|]. split; [exact hollow_insane|].
  split; [intros _; left; right; reflexivity|]. split; [repeat split; try discriminate; intros _; left; right; reflexivity|].
  split; [repeat split|]. vm_compute. reflexivity.
Qed.
(** Without a quorum: the alternative check panics, the normal one does not. *)
Example C82_panics_example : nodes_document unordered lonely_files None lonely_json /\ fbas_from_json lonely_json = Ok lonely /\
  uses_alternative unordered /\ ~ has_a_quorum lonely /\
  cli_main std_ext lonely_files None unordered = Panic /\ exists items, cli_main std_ext lonely_files None everything = Ok items.
Proof.
  split; [reflexivity|]. split; [vm_compute; reflexivity|]. split; [split; reflexivity|]. split; [exact lonely_no_quorum|].
  split; [vm_compute; reflexivity|eexists; vm_compute; reflexivity].
Qed.
