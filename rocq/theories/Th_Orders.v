(** Theorems on independence of results from the heuristic orders and from the numbering of nodes. *)
From Verif Require Import P_ThOrders.
Local Open Scope list_scope.

(** C52 *)
Theorem C52_minimal_quorums : forall (E1 E2 : ext), ext_ok E1 -> ext_ok E2 -> forall (f : fbas), wf_fbas f ->
  find_minimal_quorums E1 f = find_minimal_quorums E2 f.
Proof. exact quorums_same. Qed.
Print Assumptions C52_minimal_quorums.

Theorem C52_minimal_blocking_sets : forall (E1 E2 : ext), ext_ok E1 -> ext_ok E2 -> forall (f : fbas), wf_fbas f ->
  find_minimal_blocking_sets E1 f = find_minimal_blocking_sets E2 f.
Proof. exact blocking_same. Qed.
Print Assumptions C52_minimal_blocking_sets.

(** [find_minimal_splitting_sets] takes the minimal quorums as an argument *)
Theorem C52_minimal_splitting_sets : forall (E1 E2 : ext), ext_ok E1 -> ext_ok E2 -> forall (f : fbas), wf_fbas f ->
  forall (mq : list bset), find_minimal_quorums E1 f = Ok mq ->
  find_minimal_splitting_sets E1 f mq = find_minimal_splitting_sets E2 f mq.
Proof. exact splitting_same. Qed.
Print Assumptions C52_minimal_splitting_sets.

Theorem C52_symmetric_top_tier : forall (E1 E2 : ext), ext_ok E1 -> ext_ok E2 -> forall (f : fbas), wf_fbas f ->
  find_symmetric_top_tier E1 f = find_symmetric_top_tier E2 f.
Proof. exact symmetric_top_tier_same. Qed.
Print Assumptions C52_symmetric_top_tier.

(** the list of symmetric clusters is in the order of the component decomposition *)
Theorem C52_symmetric_clusters : forall (E1 E2 : ext), ext_ok E1 -> ext_ok E2 -> forall (f : fbas), wf_fbas f ->
  exists l l', find_symmetric_clusters E1 f = Ok l /\ find_symmetric_clusters E2 f = Ok l' /\ Permutation l l'.
Proof. exact symmetric_clusters_same. Qed.
Print Assumptions C52_symmetric_clusters.

(** and so for a sequence of calls on an [Analysis] *)
Theorem C52_analysis : forall (E1 E2 : ext) (f : fbas) (cs : list call), ext_ok E1 -> ext_ok E2 -> wf_fbas f -> Forall (allowed f) cs ->
  (In MinimalQuorums cs -> distinct_clusters f) -> ~ In AlternativeCheck cs -> ~ In SymmetricClusters cs ->
  exists ans ans', analyze E1 f cs = Ok ans /\ analyze E2 f cs = Ok ans' /\ Forall2 same_answer ans ans'.
Proof. exact analyze_orders. Qed.
Print Assumptions C52_analysis.

Example C52_example : ext_ok std_ext /\ ext_ok rev_ext /\ wf_fbas mixed /\
  consensus_clusters std_ext mixed <> consensus_clusters rev_ext mixed /\
  rank_sort std_ext mixed [0;1] <> rank_sort rev_ext mixed [0;1] /\
  show (find_minimal_quorums std_ext mixed) = Ok [[0;1];[2;3]] /\ show (find_minimal_quorums rev_ext mixed) = Ok [[0;1];[2;3]] /\
  show (find_minimal_blocking_sets rev_ext mixed) = Ok [[0;2];[0;3];[1;2];[1;3]] /\
  show (find_minimal_splitting_sets rev_ext flat [of_list [0;1]; of_list [0;2]; of_list [1;2]]) = Ok [[0];[1];[2]].
Proof.
  split; [exact std_ext_ok|]. split; [exact rev_ext_ok|]. split; [exact mixed_wf|].
  split; [vm_compute; discriminate|]. split; [vm_compute; discriminate|]. repeat split; vm_compute; reflexivity.
Qed.

(** C53 *)
Theorem C53_minimal_quorums : forall (E E' : ext) (p : nat -> nat) (f g : fbas), ext_ok E -> ext_ok E' -> wf_fbas f -> renumbering p f g ->
  exists l l', find_minimal_quorums E f = Ok l /\ find_minimal_quorums E' g = Ok l' /\ same_sets_under p l l'.
Proof. exact renumber_quorums. Qed.
Print Assumptions C53_minimal_quorums.

(** under the conditions of C17 and C18, on both sides *)
Theorem C53_minimal_blocking_sets_partial : forall (E E' : ext) (p : nat -> nat) (f g : fbas), ext_ok E -> ext_ok E' -> wf_fbas f -> renumbering p f g ->
  (forall q, satisfiable_cluster f q -> no_repetitions q /\ sane q) ->
  (forall q, satisfiable_cluster g q -> no_repetitions q /\ sane q) ->
  (exists Q, quorum f Q) ->
  exists l l', find_minimal_blocking_sets E f = Ok l /\ find_minimal_blocking_sets E' g = Ok l' /\ same_sets_under p l l'.
Proof. exact renumber_blocking. Qed.
Print Assumptions C53_minimal_blocking_sets_partial.

Theorem C53_minimal_splitting_sets_partial : forall (E E' : ext) (p : nat -> nat) (f g : fbas) (mq mq' : list bset),
  ext_ok E -> ext_ok E' -> wf_fbas f -> renumbering p f g -> quorum_intersection f ->
  (forall q, satisfiable_cluster f q -> no_repetitions q /\ (splittable q \/ rigid q)) ->
  (forall q, satisfiable_cluster g q -> no_repetitions q /\ (splittable q \/ rigid q)) ->
  find_minimal_quorums E f = Ok mq -> find_minimal_quorums E' g = Ok mq' ->
  exists l l', find_minimal_splitting_sets E f mq = Ok l /\ find_minimal_splitting_sets E' g mq' = Ok l' /\ same_sets_under p l l'.
Proof. exact renumber_splitting. Qed.
Print Assumptions C53_minimal_splitting_sets_partial.

Theorem C53_quorum_intersection : forall (E E' : ext) (p : nat -> nat) (f g : fbas), ext_ok E -> ext_ok E' -> wf_fbas f -> renumbering p f g ->
  exists b, analyze E f [HasQuorumIntersection] = Ok [ABool b] /\ analyze E' g [HasQuorumIntersection] = Ok [ABool b].
Proof. exact renumber_intersection. Qed.
Print Assumptions C53_quorum_intersection.

Example C53_example : wf_fbas flat /\ renumbering shift flat flat_shifted /\
  (forall q, satisfiable_cluster flat q -> no_repetitions q /\ sane q) /\
  show (find_minimal_quorums std_ext flat) = Ok [[0;1];[0;2];[1;2]] /\
  show (find_minimal_quorums std_ext flat_shifted) = Ok [[1;2];[1;3];[2;3]] /\
  show (find_minimal_blocking_sets std_ext flat_shifted) = Ok [[1;2];[1;3];[2;3]] /\
  analyze std_ext flat_shifted [HasQuorumIntersection] = Ok [ABool true].
Proof.
  split; [exact flat_wf|]. split; [exact flat_renumbering|].
  split; [apply good_clusters, goodb_ok; vm_compute; reflexivity|]. repeat split; vm_compute; reflexivity.
Qed.
