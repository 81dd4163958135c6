(** Merging quorum sets by group: C28, C90. *)
From Verif Require Import P_MergeExact P_MergeBack.
Local Open Scope list_scope.

(** a quorum set is merged into one with a single validator exactly if it is reduced to a group, and the validator
    stands for that group *)
Theorem C28_reduced : forall (f : fbas) (gs : list grouping) (q : qset),
  groups_of f gs -> disjoint_groups gs -> ids_known f q ->
  exists G q', groupings_new gs f = Ok G /\ merge_quorum_set G q = Ok q' /\
    forall x, stands_for gs q x <-> exists v, validators q' = [v] /\ x < number_of_nodes f /\ represents gs v x.
Proof. exact reduced_exact. Qed.
Print Assumptions C28_reduced.

(** satisfaction is preserved if no inner quorum set that is reduced to a group can be satisfied without the group *)
Theorem C28_kept_partial : forall (f : fbas) (gs : list grouping) (q : qset),
  groups_of f gs -> disjoint_groups gs -> ids_known f q -> (forall i, inside i q -> kept gs i) ->
  forall S : bset, (forall x, mem x S = true -> x < number_of_nodes f) -> slice (fun x => mem x S = true) q ->
  exists G q' R, groupings_new gs f = Ok G /\ merge_quorum_set G q = Ok q' /\ merge_node_set G S = Ok R /\
    group_image gs S R /\ slice (fun x => mem x R = true) q'.
Proof. exact kept_preserved. Qed.
Print Assumptions C28_kept_partial.

(** the condition is weaker than that of C28_merge_preserves_partial *)
Theorem C28_separable_kept : forall (f : fbas) (gs : list grouping) (q : qset),
  groups_of f gs -> disjoint_groups gs -> separable gs q -> forall i, inside i q -> kept gs i.
Proof. exact separable_kept. Qed.
Print Assumptions C28_separable_kept.

(** the condition is necessary: it says that satisfaction of each inner quorum set is preserved when it is an inner quorum
    set of a quorum set that needs it *)
Theorem C28_exact : forall (f : fbas) (gs : list grouping) (q : qset),
  groups_of f gs -> disjoint_groups gs -> ids_known f q ->
  ((forall i, inside i q -> kept gs i) <-> (forall i, inside i q -> preserved f gs (QS 1 [] [i]))).
Proof. exact kept_exact. Qed.
Print Assumptions C28_exact.

(** a quorum set that meets the condition but not that of C28_merge_preserves_partial, and an inner one that does not *)
Example C28_kept_example : stands_for [] (QS 2 [0] [QS 1 [1;2] []]) 0 /\ ~ separable [] chained /\
  (forall i, inside i chained -> kept [] i) /\ ~ kept [] (QS 1 [0] [QS 1 [1;2] []]).
Proof. exact chained_kept. Qed.
Example C28_kept_satisfied : slice (fun x => mem x (of_list [0;1]) = true) chained.
Proof. apply is_quorum_slice_iff. vm_compute. reflexivity. Qed.

(** C90: a set of whole groups satisfies a quorum set iff the merged set satisfies the merged quorum set, if the quorum
    sets that are reduced to a group are satisfied by the group and not without it *)
Theorem C90_same_partial : forall (f : fbas) (gs : list grouping) (q : qset),
  groups_of f gs -> disjoint_groups gs -> ids_known f q ->
  (forall i, inside i q -> kept gs i) -> (forall i, inside i q -> met gs i) -> met gs q -> wholly gs q ->
  forall S : bset, (forall x, mem x S = true -> x < number_of_nodes f) -> whole_groups gs S ->
  exists G q' R, groupings_new gs f = Ok G /\ merge_quorum_set G q = Ok q' /\ merge_node_set G S = Ok R /\
    group_image gs S R /\ (slice (fun x => mem x S = true) q <-> slice (fun x => mem x R = true) q').
Proof. exact merged_same. Qed.
Print Assumptions C90_same_partial.

(** in particular for quorum sets of depth two with inner thresholds that can be met *)
Theorem C90_two_level : forall (f : fbas) (gs : list grouping) (q : qset),
  groups_of f gs -> disjoint_groups gs -> ids_known f q -> two_level q ->
  (forall i, In i (inner_quorum_sets q) -> 1 <= threshold i <= List.length (validators i)) -> ~ reduced gs q ->
  forall S : bset, (forall x, mem x S = true -> x < number_of_nodes f) -> whole_groups gs S ->
  exists G q' R, groupings_new gs f = Ok G /\ merge_quorum_set G q = Ok q' /\ merge_node_set G S = Ok R /\
    group_image gs S R /\ (slice (fun x => mem x S = true) q <-> slice (fun x => mem x R = true) q').
Proof. exact merged_two_level. Qed.
Print Assumptions C90_two_level.

(** the conditions on the inner quorum sets are necessary: they say that merging an inner quorum set does not change
    what satisfies it when it is an inner quorum set of a quorum set that needs it *)
Theorem C90_exact : forall (f : fbas) (gs : list grouping) (q : qset),
  groups_of f gs -> disjoint_groups gs -> ids_known f q ->
  ((forall i, inside i q -> kept gs i /\ met gs i) <-> (forall i, inside i q -> same_when_merged f gs (QS 1 [] [i]))).
Proof. exact same_exact. Qed.
Print Assumptions C90_exact.

(** in general merging weakens quorum sets: three of three become one of two *)
Theorem C90_weakened_refuted : exists f gs q (S : bset) G q' R, groups_of f gs /\ disjoint_groups gs /\ ids_known f q /\
  (forall x, mem x S = true -> x < number_of_nodes f) /\ whole_groups gs S /\
  groupings_new gs f = Ok G /\ merge_quorum_set G q = Ok q' /\ merge_node_set G S = Ok R /\
  q = QS 3 [0;1] [QS 1 [2;3] []] /\ q' = QS 1 [0] [QS 1 [2;3] []] /\
  ~ slice (fun x => mem x S = true) q /\ slice (fun x => mem x R = true) q'.
Proof. exact merging_weakened. Qed.
Print Assumptions C90_weakened_refuted.

(** what users see: a symmetric cluster is shown as "one of: a, one of n2 and n3", although both members of a are in
    every quorum *)
Theorem C90_shown_refuted : exists f gs q G p, wf_fbas f /\ groups_of f gs /\ disjoint_groups gs /\
  analyze std_ext f [SymmetricClusters] = Ok [AQsets [q]] /\ groupings_new gs f = Ok G /\ into_pretty_quorum_set q f (Some G) = Ok p /\
  p = PQS 1 ["a"%string] [PQS 1 ["n2"%string; "n3"%string] []] /\
  forall Q, quorum f Q -> mem 0 Q = true /\ mem 1 Q = true.
Proof. exact shown_weaker. Qed.
Print Assumptions C90_shown_refuted.

(** an organization that counts as one of three *)
Example C90_example : groups_of flat first_two /\ disjoint_groups first_two /\ ids_known flat two_and_group /\ two_level two_and_group /\
  ~ reduced first_two two_and_group /\ whole_groups first_two (of_list [0;1;2]) /\
  slice (fun x => mem x (of_list [0;1;2]) = true) two_and_group /\
  exists G, groupings_new first_two flat = Ok G /\ merge_quorum_set G two_and_group = Ok (QS 2 [2;3;0] []).
Proof. exact two_and_group_ok. Qed.
