(** Specification of merging quorum sets by group: which inner quorum sets are reduced to a single group, and when
    nothing is lost thereby. *)
From Verif Require Export Spec_Groupings.
Local Open Scope list_scope.

(** one node, or two nodes of a group *)
Definition together (gs : list grouping) (x y : nat) : Prop := x = y \/ same_group gs x y.
(** some element of [l] has the property [P] *)
Definition some_of {A} (P : A -> Prop) (l : list A) : Prop := fold_right (fun a rest => P a \/ rest) False l.
(** [q] is reduced to the group of [x]: its validators, and the groups that its inner quorum sets are reduced to (if they
    are), are all of that group, and there is at least one of them *)
Fixpoint stands_for (gs : list grouping) (q : qset) (x : nat) {struct q} : Prop :=
  let 'QS _ vs is_ := q in
  (exists y, In y vs \/ some_of (fun i => stands_for gs i y) is_) /\
  (forall y, In y vs \/ some_of (fun i => stands_for gs i y) is_ -> together gs x y).
(** a quorum set that is reduced to a group cannot be satisfied without the group *)
Definition kept (gs : list grouping) (q : qset) : Prop :=
  forall x (S : bset), stands_for gs q x -> slice (fun y => mem y S = true) q -> exists y, mem y S = true /\ together gs x y.
(** [i] is an inner quorum set of [q], at any depth *)
Inductive inside (i : qset) : qset -> Prop :=
| inside_here t vs is_ : In i is_ -> inside i (QS t vs is_)
| inside_deeper t vs is_ j : In j is_ -> inside i j -> inside i (QS t vs is_).
(** merging [q] keeps satisfied what is satisfied *)
Definition preserved (f : fbas) (gs : list grouping) (q : qset) : Prop :=
  forall S : bset, (forall x, mem x S = true -> x < number_of_nodes f) -> slice (fun x => mem x S = true) q ->
  exists G q' R, groupings_new gs f = Ok G /\ merge_quorum_set G q = Ok q' /\ merge_node_set G S = Ok R /\
    group_image gs S R /\ slice (fun x => mem x R = true) q'.
(** [q] is reduced to some group *)
Definition reduced (gs : list grouping) (q : qset) : Prop := exists x, stands_for gs q x.
(** a quorum set that is reduced to a group is satisfied by the group *)
Definition met (gs : list grouping) (q : qset) : Prop := forall x, stands_for gs q x -> slice (together gs x) q.
(** [q] is not reduced to a group, or without remaining inner quorum sets *)
Definition wholly (gs : list grouping) (q : qset) : Prop := reduced gs q -> forall i, In i (inner_quorum_sets q) -> reduced gs i.
(** with a node, [S] contains all nodes of its group *)
Definition whole_groups (gs : list grouping) (S : bset) : Prop := forall x y, mem x S = true -> together gs x y -> mem y S = true.
(** sets of whole groups satisfy [q] iff they satisfy it after merging *)
Definition same_when_merged (f : fbas) (gs : list grouping) (q : qset) : Prop :=
  forall S : bset, (forall x, mem x S = true -> x < number_of_nodes f) -> whole_groups gs S ->
  exists G q' R, groupings_new gs f = Ok G /\ merge_quorum_set G q = Ok q' /\ merge_node_set G S = Ok R /\
    group_image gs S R /\ (slice (fun x => mem x S = true) q <-> slice (fun x => mem x R = true) q').
