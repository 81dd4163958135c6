(** Specification of groupings: what it means to treat the nodes of a group as one. *)
From Verif Require Export Spec M_Groupings.
Local Open Scope list_scope.

Definition member (x : nat) (g : grouping) : Prop := In x (g_validators g).
(** no node is in two groups *)
Definition disjoint_groups (gs : list grouping) : Prop :=
  forall i j gi gj x, nth_error gs i = Some gi -> nth_error gs j = Some gj -> member x gi -> member x gj -> i = j.
(** all members are nodes of [f] *)
Definition groups_of (f : fbas) (gs : list grouping) : Prop :=
  forall g x, In g gs -> member x g -> x < number_of_nodes f.
Definition same_group (gs : list grouping) (x y : nat) : Prop := exists g, In g gs /\ member x g /\ member y g.

(** the id that stands for the group of [x]: the group's first member; nodes in no group stand for themselves *)
Definition represents (gs : list grouping) (r x : nat) : Prop :=
  (exists g rest, In g gs /\ member x g /\ g_validators g = r :: rest) \/
  ((forall g, In g gs -> ~ member x g) /\ r = x).
(** [M] consists of all nodes of the groups (and single nodes) in [R] *)
Definition members_of (f : fbas) (gs : list grouping) (R M : bset) : Prop :=
  forall x, mem x M = true <-> x < number_of_nodes f /\ exists r, represents gs r x /\ mem r R = true.

(** [R]: the representatives of the nodes in [S] *)
Definition group_image (gs : list grouping) (S R : bset) : Prop :=
  forall r, mem r R = true <-> exists x, represents gs r x /\ mem x S = true.

(** a set of groups has the property [P] if its nodes taken together have it *)
Definition by_groups (f : fbas) (gs : list grouping) (P : bset -> Prop) (R : bset) : Prop :=
  exists M, members_of f gs R M /\ P M.

(** [S] contains a quorum *)
Definition includes_quorum (f : fbas) (S : bset) : Prop := exists Q, quorum f Q /\ incl_set Q S.

(** quorum sets nested at most two levels deep *)
Inductive one_level : qset -> Prop := one_level_intro t vs : one_level (QS t vs []).
Definition two_level (q : qset) : Prop := forall i, In i (inner_quorum_sets q) -> one_level i.
(** every inner quorum set that itself has inner quorum sets also has validators of two different groups
    (true of all quorum sets nested at most two levels deep) *)
Inductive separable (gs : list grouping) : qset -> Prop :=
| separable_intro t vs is_ :
    (forall i, In i is_ -> separable gs i) ->
    (forall i, In i is_ -> inner_quorum_sets i = [] \/
        exists x y, In x (validators i) /\ In y (validators i) /\ x <> y /\ ~ same_group gs x y) ->
    separable gs (QS t vs is_).
(** all ids in [q] are nodes of [f] *)
Definition ids_known (f : fbas) (q : qset) : Prop := forall x, mentions x q -> x < number_of_nodes f.

(** ** Names shown to users *)

(** [x] is shown as [name]: the name of its group, or its public key if it is in none *)
Definition shown_as (f : fbas) (gs : list grouping) (x : nat) (name : string) : Prop :=
  (exists g, In g gs /\ member x g /\ name = g_name g) \/
  ((forall g, In g gs -> ~ member x g) /\ exists n, nth_error (nodes f) x = Some n /\ name = node_pk n).
(** [id] is meant by [name]: a member of the first group of that name or, if there is no such group, the node with that key *)
Definition meant_by (f : fbas) (gs : list grouping) (name : string) (id : nat) : Prop :=
  (exists pre g post, gs = pre ++ g :: post /\ g_name g = name /\ (forall g', In g' pre -> g_name g' <> name) /\ member id g) \/
  ((forall g, In g gs -> g_name g <> name) /\ exists n, nth_error (nodes f) id = Some n /\ node_pk n = name).
(** the members of [s] in ascending order are shown as [names] *)
Definition shown_list (f : fbas) (gs : list grouping) (s : bset) (names : list string) : Prop :=
  exists ids, Sorted.StronglySorted lt ids /\ (forall x, In x ids <-> mem x s = true) /\ Forall2 (shown_as f gs) ids names.
(** a quorum set with the ids replaced by names *)
Inductive shown_qset (f : fbas) (gs : list grouping) : qset -> pretty_qset -> Prop :=
| shown_qset_intro t vs is_ vs' is' :
    Forall2 (shown_as f gs) vs vs' -> Forall2 (shown_qset f gs) is_ is' ->
    shown_qset f gs (QS t vs is_) (PQS t vs' is').

(** ** Statistics: extremes (0 if there are none) and frequencies *)
Definition least_of (l : list nat) (m : nat) : Prop := (l = [] /\ m = 0) \/ (In m l /\ forall x, In x l -> m <= x).
Definition greatest_of (l : list nat) (m : nat) : Prop := (l = [] /\ m = 0) \/ (In m l /\ forall x, In x l -> x <= m).
Definition occurrences (l : list nat) (k : nat) : nat := List.length (filter (fun x => x =? k) l).
