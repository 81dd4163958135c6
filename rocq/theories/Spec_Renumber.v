(** Specification of renumbering the nodes of an FBAS. *)
From Verif Require Export Spec.
Local Open Scope list_scope.

(** [q'] is [q] with every node id [v] replaced by [p v]; the order of entries does not matter *)
Inductive renamed (p : nat -> nat) : qset -> qset -> Prop :=
| renamed_intro t vs vs' is_ is1 is' :
    Permutation (map p vs) vs' -> Forall2 (renamed p) is_ is1 -> Permutation is1 is' ->
    renamed p (QS t vs is_) (QS t vs' is').

(** [g] is [f] with the node ids permuted by [p] *)
Definition renumbering (p : nat -> nat) (f g : fbas) : Prop :=
  number_of_nodes g = number_of_nodes f /\
  (forall x, x < number_of_nodes f -> p x < number_of_nodes f) /\
  (forall x y, x < number_of_nodes f -> y < number_of_nodes f -> p x = p y -> x = y) /\
  (forall x q, node_of f x q -> exists q', node_of g (p x) q' /\ renamed p q q').

(** [q] with every node id [v] replaced by [p v], in the same order *)
Fixpoint relabel (p : nat -> nat) (q : qset) : qset :=
  let 'QS t vs is_ := q in QS t (map p vs) (map (relabel p) is_).
(** [g] is [f] with the node ids permuted by [p] and nothing else changed *)
Definition relabelling (p : nat -> nat) (f g : fbas) : Prop :=
  number_of_nodes g = number_of_nodes f /\
  (forall x, x < number_of_nodes f -> p x < number_of_nodes f) /\
  (forall x y, x < number_of_nodes f -> y < number_of_nodes f -> p x = p y -> x = y) /\
  (forall x q, node_of f x q -> node_of g (p x) (relabel p q)).

(** the set of new ids of the members of [S] *)
Definition image (p : nat -> nat) (S : bset) : bset := of_list (map p (elements S)).

(** two results agree up to the renumbering *)
Definition same_sets_under (p : nat -> nat) (l l' : list bset) : Prop :=
  forall S', In S' l' <-> exists S, In S l /\ S' = image p S.
