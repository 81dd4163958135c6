(** Specification for comparing FBASs and for the reuse of results. *)
From Verif Require Export Spec_IO Spec_Analysis Spec_Groupings.
Local Open Scope list_scope.

(** ** order *)
(** lexicographic order of lists *)
Inductive list_before {A} (R : A -> A -> Prop) : list A -> list A -> Prop :=
| list_before_nil b l : list_before R [] (b :: l)
| list_before_head a b l l' : R a b -> list_before R (a :: l) (b :: l')
| list_before_tail a l l' : list_before R l l' -> list_before R (a :: l) (a :: l').
(** quorum sets: by threshold, then validators, then inner quorum sets *)
Inductive qset_before : qset -> qset -> Prop :=
| qset_before_threshold t t' vs vs' is_ is' : t < t' -> qset_before (QS t vs is_) (QS t' vs' is')
| qset_before_validators t vs vs' is_ is' : lex_lt vs vs' -> qset_before (QS t vs is_) (QS t vs' is')
| qset_before_inner t vs is_ is' : list_before qset_before is_ is' -> qset_before (QS t vs is_) (QS t vs is').
(** nodes: by public key, then quorum set *)
Inductive node_before : node -> node -> Prop :=
| node_before_key pk pk' q q' : string_before pk pk' -> node_before (mk_node pk q) (mk_node pk' q')
| node_before_qset pk q q' : qset_before q q' -> node_before (mk_node pk q) (mk_node pk q').

(** ** results by public key *)
(** the sets of nodes of [f] described by [P] and the sets in [l] of nodes of [s] have the same
    members, by public key *)
Definition lists_by_key (f : fbas) (P : bset -> Prop) (s : fbas) (l : list bset) : Prop :=
  (forall S, P S -> exists S', In S' l /\ same_keys f S s S') /\
  (forall S', In S' l -> exists S, P S /\ same_keys f S s S').

(** [n] is the least size of a set described by [P] *)
Definition least_size (P : bset -> Prop) (n : nat) : Prop :=
  (exists S, P S /\ len S = n) /\ forall S, P S -> n <= len S.

(** keys that lead to nodes *)
Definition nodes_with_keys (f : fbas) (keys : list public_key) (S : bset) : Prop :=
  forall x, mem x S = true <-> exists pk, In pk keys /\ has_key f x pk.

(** ** groups counted as one *)
(** keys that count as one: those of a group, or a single one *)
Definition counted_as_one (l : list raw_grouping) (c : list public_key) : Prop :=
  (exists g, In g l /\ c = rg_validators g) \/ exists pk, c = [pk].
(** no key is in two groups *)
Definition disjoint_lists (l : list raw_grouping) : Prop :=
  forall i j gi gj pk, nth_error l i = Some gi -> nth_error l j = Some gj -> In pk (rg_validators gi) -> In pk (rg_validators gj) -> i = j.
(** [n] is the least number of groups and single nodes that have the property [P] taken together *)
Definition fewest_groups (f : fbas) (l : list raw_grouping) (P : bset -> Prop) (n : nat) : Prop :=
  (exists cs S, List.length cs = n /\ Forall (counted_as_one l) cs /\ nodes_with_keys f (concat cs) S /\ P S) /\
  (forall cs S, Forall (counted_as_one l) cs -> nodes_with_keys f (concat cs) S -> P S -> n <= List.length cs).
