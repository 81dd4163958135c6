(** Specification of what an [Analysis] reports, in terms of the FBAS it was created for. *)
From Verif Require Export Spec M_FrontEnd.
Local Open Scope list_scope.

(** a quorum set without the validators outside of [K] and without inner quorum sets that are vacant then *)
Definition vacant (q : qset) : bool :=
  let 'QS t vs is_ := q in Nat.eqb t 0 && Nat.eqb (List.length vs) 0 && Nat.eqb (List.length is_) 0.
Fixpoint pruned (K : bset) (q : qset) : qset :=
  let 'QS t vs is_ := q in QS t (filter (fun x => mem x K) vs) (filter (fun i => negb (vacant i)) (map (pruned K) is_)).

(** the same quorum set up to the order of entries, at all levels *)
Inductive reordered : qset -> qset -> Prop :=
| reordered_intro t vs vs' is_ between is' :
    Permutation vs vs' -> Forall2 reordered is_ between -> Permutation between is' -> reordered (QS t vs is_) (QS t vs' is').

(** all nodes mentioned in [q] use [q], up to nodes outside of [K] and the order of entries, and can make progress on their own *)
Definition working_cluster (f : fbas) (K : bset) (q : qset) : Prop :=
  (exists x, mentions x q) /\
  (forall x, mentions x q -> exists qx, node_of f x qx /\ reordered (pruned K qx) q) /\
  (exists x qx, mem x K = true /\ node_of f x qx /\ q = pruned K qx) /\
  slice (fun x => mentions x q) q.

(** nodes in a strongly connected component, among the nodes in quorums, that contains a quorum *)
Definition relevant (f : fbas) (x : nat) : Prop :=
  (exists Q, quorum f Q /\ mem x Q = true) /\
  exists Q, quorum f Q /\ forall y, mem y Q = true -> trusts_transitively f x y /\ trusts_transitively f y x.

(** the two sets of nodes that the analysis works on *)
Definition working_set (f : fbas) (K : bset) : Prop :=
  (forall x, mem x K = true <-> relevant f x) \/ (forall x, mem x K = true <-> in_top_tier f x).

(** Conditions on symmetric clusters under which the shortcuts for them are correct. *)
Definition distinct_clusters (f : fbas) : Prop :=
  forall K q, working_set f K -> working_cluster f K q -> no_repetitions q.
Definition sane_clusters (f : fbas) : Prop :=
  forall K q, working_set f K -> working_cluster f K q -> no_repetitions q /\ sane q.
Definition splittable_clusters (f : fbas) : Prop :=
  forall K q, working_set f K -> working_cluster f K q -> no_repetitions q /\ (splittable q \/ rigid q).

(** lists without repetition, ordered by size and then lexicographically *)
Definition before_or_same (a b : bset) : Prop := before a b \/ a = b.
Definition lists (P : bset -> Prop) (l : list bset) : Prop :=
  StronglySorted before l /\ forall S, In S l <-> P S.
(** the same, but with repetitions allowed *)
Definition lists_weakly (P : bset -> Prop) (l : list bset) : Prop :=
  StronglySorted before_or_same l /\ forall S, In S l <-> P S.

Definition has_a_quorum (f : fbas) : Prop := exists Q, quorum f Q.

(** Without any quorum there is nothing to block (the empty set is blocking then) and nothing to
    split, but the code reports no blocking set and the empty set as splitting set. *)
Definition reported_blocking (f : fbas) (S : bset) : Prop := has_a_quorum f /\ minimal_blocking f S.
Definition reported_splitting (f : fbas) (S : bset) : Prop :=
  (has_a_quorum f /\ minimal_splitting f S) \/ (~ has_a_quorum f /\ forall x, mem x S = false).

(** calls whose results need assumptions on [f] *)
Definition allowed (f : fbas) (c : call) : Prop :=
  match c with
  | AlternativeCheck => has_a_quorum f
  | MinimalBlockingSets => sane_clusters f
  | MinimalSplittingSets => splittable_clusters f
  | _ => True
  end.

(** what is expected of the answer to a call *)
Definition correct_answer (E : ext) (f : fbas) (c : call) (a : answer) : Prop :=
  match c with
  | AllNodes => exists s, a = ASet s /\ forall x, mem x s = true <-> x < number_of_nodes f
  | SatisfiableNodes => exists s, a = ASet s /\ forall x, mem x s = true <-> exists Q, quorum f Q /\ mem x Q = true
  | UnsatisfiableNodes =>
      exists s, a = ASet s /\ forall x, mem x s = true <-> x < number_of_nodes f /\ ~ exists Q, quorum f Q /\ mem x Q = true
  | HasQuorumIntersection => exists b, a = ABool b /\ (b = true <-> quorum_intersection f)
  | AlternativeCheck =>
      (a = AAlternative true None /\ quorum_intersection f) \/
      (exists r l, a = AAlternative false (Some r) /\ vr_unwrap r = Ok l /\ ~ quorum_intersection f /\
         2 <= List.length l /\ (forall Q, In Q l -> quorum f Q) /\ ForallOrdPairs (fun A B => ~ meets A B) l)
  | MinimalQuorums =>
      exists r l, a = AVec r /\ vr_unwrap r = Ok l /\ lists_weakly (minimal_quorum f) l /\
        (distinct_clusters f -> lists (minimal_quorum f) l)
  | MinimalBlockingSets => exists r l, a = AVec r /\ vr_unwrap r = Ok l /\ lists (reported_blocking f) l
  | MinimalSplittingSets => exists r l, a = AVec r /\ vr_unwrap r = Ok l /\ lists (reported_splitting f) l
  | TopTier => exists s, a = ASet s /\ forall x, mem x s = true <-> in_top_tier f x
  | SymmetricTopTier => exists o, a = AQset o /\ find_symmetric_top_tier E f = Ok o
  | SymmetricClusters =>
      exists l, a = AQsets l /\ find_symmetric_clusters E f = Ok l /\ NoDup l /\ forall q, In q l <-> satisfiable_cluster f q
  end.

(** equality of answers in terms of original node ids *)
Definition same_answer (a b : answer) : Prop :=
  match a, b with
  | AVec r, AVec r' => vr_unwrap r = vr_unwrap r'
  | _, _ => a = b
  end.
