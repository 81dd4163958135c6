(** Specification: the notions users rely on, stated without the algorithms of the model.
    Only the data types ([qset], [node], [fbas], [bset] with membership [mem]) are shared. *)
From Coq Require Export Relations.
From Verif Require Export M_Core.
Local Open Scope list_scope.

(** set notions in terms of membership *)
Definition incl_set (a b : bset) : Prop := forall x, mem x a = true -> mem x b = true.
Definition meets (a b : bset) : Prop := exists x, mem x a = true /\ mem x b = true.
Definition inhabited_set (a : bset) : Prop := exists x, mem x a = true.

(** [subseq a b]: [a] results from [b] by deleting entries *)
Inductive subseq {A} : list A -> list A -> Prop :=
| subseq_nil : subseq [] []
| subseq_skip a l l' : subseq l l' -> subseq l (a :: l')
| subseq_take a l l' : subseq l l' -> subseq (a :: l) (a :: l').

(** A set of nodes [P] satisfies a quorum set if one can point at [threshold >= 1] of its entries,
    each a validator in [P] or an inner quorum set that is itself satisfied. *)
Inductive slice (P : nat -> Prop) : qset -> Prop :=
| slice_intro t vs is_ vs' is' :
    1 <= t -> subseq vs' vs -> subseq is' is_ ->
    (forall v, In v vs' -> P v) -> (forall i, In i is' -> slice P i) ->
    t <= List.length vs' + List.length is' ->
    slice P (QS t vs is_).

(** node [x] is mentioned in a quorum set at some depth *)
Inductive mentions (x : nat) : qset -> Prop :=
| mentions_here t vs is_ : In x vs -> mentions x (QS t vs is_)
| mentions_inner t vs is_ i : In i is_ -> mentions x i -> mentions x (QS t vs is_).

(** how often node [x] is mentioned *)
Fixpoint times_mentioned (x : nat) (q : qset) : nat :=
  let 'QS _ vs is_ := q in count_occ Nat.eq_dec vs x + list_sum (map (times_mentioned x) is_).

Definition node_of (f : fbas) (x : nat) (q : qset) : Prop :=
  exists n, nth_error (nodes f) x = Some n /\ node_qset n = q.

(** validator ids are ids of nodes *)
Definition wf_fbas (f : fbas) : Prop :=
  forall x q y, node_of f x q -> mentions y q -> y < number_of_nodes f.

(** quorums *)
Definition quorum (f : fbas) (S : bset) : Prop :=
  inhabited_set S /\
  forall x, mem x S = true -> exists q, node_of f x q /\ slice (fun y => mem y S = true) q.

Definition minimal (P : bset -> Prop) (S : bset) : Prop :=
  P S /\ forall S', P S' -> incl_set S' S -> S' = S.

Definition minimal_quorum (f : fbas) : bset -> Prop := minimal (quorum f).

Definition quorum_intersection (f : fbas) : Prop :=
  (exists Q, quorum f Q) /\ forall Q1 Q2, quorum f Q1 -> quorum f Q2 -> meets Q1 Q2.

(** blocking sets: liveness *)
Definition blocking (f : fbas) (B : bset) : Prop := forall Q, quorum f Q -> meets B Q.
Definition minimal_blocking (f : fbas) : bset -> Prop := minimal (blocking f).

(** splitting sets: safety *)
Definition splitting (f : fbas) (S : bset) : Prop :=
  exists Q1 Q2, minimal_quorum f Q1 /\ minimal_quorum f Q2 /\ Q1 <> Q2 /\
                forall x, mem x Q1 = true -> mem x Q2 = true -> mem x S = true.
Definition minimal_splitting (f : fbas) : bset -> Prop := minimal (splitting f).

(** top tier *)
Definition in_top_tier (f : fbas) (x : nat) : Prop := exists Q, minimal_quorum f Q /\ mem x Q = true.

(** trust graph *)
Definition trusts (f : fbas) (x y : nat) : Prop := exists q, node_of f x q /\ mentions y q.
Definition trusts_transitively (f : fbas) : nat -> nat -> Prop := clos_refl_trans nat (trusts f).

(** Order on results: by size, then lexicographically by ascending members. *)
Inductive lex_lt : list nat -> list nat -> Prop :=
| lex_lt_nil b l : lex_lt [] (b :: l)
| lex_lt_head a b l l' : a < b -> lex_lt (a :: l) (b :: l')
| lex_lt_tail a l l' : lex_lt l l' -> lex_lt (a :: l) (a :: l').
Definition before (a b : bset) : Prop :=
  len a < len b \/ (len a = len b /\ lex_lt (elements a) (elements b)).

(** ** Assumptions on library behaviour *)

Definition reaches (succ : nat -> list nat) : nat -> nat -> Prop := clos_refl_trans nat (fun x y => In y (succ x)).

(** what a decomposition into strongly connected components (of the part of a graph reachable from
    [start]) must satisfy *)
Record scc_spec (start : list nat) (succ : nat -> list nat) (components : list (list nat)) : Prop := {
  scc_cover : forall x, In x start -> exists c, In c components /\ In x c;
  scc_class : forall c x y, In c components -> In x c -> (In y c <-> reaches succ x y /\ reaches succ y x);
  scc_nonempty : forall c, In c components -> c <> [];
  scc_sound : forall c x, In c components -> In x c -> exists s, In s start /\ reaches succ s x;
  scc_nodup : NoDup (concat components) }.

(** A symmetric cluster: all nodes mentioned by [q] use [q] themselves. *)
Definition symmetric_cluster (f : fbas) (q : qset) : Prop :=
  (exists x, mentions x q) /\ forall x, mentions x q -> node_of f x q.
(** ... that can make progress on its own *)
Definition satisfiable_cluster (f : fbas) (q : qset) : Prop :=
  symmetric_cluster f q /\ slice (fun x => mentions x q) q.

(** Conditions on quorum sets under which the shortcuts for symmetric clusters are correct. *)
(** no validator is mentioned twice *)
Definition no_repetitions (q : qset) : Prop := forall x, times_mentioned x q <= 1.
(** all thresholds can be met *)
Inductive sane : qset -> Prop :=
| sane_intro t vs is_ : 1 <= t -> t <= List.length vs + List.length is_ -> (forall i, In i is_ -> sane i) ->
    sane (QS t vs is_).

(** any two slices overlap, and there are different ones, at every level *)
Inductive splittable : qset -> Prop :=
| splittable_intro t vs is_ :
    t <= List.length vs + List.length is_ -> List.length vs + List.length is_ < 2 * t ->
    (t < List.length vs + List.length is_ \/ is_ <> []) ->
    (forall i, In i is_ -> splittable i) -> splittable (QS t vs is_).
(** everything is needed, at every level *)
Inductive rigid : qset -> Prop :=
| rigid_intro t vs is_ :
    t = List.length vs + List.length is_ -> 1 <= t -> (forall i, In i is_ -> rigid i) -> rigid (QS t vs is_).

(** ids and public keys correspond *)
Definition keys_ok (f : fbas) : Prop :=
  forall pk i, get_node_id f pk = Some i <-> option_map node_pk (nth_error (nodes f) i) = Some pk.

