(** Admissible library behaviours and an executable reference instance. No proofs here. *)
From Verif Require Export Spec M_Splitting.
Local Open Scope list_scope.

(** The assumption on [ext] made by the theorems: components are correct for finite graphs, and
    [sort_by_rank] permutes its argument. *)
Definition ext_ok (E : ext) : Prop :=
  (forall n start succ, (forall x, In x start -> x < n) -> (forall x y, x < n -> In y (succ x) -> y < n) ->
     scc_spec start succ (scc E n start succ)) /\
  (forall f l, wf_fbas f -> NoDup l -> (forall x, In x l -> x < number_of_nodes f) ->
     Permutation (rank_sort E f l) l).

(** Reference instance: reachability by [n] rounds of expansion. *)
Definition expand (succ : nat -> list nat) (s : bset) : bset := union s (of_list (flat_map succ (elements s))).
Fixpoint closure_from (n : nat) (succ : nat -> list nat) (s : bset) : bset :=
  match n with 0 => s | S k => closure_from k succ (expand succ s) end.
Definition closure (n : nat) (succ : nat -> list nat) (x : nat) : bset := closure_from n succ (singleton x).

Fixpoint std_scc_loop (n : nat) (succ : nat -> list nat) (todo : list nat) (seen : bset) : list (list nat) :=
  match todo with
  | [] => []
  | x :: todo' =>
      if mem x seen then std_scc_loop n succ todo' seen
      else
        let c := filter (fun y => mem x (closure n succ y)) (elements (closure n succ x)) in
        c :: std_scc_loop n succ todo' (union seen (of_list c))
  end.
Definition std_scc (n : nat) (start : list nat) (succ : nat -> list nat) : list (list nat) :=
  std_scc_loop n succ start bempty.

Definition std_ext : ext := mk_ext std_scc (fun _ l => l).
