(** Specification of rank scores: each node receives from each node that trusts it that node's last
    score divided by the number of nodes it trusts. *)
From Coq Require Import ZArith.
From Verif Require Export Spec_Simulation.
Local Open Scope list_scope.
Local Open Scope nat_scope.

(** the sum, in double precision and in the order of the list *)
Definition sum_of (l : list f64) : f64 := fold_left fadd l fzero.
(** those of [sources] that trust [j], where [trusted i] lists whom [i] trusts *)
Definition trusting (trusted : nat -> list nat) (sources : list nat) (j : nat) : list nat :=
  filter (fun i => existsb (Nat.eqb j) (trusted i)) sources.
(** what [i] gives to each node it trusts *)
Definition share (trusted : nat -> list nat) (last : nat -> f64) (i : nat) : f64 := fdiv (last i) (f64_of_nat (List.length (trusted i))).
(** the score of each node after [k] rounds; nodes not in [counted] get nothing *)
Fixpoint score_after (k : nat) (trusted : nat -> list nat) (sources : list nat) (counted : nat -> bool) (start : f64) (j : nat) : f64 :=
  match k with
  | 0 => start
  | S k' => if counted j then sum_of (map (share trusted (score_after k' trusted sources counted start)) (trusting trusted sources j)) else fzero
  end.

(** [trusted] lists for each node of [f] the nodes in its quorum set *)
Definition trusted_in (f : fbas) (trusted : nat -> list nat) : Prop :=
  forall i q, node_of f i q -> ascending_list_of (fun x => mentions x q) (trusted i).

(** scores of graphs: from [1/n] on, until no score moves by [epsilon] or more *)
Definition graph_score (g : graph) (k j : nat) : f64 :=
  score_after k (fun i => nth i g []) (seq 0 (List.length g)) (fun _ => true) (fdiv (f64_of_nat 1) (f64_of_nat (List.length g))) j.
Definition settled (g : graph) (epsilon : f64) (k : nat) : Prop :=
  forall j, j < List.length g -> fltb (fabs (fsub (graph_score g (S k) j) (graph_score g k j))) epsilon = true.
(** [1/n^2] as long as it is above 0.00001, that is, up to 316 nodes; then 0.00001 *)
Definition rank_epsilon (n : nat) : f64 :=
  if n <=? 316 then fdiv (fdiv (f64_of_nat 1) (f64_of_nat n)) (f64_of_nat n) else fdiv (f64_of_nat 1) (f64_of_Z 100000).
