(** Rank scores: C61. *)
From Coq Require Import ZArith.
From Verif Require Import P_ThRank.
Local Open Scope list_scope.
Local Open Scope nat_scope.

Theorem C61_graph_scores : forall (g : graph), wf_graph g -> no_repeated_links g -> let n := List.length g in
  exists r, 1 <= r <= Nat.max (2 * n) 1000 /\ get_rank_scores g = Ok (map (graph_score g r) (seq 0 n)) /\
    (forall t, S t < r -> ~ settled g (rank_epsilon n) t) /\ (r < Nat.max (2 * n) 1000 -> settled g (rank_epsilon n) (r - 1)).
Proof. exact graph_scores_spec. Qed.
Print Assumptions C61_graph_scores.

Theorem C61_fbas_scores : forall (f : fbas) (ids : list nat) (trusted : nat -> list nat), wf_fbas f -> NoDup ids -> (forall x, In x ids -> x < number_of_nodes f) ->
  trusted_in f trusted -> let start := fdiv (f64_of_nat 1) (f64_of_nat (List.length ids)) in
  rank_nodes ids f = Ok (map (score_after 100 trusted ids (fun j => existsb (Nat.eqb j) ids) start) (seq 0 (number_of_nodes f))).
Proof. exact fbas_scores_spec. Qed.
Print Assumptions C61_fbas_scores.

Theorem C61_untrusted : forall (f : fbas) (ids : list nat), wf_fbas f -> NoDup ids -> (forall x, In x ids -> x < number_of_nodes f) ->
  exists scores, rank_nodes ids f = Ok scores /\ forall j, j < number_of_nodes f ->
    (~ In j ids \/ forall i q, In i ids -> node_of f i q -> ~ mentions j q) -> nth_error scores j = Some fzero.
Proof. exact untrusted_zero. Qed.
Print Assumptions C61_untrusted.

(** there is a [trusted] to use, and scores differ between nodes *)
Example C61_example : (exists trusted, trusted_in mixed trusted) /\
  res_map (fun l => match l with a :: b :: _ => fltb a b | _ => false end) (get_rank_scores kite) = Ok true /\
  res_map (map (fun s => fcompare s fzero)) (rank_nodes [4;0;1] mixed) = Ok [Some Gt; Some Gt; Some Eq; Some Eq; Some Eq].
Proof. split; [apply trusted_exists|]. vm_compute. auto. Qed.
