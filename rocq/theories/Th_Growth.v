(** Exactly when growth panics (C40) and when [RandomQsc] changes something (C42). *)
From Coq Require Import ZArith.
From Verif Require Import P_SimExact.
Local Open Scope list_scope.

(** growth panics exactly if the name of a new node is taken *)
Theorem C40_panic : forall (Q : configurator) (k : nat) (s : sim), local_configurator Q -> total_configurator Q -> keys_ok (sim_fbas s) ->
  (simulate_growth Q k s = Panic <->
   exists j i, number_of_nodes (sim_fbas s) <= j < k + number_of_nodes (sim_fbas s) /\
     option_map node_pk (nth_error (nodes (sim_fbas s)) i) = Some (generate_generic_node_name j)).
Proof. exact growth_panic. Qed.
Print Assumptions C40_panic.

Theorem C40_total : total_configurator dummy_qsc /\ total_configurator ideal_qsc /\ total_configurator super_safe_qsc.
Proof. exact totals. Qed.
Print Assumptions C40_total.

(** [RandomQsc] reports a change exactly if there are fewer validators than desired, and something changes exactly in the
    cases of the second line: so a report is right unless there are no validators and at most one is desired, or there are validators, at least as
    many as nodes, more are desired, and the threshold is as requested *)
Theorem C42_random_exact : forall (p : random_qsc_params) (i : nat) (f : fbas) (r : rng) f' c r' q, node_of f i q ->
  (Z.of_nat (Nat.min (desired_quorum_set_size p) (number_of_nodes f)) <= 2 ^ 53)%Z ->
  random_qsc p i f r = Ok (f', c, r') ->
  let d := desired_quorum_set_size p in let n := number_of_nodes f in let old := List.length (members_before i q) in
  (c = Change <-> old < d) /\
  (changed i f f' <-> validators q = [] \/ (old < d /\ (old < n \/ requested_threshold p (Nat.min d n) <> threshold q))).
Proof. exact random_exact. Qed.
Print Assumptions C42_random_exact.

(** [GlobalRankQsc] is right in its reports exactly if there are top tier nodes, or a relative threshold, or no links *)
Theorem C42_global_rank_exact : forall (g : graph) (top : list nat) (thr : option f64), faithful (global_rank_qsc g top thr) <->
  top <> [] \/ thr <> None \/ forall i l, nth_error g i = Some l -> l = [].
Proof. exact global_rank_exact. Qed.
Print Assumptions C42_global_rank_exact.

(** names that are taken later on do harm, too: growing by one node is fine, by two is not *)
Example C40_panic_example : exists f, keys_ok f /\ simulate_growth super_safe_qsc 2 (mk_sim f [] zeros) = Panic /\
  simulate_growth super_safe_qsc 1 (mk_sim f [] zeros) <> Panic.
Proof. exact taken_later. Qed.
Example C42_exact_example : exists f' r', random_qsc (random_qsc_simple 3) 0 flat zeros = Ok (f', NoChange, r') /\
  exists f2 r2, random_qsc (random_qsc_simple 4) 0 flat zeros = Ok (f2, Change, r2) /\ changed 0 flat f2.
Proof. exact random_both. Qed.
