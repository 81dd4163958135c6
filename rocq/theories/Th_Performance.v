(** Theorems about the performance experiment (bin/bulk_performance_experiment.rs): C69 and C70. *)
From Coq Require Import ZArith Reals Permutation.
From Verif Require Import P_Durations.
Local Open Scope list_scope.
Local Open Scope nat_scope.

(** C69: rows. *)
Theorem C69_rows : forall (E : ext) (clock : experiment -> experiment_durations) (max runs : nat) (stellar_like update : bool) (output : destination) (old : list measurement),
  ext_ok E -> (Z.of_nat max <= 2 ^ 53)%Z -> rows_found update output old ->
  exists rows, experiment_main E clock max runs stellar_like update output = Some (rows, true) /\ by_size rows /\ NoDup (map experiment_of rows) /\
    (forall d, In d rows -> last_row old (experiment_of d) d \/
       (requested max runs stellar_like (experiment_of d) /\ (forall d', In d' old -> experiment_of d' <> experiment_of d) /\ measured stellar_like d)) /\
    (forall k d, last_row old k d -> In d rows) /\
    (forall k, requested max runs stellar_like k -> exists d, In d rows /\ experiment_of d = k).
Proof. exact main_rows. Qed.
Print Assumptions C69_rows.

Theorem C69_refused : forall (E : ext) (clock : experiment -> experiment_durations) (max runs : nat) (stellar_like update : bool) (output : destination),
  ext_ok E -> (Z.of_nat max <= 2 ^ 53)%Z ->
  (experiment_main E clock max runs stellar_like update output = None <-> forall old, ~ rows_found update output old).
Proof. exact main_decided. Qed.
Print Assumptions C69_refused.

Theorem C69_incremental : forall (E : ext), ext_ok E -> forall (clock1 clock2 clock3 : experiment -> experiment_durations)
  (max1 runs1 max2 runs2 : nat) (stellar_like : bool) (rows1 rows2 : list measurement),
  (Z.of_nat max2 <= 2 ^ 53)%Z -> max1 <= max2 -> runs1 <= runs2 ->
  experiment_main E clock1 max1 runs1 stellar_like false (OutputFile None) = Some (rows1, true) ->
  experiment_main E clock2 max2 runs2 stellar_like true (OutputFile (Some rows1)) = Some (rows2, true) ->
  exists rows rows', experiment_main E clock3 max2 runs2 stellar_like false (OutputFile None) = Some (rows, true) /\
    Permutation rows2 rows' /\ Forall2 same_numbers rows' rows.
Proof. exact incremental_any_watch. Qed.
Print Assumptions C69_incremental.

Definition shown_rows (r : option (list measurement * bool)) : option (list (nat * nat * nat) * bool) :=
  option_map (fun p => (map (fun d => (me_top_tier_size d, me_run d, me_mq_number d)) (fst p), snd p)) r.
Definition known_row : measurement := mk_measurement 4 0 7 7 7 fzero fzero fzero (mk_experiment_durations fzero fzero fzero fzero fzero fzero).
(** The known row is kept although its numbers are wrong. *)
Example C69_example : rows_found true (OutputFile (Some [known_row])) [known_row] /\
  shown_rows (experiment_main std_ext no_watch 4 1 false true (OutputFile (Some [known_row]))) = Some ([(1, 0, 1); (2, 0, 1); (3, 0, 1); (4, 0, 7)], true) /\
  shown_rows (experiment_main std_ext no_watch 6 1 true false Terminal) = Some ([(3, 0, 3); (6, 0, 9)], true) /\
  (forall old, ~ rows_found false (OutputFile (Some [])) old) /\ (forall old, ~ rows_found true (OutputFile None) old) /\
  shown_rows (experiment_main std_ext no_watch 2 1 false false (OutputFile None)) = Some ([(1, 0, 1); (2, 0, 1)], true).
Proof.
  split; [reflexivity|]. split; [vm_compute; reflexivity|]. split; [vm_compute; reflexivity|]. split; [intros old []|]. split; [intros old []|].
  vm_compute. reflexivity.
Qed.

(** The order of rows of the same size does depend on the history. *)
Theorem C69_order_refuted : exists rows1 rows2 rows,
  experiment_main std_ext no_watch 1 1 false false (OutputFile None) = Some (rows1, true) /\
  experiment_main std_ext no_watch 1 2 false true (OutputFile (Some rows1)) = Some (rows2, true) /\
  experiment_main std_ext no_watch 1 2 false false (OutputFile None) = Some (rows, true) /\
  map me_run rows2 = [1; 0] /\ map me_run rows = [0; 1].
Proof. exact order_differs. Qed.
Print Assumptions C69_order_refuted.

(** C70: the FBASs and their numbers. *)
Theorem C70_ideal_row_partial : forall (E : ext) (clock : experiment -> experiment_durations), ext_ok E -> forall (n run : nat), 2 <= n -> (Z.of_nat n <= 2 ^ 53)%Z ->
  exists row, run_experiment E clock (mk_experiment n run) false = Ok row /\ experiment_of row = mk_experiment n run /\ measured false row.
Proof. exact ideal_measured. Qed.
Print Assumptions C70_ideal_row_partial.

Theorem C70_stellar_row : forall (E : ext) (clock : experiment -> experiment_durations), ext_ok E -> forall (g run : nat), 1 <= g -> (Z.of_nat g <= 2 ^ 53)%Z ->
  exists row, run_experiment E clock (mk_experiment (3 * g) run) true = Ok row /\ experiment_of row = mk_experiment (3 * g) run /\ measured true row.
Proof. exact stellar_measured. Qed.
Print Assumptions C70_stellar_row.

Theorem C70_ideal_fbas : forall (n : nat), 1 <= n -> (Z.of_nat n <= 2 ^ 53)%Z -> let t := two_thirds n in
  exists f, make_almost_ideal_fbas n = Ok f /\ number_of_nodes f = n /\
    (forall S, quorum f S <-> (forall x, mem x S = true -> x < n) /\ t <= len S) /\
    number_of (minimal_quorum f) (binomial n t) /\ number_of (minimal_blocking f) (binomial n (n - t + 1)) /\
    number_of (minimal_splitting f) (if n <=? 3 then 0 else binomial n (2 * t - n)) /\
    (2 <= n -> forall E, ext_ok E -> find_symmetric_top_tier E f = Ok None).
Proof. exact ideal_fbas. Qed.
Print Assumptions C70_ideal_fbas.

Theorem C70_stellar_fbas : forall (g : nat), 1 <= g -> (Z.of_nat g <= 2 ^ 53)%Z -> let t := two_thirds g in
  exists f, make_almost_ideal_stellarlike_fbas (3 * g) = Ok f /\ number_of_nodes f = 3 * g /\
    (forall S, quorum f S <-> (forall x, mem x S = true -> x < 3 * g) /\ strong_in S 2 t) /\
    number_of (minimal_quorum f) (binomial g t * 3 ^ t) /\ number_of (minimal_blocking f) (binomial g (g - t + 1) * 3 ^ (g - t + 1)) /\
    number_of (minimal_splitting f) (binomial g (2 * t - g) * 3 ^ (2 * t - g)) /\
    (forall E, ext_ok E -> find_symmetric_top_tier E f = Ok None).
Proof. exact stellar_fbas. Qed.
Print Assumptions C70_stellar_fbas.

(** With one node the FBAS is symmetric after all, and the second mention of the node is counted. *)
Theorem C70_single_node_refuted : exists f row q, make_almost_ideal_fbas 1 = Ok f /\ run_experiment std_ext no_watch (mk_experiment 1 0) false = Ok row /\
  number_of (minimal_blocking f) 1 /\ me_mbs_number row = 2 /\ find_symmetric_top_tier std_ext f = Ok (Some q).
Proof. exact single_node. Qed.
Print Assumptions C70_single_node_refuted.

Definition shown_numbers (r : res measurement) : res (nat * nat * nat) := res_map (fun d => (me_mq_number d, me_mbs_number d, me_mss_number d)) r.
Example C70_example : two_thirds 4 = 3 /\ shown_numbers (run_experiment std_ext no_watch (mk_experiment 4 0) false) = Ok (4, 6, 6) /\
  shown_numbers (run_experiment std_ext no_watch (mk_experiment 3 0) false) = Ok (1, 3, 0) /\
  shown_numbers (run_experiment std_ext no_watch (mk_experiment 6 0) true) = Ok (9, 6, 9) /\ binomial 2 2 * 3 ^ 2 = 9 /\
  strong_in (of_list [0; 2; 4; 5]) 2 2.
Proof.
  split; [reflexivity|]. split; [vm_compute; reflexivity|]. split; [vm_compute; reflexivity|]. split; [vm_compute; reflexivity|]. split; [reflexivity|].
  exists [0; 1]. split; [repeat constructor; cbn; lia|]. split; [cbn; lia|]. intros o [<-|[<-|[]]].
  - exists [0; 2]. split; [repeat constructor; cbn; lia|]. split; [cbn; lia|]. intros x [<-|[<-|[]]]; split; reflexivity.
  - exists [4; 5]. split; [repeat constructor; cbn; lia|]. split; [cbn; lia|]. intros x [<-|[<-|[]]]; split; reflexivity.
Qed.
