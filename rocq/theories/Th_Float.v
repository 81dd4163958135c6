(** Theorems about code that computes in double precision: thresholds, statistics, ranking. The
    axioms listed are those of the real numbers of Coq's standard library, used by Flocq. *)
From Coq Require Import ZArith Reals Lia.
From Flocq Require Import Core IEEE754.BinarySingleNaN.
From Verif Require Import P_ThFloat Examples.
Local Open Scope list_scope.

(** C29: [describe]. [vr_unwrap r] are the sets with original ids. *)
Theorem C29_describe : forall (r : vec_result) (l : list bset), ascending_table r -> vr_unwrap r = Ok l ->
  exists d mn mx mean h, vr_describe r = Ok (List.length l, d, (mn, mx, mean), h) /\
  (exists U, (forall x, mem x U = true <-> exists s, In s l /\ mem x s = true) /\ d = len U) /\
  least_of (map len l) mn /\ greatest_of (map len l) mx /\
  List.length h = mx + 1 /\ (forall k, k <= mx -> nth_error h k = Some (occurrences (map len l) k)) /\ list_sum h = List.length l /\
  (l = [] -> mean = fzero) /\
  (l <> [] -> (Z.of_nat (list_sum (map len l)) <= 2 ^ 53)%Z -> (Z.of_nat (List.length l) <= 2 ^ 53)%Z ->
     finite mean = true /\ R_of mean = rnd64 (INR (list_sum (map len l)) / INR (List.length l)) /\ (INR mn <= R_of mean <= INR mx)%R).
Proof. exact describe_spec. Qed.
Print Assumptions C29_describe.

(** every result of an [Analysis] qualifies *)
Theorem C29_analysis_results : forall (E : ext) (f : fbas) (cs : list call) (ans : list answer) (r : vec_result),
  analyze E f cs = Ok ans -> In (AVec r) ans -> ascending_table r.
Proof. exact describe_analysis. Qed.
Print Assumptions C29_analysis_results.

Example C29_example : exists r, analyze std_ext nested [MinimalBlockingSets] = Ok [AVec r] /\
  res_map (fun '(n, d, (mn, mx, mean), h) => (n, d, (mn, mx, fcompare mean (fdiv (f64_of_nat 21) (f64_of_nat 4))), h)) (vr_describe r) =
  Ok (4, 7, (5, 6, Some Eq), [0;0;0;0;0;3;1]).
Proof. eexists. split; [vm_compute; reflexivity|]. vm_compute. reflexivity. Qed.

(** C37 *)
Theorem C37_least : forall n : nat, (1 <= n)%nat -> (Z.of_nat n <= 2 ^ 53)%Z ->
  let t := calculate_67p_threshold n in
  (1 <= t <= n)%nat /\ (2 * n + 1 <= 3 * t)%nat /\ (forall t', (2 * n + 1 <= 3 * t')%nat -> (t <= t')%nat).
Proof. exact threshold_67p_least. Qed.
Print Assumptions C37_least.

Theorem C37_overlap : forall (n : nat) (U A B : bset), len U = n -> incl_set A U -> incl_set B U -> (1 <= n)%nat -> (Z.of_nat n <= 2 ^ 53)%Z ->
  calculate_67p_threshold n <= len A -> calculate_67p_threshold n <= len B -> n < 3 * len (inter A B).
Proof. exact threshold_overlap. Qed.
Print Assumptions C37_overlap.

Example C37_example : map calculate_67p_threshold [0;1;2;3;4;5;6;7;10;100] = [0;1;2;3;3;4;5;5;7;67].
Proof. vm_compute. reflexivity. Qed.

(** C38 *)
Theorem C38_at_least_one : forall (n : nat) (x : f64), (1 <= calculate_x_threshold n x)%nat.
Proof. exact x_threshold_pos. Qed.
Print Assumptions C38_at_least_one.

(** [Zceil] and the product are those of real numbers, [rnd64] rounds to the nearest double *)
Theorem C38_ceiling : forall (n : nat) (x : f64), finite x = true -> (Z.of_nat n <= 2 ^ 53)%Z ->
  (Rabs (rnd64 (R_of x * INR n)) < bpow radix2 1024)%R ->
  calculate_x_threshold n x = Nat.max 1 (Z.to_nat (Z.min (Zceil (rnd64 (R_of x * INR n))) usize_max)).
Proof. exact x_threshold_finite. Qed.
Print Assumptions C38_ceiling.

Theorem C38_fraction : forall (n : nat) (x : f64), finite x = true -> (0 <= R_of x <= 1)%R -> (1 <= n)%nat -> (Z.of_nat n <= 2 ^ 53)%Z ->
  (1 <= calculate_x_threshold n x <= n)%nat.
Proof. exact x_threshold_fraction. Qed.
Print Assumptions C38_fraction.

Theorem C38_not_finite : forall (n : nat) (x : f64), finite x = false -> (1 <= n)%nat -> (Z.of_nat n <= 2 ^ 53)%Z ->
  calculate_x_threshold n x = (if match x with B754_infinity false => true | _ => false end then Nat.max 1 (Z.to_nat usize_max) else 1)%nat.
Proof. exact x_threshold_not_finite. Qed.
Print Assumptions C38_not_finite.

(** with x = 0.51, and with the double next to 0.1, where 0.1 * 30 is rounded down to 3 *)
Example C38_example : finite (fdiv (f64_of_nat 51) (f64_of_nat 100)) = true /\
  map (fun n => calculate_x_threshold n (fdiv (f64_of_nat 51) (f64_of_nat 100))) [0;1;2;3;4;100] = [1;1;2;2;3;51] /\
  calculate_x_threshold 30 (fdiv (f64_of_nat 1) (f64_of_nat 10)) = 3 /\
  calculate_x_threshold 7 (fsub (f64_of_nat 0) (f64_of_nat 1)) = 1.
Proof. vm_compute. auto. Qed.

(** C50 *)
Theorem C50_ranking : forall (f : fbas) (ids : list nat), wf_fbas f -> NoDup ids -> (forall x, In x ids -> (x < number_of_nodes f)%nat) ->
  (Z.of_nat (number_of_nodes f) <= 2 ^ 53)%Z ->
  exists scores sorted, rank_nodes ids f = Ok scores /\ List.length scores = number_of_nodes f /\
    Forall (fun s => fnan s = false) scores /\
    sort_by_rank ids f = Ok sorted /\ Permutation sorted ids /\
    StronglySorted (fun x y => exists sx sy c, nth_error scores x = Some sx /\ nth_error scores y = Some sy /\
                                fcompare sx sy = Some c /\ c <> Lt) sorted.
Proof. exact sort_by_rank_ok. Qed.
Print Assumptions C50_ranking.

(** so the assumption on the order in the other theorems holds of the real one *)
Theorem C50_admissible : forall components,
  (forall n start succ, (forall x, In x start -> (x < n)%nat) -> (forall x y, (x < n)%nat -> In y (succ x) -> (y < n)%nat) ->
     scc_spec start succ (components n start succ)) -> ext_ok (ranked_ext components).
Proof. exact ranked_ext_ok. Qed.
Print Assumptions C50_admissible.

Example C50_example : wf_fbas mixed /\ sort_by_rank [4;0;1;2;3] mixed = Ok [1;2;3;0;4] /\
  res_map (map (fun s => fcompare s fzero)) (rank_nodes [4;0;1] mixed) = Ok [Some Gt; Some Gt; Some Eq; Some Eq; Some Eq].
Proof. split; [exact mixed_wf|]. split; vm_compute; reflexivity. Qed.
