(** The larger of [1/n^2] and 0.00001. *)
From Coq Require Import ZArith Reals Lia Lra.
From Flocq Require Import Core IEEE754.BinarySingleNaN.
From Verif Require Import Spec_Rank P_Float P_Rank.
Local Open Scope R_scope.

(** division is monotone *)
Lemma fdiv_mono x x' y y' : finite x = true -> finite x' = true -> finite y = true -> finite y' = true ->
  0 <= R_of x <= R_of x' -> 1 <= R_of y' <= R_of y ->
  finite (fdiv x y) = true /\ finite (fdiv x' y') = true /\ 0 <= R_of (fdiv x y) <= R_of (fdiv x' y').
Proof.
  intros Fx Fx' Fy Fy' Hx Hy.
  assert (G : forall a b, finite a = true -> 0 <= R_of a -> 1 <= R_of b -> R_of (fdiv a b) = rnd64 (R_of a / R_of b) /\ finite (fdiv a b) = true).
  { intros a b Fa Ha Hb. pose proof (Bdiv_correct 53 1024 prec_ok emax_ok mode_NE a b ltac:(lra)) as H. fold (fdiv a b) in H. cbn [round_mode] in H.
    assert (Hq : 0 <= R_of a / R_of b <= R_of a).
    { split; [apply Rmult_le_pos; [lra|left; apply Rinv_0_lt_compat; lra]|]. apply Rmult_le_reg_r with (R_of b); [lra|].
      unfold Rdiv. rewrite Rmult_assoc, Rinv_l by lra. rewrite Rmult_1_r. rewrite <- (Rmult_1_r (R_of a)) at 1. apply Rmult_le_compat_l; lra. }
    assert (Hr : 0 <= rnd64 (R_of a / R_of b) <= R_of a).
    { apply rnd_between; auto; [apply generic_format_0|]. apply (generic_format_B2R 53 1024 a). }
    rewrite Rlt_bool_true in H.
    - destruct H as (H1 & H2 & _). split; [exact H1|]. rewrite H2. exact Fa.
    - rewrite Rabs_pos_eq by lra. apply Rle_lt_trans with (R_of a); [lra|]. rewrite <- (Rabs_pos_eq (R_of a)) by lra. apply abs_B2R_lt_emax. }
  destruct (G x y) as [E1 F1]; auto; [lra|lra|]. destruct (G x' y') as [E2 F2]; auto; [lra|lra|].
  split; auto. split; auto. rewrite E1, E2. 
  assert (Hq : 0 <= R_of x / R_of y <= R_of x' / R_of y').
  { split; [apply Rmult_le_pos; [lra|left; apply Rinv_0_lt_compat; lra]|]. unfold Rdiv.
    apply Rmult_le_compat; try lra; [left; apply Rinv_0_lt_compat; lra|]. apply Rinv_le; lra. }
  split; [|apply round_le; auto with typeclass_instances; lra].
  rewrite <- (round_0 radix2 fexp64 ZnearestE). apply round_le; auto with typeclass_instances; lra.
Qed.

Lemma large_f64 n : (317 <= n)%nat -> f64_of_nat n = B754_infinity false \/ (finite (f64_of_nat n) = true /\ 317 <= R_of (f64_of_nat n)).
Proof.
  intro Hn. pose proof (binary_normalize_correct 53 1024 prec_ok emax_ok mode_NE (Z.of_nat n) 0 false) as H. cbv zeta in H.
  fold (f64_of_Z (Z.of_nat n)) in H. change (f64_of_Z (Z.of_nat n)) with (f64_of_nat n) in H. cbn [round_mode] in H.
  assert (E : F2R (Float radix2 (Z.of_nat n) 0) = IZR (Z.of_nat n)) by (unfold F2R; cbn; lra).
  rewrite E in H. assert (Hp : 317 <= IZR (Z.of_nat n)) by (apply IZR_le; lia).
  assert (Hr : 317 <= rnd64 (IZR (Z.of_nat n))).
  { apply round_ge_generic; auto with typeclass_instances. apply format_IZR. lia. }
  destruct (Rlt_bool _ _).
  - destruct H as (H1 & H2 & _). right. split; auto. rewrite H1. exact Hr.
  - left. rewrite Rlt_bool_false in H by lra. apply B2SF_inf. exact H.
Qed.

Lemma small_epsilon n : (317 <= n)%nat ->
  fnan (fdiv (fdiv (f64_of_nat 1) (f64_of_nat n)) (f64_of_nat n)) = false /\
  fltb (fdiv (fdiv (f64_of_nat 1) (f64_of_nat n)) (f64_of_nat n)) (fdiv (f64_of_nat 1) (f64_of_Z 100000)) = true.
Proof.
  intro Hn. destruct (large_f64 n Hn) as [->|[Fn Rn]]; [vm_compute; auto|]. set (y := f64_of_nat n) in *. clearbody y.
  destruct (f64_of_nat_exact 1 ltac:(lia)) as [R1 F1]. destruct (f64_of_Z_exact 317 ltac:(lia)) as [R3 F3]. cbn [INR] in R1.
  destruct (fdiv_mono (f64_of_nat 1) (f64_of_nat 1) y (f64_of_Z 317)) as (A1 & A2 & A3); auto; try lra.
  destruct (fdiv_mono (fdiv (f64_of_nat 1) y) (fdiv (f64_of_nat 1) (f64_of_Z 317)) y (f64_of_Z 317)) as (B1 & B2 & B3); auto; try lra.
  split; [apply finite_not_nan; auto|].
  assert (Hc : fltb (fdiv (fdiv (f64_of_nat 1) (f64_of_Z 317)) (f64_of_Z 317)) (fdiv (f64_of_nat 1) (f64_of_Z 100000)) = true) by (vm_compute; reflexivity).
  assert (Fe : finite (fdiv (f64_of_nat 1) (f64_of_Z 100000)) = true) by (vm_compute; reflexivity).
  unfold fltb in *. rewrite Bltb_correct in Hc by auto. rewrite Bltb_correct by auto.
  destruct (Rlt_bool_spec (R_of (fdiv (fdiv (f64_of_nat 1) (f64_of_Z 317)) (f64_of_Z 317))) (R_of (fdiv (f64_of_nat 1) (f64_of_Z 100000)))); [|discriminate].
  apply Rlt_bool_true. lra.
Qed.
Lemma large_epsilon : forallb (fun n => let e := fdiv (fdiv (f64_of_nat 1) (f64_of_nat n)) (f64_of_nat n) in
  negb (fnan e) && negb (fltb e (fdiv (f64_of_nat 1) (f64_of_Z 100000))))%bool (seq 0 317) = true.
Proof. vm_compute. reflexivity. Qed.
Lemma rank_epsilon_max n : fmax (fdiv (fdiv (f64_of_nat 1) (f64_of_nat n)) (f64_of_nat n)) (fdiv (f64_of_nat 1) (f64_of_Z 100000)) = rank_epsilon n.
Proof.
  unfold fmax, rank_epsilon. destruct (Nat.leb_spec n 316) as [H|H].
  - pose proof large_epsilon as L. rewrite forallb_forall in L. specialize (L n ltac:(apply in_seq; lia)). cbv zeta in L.
    apply andb_prop in L. destruct L as [L1 L2]. apply Bool.negb_true_iff in L1, L2. rewrite L1, L2. reflexivity.
  - destruct (small_epsilon n ltac:(lia)) as [-> ->]. reflexivity.
Qed.
