(** Proofs about texts of floating point numbers: rounding. *)
From Coq Require Import ZArith Reals Ascii Lra Lia.
From Flocq Require Import Core IEEE754.BinarySingleNaN.
From Verif Require Export Spec_FloatText P_CliText.
Local Open Scope string_scope.
Local Open Scope list_scope.

Notation fexp64 := (FLT_exp (-1074) 53).
Lemma valid64 : Valid_exp fexp64.
Proof. apply FLT_exp_valid. reflexivity. Qed.
Global Existing Instance valid64.
Lemma monotone64 : Monotone_exp fexp64.
Proof. apply FLT_exp_monotone. Qed.
Global Existing Instance monotone64.
Lemma exists64 : Exists_NE radix2 fexp64.
Proof. apply exists_NE_FLT. right. lia. Qed.
Global Existing Instance exists64.

Lemma double_eq x y : @B2R 53 1024 x = @B2R 53 1024 y -> @is_finite 53 1024 x = true -> @is_finite 53 1024 y = true -> @Bsign 53 1024 x = @Bsign 53 1024 y -> x = y.
Proof. intros. apply B2R_Bsign_inj; auto. Qed.
Lemma rounds_unique negative r x y : rounds negative r x -> rounds negative r y -> x = y.
Proof.
  unfold rounds. cbv zeta. intros [(A & B & C & D)|(A & B)] [(A' & B' & C' & D')|(A' & B')]; subst; auto; try lra.
  apply double_eq; congruence.
Qed.
Lemma nearest_nonneg r : (0 <= r)%R -> (0 <= nearest_double r)%R.
Proof. intro H. unfold nearest_double. apply round_ge_generic; auto with typeclass_instances. apply generic_format_0. Qed.

Lemma ratio_spec negative a b : rounds negative (IZR (Zpos a) / IZR (Zpos b)) (ratio negative a b).
Proof.
  unfold ratio. pose proof (proj2 (Bdiv_correct_aux 53 1024 prec_ok emax_ok mode_NE negative a 0 false b 0)) as C.
  generalize (proj1 (Bdiv_correct_aux 53 1024 prec_ok emax_ok mode_NE negative a 0 false b 0)). intro V. revert V C.
  set (z := let '(mz, ez, lz) := _ in _). intros V C.
  change (SpecFloat.fexp 53 1024) with fexp64 in C. cbn [round_mode] in C.
  assert (Er : round radix2 fexp64 ZnearestE (F2R (Float radix2 (cond_Zopp negative (Zpos a)) 0) / F2R (Float radix2 (cond_Zopp false (Zpos b)) 0)) =
    (if negative then - nearest_double (IZR (Zpos a) / IZR (Zpos b)) else nearest_double (IZR (Zpos a) / IZR (Zpos b)))%R).
  { unfold F2R. cbn [Fnum Fexp cond_Zopp bpow]. rewrite !Rmult_1_r. unfold nearest_double. destruct negative; auto. cbn [cond_Zopp]. change (- Zpos a)%Z with (Z.opp (Zpos a)). rewrite opp_IZR.
    rewrite <- round_NE_opp. f_equal. unfold Rdiv. ring. }
  rewrite Er in C. assert (Hp : (0 <= nearest_double (IZR (Zpos a) / IZR (Zpos b)))%R).
  { apply nearest_nonneg. apply Rmult_le_pos; [apply IZR_le; lia|]. apply Rlt_le, Rinv_0_lt_compat, IZR_lt. lia. }
  assert (Ea : Rabs (if negative then - nearest_double (IZR (Zpos a) / IZR (Zpos b)) else nearest_double (IZR (Zpos a) / IZR (Zpos b)))%R = nearest_double (IZR (Zpos a) / IZR (Zpos b))).
  { destruct negative; rewrite ?Rabs_Ropp; apply Rabs_pos_eq; auto. }
  rewrite Ea in C. unfold rounds. cbv zeta. unfold largest_power.
  destruct (Rlt_bool_spec (nearest_double (IZR (Zpos a) / IZR (Zpos b))) (bpow radix2 1024)) as [H|H].
  - destruct C as (C1 & C2 & C3). left. split; auto. rewrite is_finite_SF2B, B2R_SF2B, Bsign_SF2B. rewrite Bool.xorb_false_r in C3. auto.
  - right. split; auto. apply B2SF_inj. rewrite B2SF_SF2B, C, Bool.xorb_false_r. reflexivity.
Qed.

Lemma pow10_value k : (0 <= k)%Z -> IZR (Zpos (pow10 k)) = powerRZ 10 k.
Proof.
  intro H. unfold pow10. rewrite Z2Pos.id by (apply Z.pow_pos_nonneg; lia). rewrite <- (Z2Nat.id k H) at 2. rewrite <- pow_powerRZ.
  rewrite <- (Z2Nat.id k H) at 1. rewrite <- pow_IZR. reflexivity.
Qed.
Lemma power10_pos k : (0 < powerRZ 10 k)%R.
Proof. apply powerRZ_lt. lra. Qed.
Lemma power10_add a b : powerRZ 10 (a + b) = (powerRZ 10 a * powerRZ 10 b)%R.
Proof. apply powerRZ_add. lra. Qed.
Lemma power10_opp a : powerRZ 10 (- a) = (/ powerRZ 10 a)%R.
Proof. apply Rmult_eq_reg_r with (powerRZ 10 a); [|apply Rgt_not_eq, power10_pos]. rewrite <- power10_add. rewrite Rinv_l by apply Rgt_not_eq, power10_pos. replace (- a + a)%Z with 0%Z by lia. reflexivity. Qed.
Lemma power10_split k : powerRZ 10 k = (powerRZ 10 (Z.max k 0) / powerRZ 10 (Z.max (- k) 0))%R.
Proof.
  unfold Rdiv. rewrite <- power10_opp, <- power10_add. f_equal. lia.
Qed.
Lemma of_decimal_spec negative d k : rounds negative (decimal_value d k) (f64_of_decimal negative d k).
Proof.
  unfold decimal_value. destruct d as [|p]; cbn [f64_of_decimal Z.of_N].
  - left. rewrite Rmult_0_l. unfold nearest_double. rewrite round_0 by auto with typeclass_instances. split; [apply bpow_gt_0|]. cbn. split; auto. split; auto. destruct negative; lra.
  - assert (X := ratio_spec negative (p * pow10 (Z.max k 0)) (pow10 (Z.max (- k) 0))). rewrite Pos2Z.inj_mul, mult_IZR, !pow10_value in X by lia.
    rewrite power10_split. unfold Rdiv in *. rewrite <- Rmult_assoc. exact X.
Qed.
Lemma of_decimal_value negative d k d' k' : decimal_value d k = decimal_value d' k' -> f64_of_decimal negative d k = f64_of_decimal negative d' k'.
Proof. intro H. apply (rounds_unique negative (decimal_value d k)); [apply of_decimal_spec|]. rewrite H. apply of_decimal_spec. Qed.
Lemma of_decimal_rounds negative d k x : f64_of_decimal negative d k = x <-> rounds negative (decimal_value d k) x.
Proof. split; [intros <-; apply of_decimal_spec|]. intro H. eapply rounds_unique; [apply of_decimal_spec|exact H]. Qed.
Lemma same_f64_eq x y : same_f64 x y = true <-> x = y.
Proof.
  split.
  - destruct x as [s|s| |s m e H], y as [s'|s'| |s' m' e' H']; cbn [same_f64]; intro E; try discriminate.
    + apply Bool.eqb_prop in E. congruence.
    + apply Bool.eqb_prop in E. congruence.
    + auto.
    + apply andb_true_iff in E. destruct E as [E E3]. apply andb_true_iff in E. destruct E as [E1 E2].
      apply Bool.eqb_prop in E1. apply Pos.eqb_eq in E2. apply Z.eqb_eq in E3. subst. f_equal. apply Eqdep_dec.UIP_dec. decide equality.
  - intros ->. destruct y; cbn [same_f64]; rewrite ?Bool.eqb_reflx, ?Pos.eqb_refl, ?Z.eqb_refl; auto.
Qed.
