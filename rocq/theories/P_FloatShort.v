(** Proofs about texts of floating point numbers: the shortest decimal. *)
From Coq Require Import ZArith Reals Ascii Lra Lia.
From Flocq Require Import Core IEEE754.BinarySingleNaN.
From Verif Require Export P_FloatParse.
Local Open Scope string_scope.
Local Open Scope list_scope.

(** ** decimals near a double are rounded to it *)
Lemma ulp_large p : (0 <= p)%R -> (p * bpow radix2 (-53) < ulp radix2 fexp64 p)%R.
Proof.
  intro H. assert (X := @ulp_FLT_gt radix2 (-1074) 53 prec_ok p). rewrite Rabs_pos_eq in X by auto. exact X.
Qed.
Lemma p53 : bpow radix2 (-53) = (/ 9007199254740992)%R.
Proof. cbn. lra. Qed.
Lemma close_nearest X v step : generic_format radix2 fexp64 X -> (0 < X)%R -> (step * 10000000000000000 <= X)%R -> (0 <= step)%R -> (Rabs (v - X) <= step / 2)%R ->
  nearest_double v = X.
Proof.
  intros F0 HX Hs Hs0 Hv. apply Rabs_le_inv in Hv.
  assert (Up : (step < ulp radix2 fexp64 X)%R).
  { assert (U := ulp_large X (Rlt_le _ _ HX)). rewrite p53 in U. lra. }
  assert (Sp : succ radix2 fexp64 X = (X + ulp radix2 fexp64 X)%R) by (apply succ_eq_pos; lra).
  assert (Hp0 := pred_ge_0 radix2 fexp64 X HX F0).
  assert (Dn : (step < X - pred radix2 fexp64 X)%R).
  { assert (E := succ_pred radix2 fexp64 X F0). rewrite succ_eq_pos in E by auto.
    assert (U := ulp_large _ Hp0). rewrite p53 in U. lra. }
  apply Rle_antisym.
  - apply round_N_le_midp; auto with typeclass_instances. rewrite Sp. lra.
  - apply round_N_ge_midp; auto with typeclass_instances. lra.
Qed.

(** ** fractions *)
Section Finite.
Context (negative : bool) (m : positive) (e : Z) (Hb : SpecFloat.bounded 53 1024 m e = true).
Let x : f64 := B754_finite negative m e Hb.
Definition magnitude_of : R := F2R (Float radix2 (Zpos m) e).
Notation X := magnitude_of.
Lemma X_pos : (0 < X)%R.
Proof. apply F2R_gt_0. cbn. lia. Qed.
Lemma X_format : generic_format radix2 fexp64 X.
Proof.
  assert (H := generic_format_B2R 53 1024 (B754_finite false m e Hb)). exact H.
Qed.
Lemma X_value : B2R x = (if negative then - X else X)%R.
Proof. unfold x, magnitude_of. cbn [B2R]. destruct negative; cbn [SpecFloat.cond_Zopp]; auto. change (Zneg m) with (Z.opp (Zpos m)). apply F2R_Zopp. Qed.
Lemma X_small : (X < largest_power)%R.
Proof.
  assert (H := abs_B2R_lt_emax 53 1024 (B754_finite false m e Hb)). cbn [B2R SpecFloat.cond_Zopp] in H. rewrite Rabs_pos_eq in H; [exact H|]. apply Rlt_le, X_pos.
Qed.
Lemma X_large : (bpow radix2 (-1074) <= X)%R.
Proof.
  unfold magnitude_of. apply Rle_trans with (F2R (Float radix2 1 e)).
  - rewrite F2R_bpow. apply bpow_le. assert (H := Hb). unfold SpecFloat.bounded in H. apply andb_true_iff in H. destruct H as [H _].
    unfold SpecFloat.canonical_mantissa in H. apply Zeq_bool_eq in H. unfold SpecFloat.fexp, SpecFloat.emin in H. lia.
  - apply F2R_le. lia.
Qed.
Lemma rounds_x r : (0 <= r)%R -> (rounds negative r x <-> nearest_double r = X).
Proof.
  intro Hr. unfold rounds. cbv zeta. rewrite X_value. cbn [x is_finite Bsign]. assert (HX := X_small). split.
  - intros [(_ & _ & H & _)|(_ & H)]; [|discriminate]. destruct negative; lra.
  - intro H. left. rewrite H. auto.
Qed.

Lemma power2_value k : (0 <= k)%Z -> IZR (2 ^ k) = bpow radix2 k.
Proof. intro H. rewrite <- IZR_Zpower by auto. reflexivity. Qed.
Lemma power10_value k : (0 <= k)%Z -> IZR (10 ^ k) = powerRZ 10 k.
Proof. intro H. rewrite <- pow10_value by auto. unfold pow10. rewrite Z2Pos.id; auto. apply Z.pow_pos_nonneg; lia. Qed.
Lemma scaled_value k a b : scaled m e k = (a, b) -> (0 < a)%Z /\ (0 < b)%Z /\ (IZR a = X * powerRZ 10 (- k) * IZR b)%R.
Proof.
  unfold scaled. intro H. apply pair_equal_spec in H. destruct H as [<- <-].
  assert (P2 : forall k, (0 < 2 ^ Z.max k 0)%Z) by (intro; apply Z.pow_pos_nonneg; lia).
  assert (P10 : forall k, (0 < 10 ^ Z.max k 0)%Z) by (intro; apply Z.pow_pos_nonneg; lia).
  split; [|split].
  - apply Z.mul_pos_pos; auto. apply Z.mul_pos_pos; auto. lia.
  - apply Z.mul_pos_pos; auto.
  - rewrite !mult_IZR, !power2_value, !power10_value by lia. unfold magnitude_of, F2R. cbn [Fnum Fexp].
    assert (E2 : bpow radix2 (Z.max e 0) = (bpow radix2 e * bpow radix2 (Z.max (- e) 0))%R) by (rewrite <- bpow_plus; f_equal; lia).
    assert (E10 : powerRZ 10 (Z.max (- k) 0) = (powerRZ 10 (- k) * powerRZ 10 (Z.max k 0))%R) by (rewrite <- power10_add; f_equal; lia).
    rewrite E2, E10. ring.
Qed.
Lemma test_exponent k : (let '(a, b) := scaled m e k in (b <=? a)%Z) = true <-> (powerRZ 10 k <= X)%R.
Proof.
  destruct (scaled m e k) as [a b] eqn:E. apply scaled_value in E. destruct E as (Ha & Hb' & E). rewrite Z.leb_le.
  assert (Hb2 : (0 < IZR b)%R) by (apply IZR_lt; auto). assert (Hp := power10_pos k). rewrite power10_opp in E. split; intro H.
  - apply IZR_le in H. rewrite E in H. apply Rmult_le_reg_r with (/ powerRZ 10 k)%R; [apply Rinv_0_lt_compat; auto|]. rewrite Rinv_r by lra.
    apply Rmult_le_reg_r with (IZR b); auto. lra.
  - apply le_IZR. rewrite E. apply Rle_trans with (1 * IZR b)%R; [lra|]. apply Rmult_le_compat_r; [lra|].
    apply Rmult_le_reg_r with (powerRZ 10 k); auto. rewrite Rmult_assoc, Rinv_l by lra. lra.
Qed.
Lemma find_first {A} (f : A -> bool) l a : find f l = Some a -> exists l1 l2, l = l1 ++ a :: l2 /\ f a = true /\ forall b, In b l1 -> f b = false.
Proof.
  induction l as [|b l IH]; [discriminate|]. cbn [find]. destruct (f b) eqn:E.
  - intro H. injection H as <-. exists [], l. split; auto. split; auto. intros c [].
  - intro H. destruct (IH H) as (l1 & l2 & -> & H1 & H2). exists (b :: l1), l2. split; auto. split; auto. intros c [<-|Hc]; auto.
Qed.
Lemma exponents_near l1 : forall start n l2 k, map (fun i => 310 - Z.of_nat i)%Z (seq start n) = l1 ++ k :: l2 -> (k = 310 - Z.of_nat start \/ In (k + 1) l1)%Z.
Proof.
  induction l1 as [|a l1 IH]; intros start n l2 k H; destruct n as [|n]; try discriminate; cbn [seq map app] in H.
  - assert (X : (310 - Z.of_nat start)%Z = k) by congruence. auto.
  - assert (X1 : (310 - Z.of_nat start)%Z = a) by congruence. assert (X2 : map (fun i => 310 - Z.of_nat i)%Z (seq (S start) n) = l1 ++ k :: l2) by congruence.
    destruct (IH _ _ _ _ X2) as [E | H']; [|right; right; auto]. right. left. lia.
Qed.
Lemma exponent_value : (powerRZ 10 (decimal_exponent m e) <= X < powerRZ 10 (decimal_exponent m e + 1))%R.
Proof.
  unfold decimal_exponent. set (l := map _ _). destruct (find _ l) as [k|] eqn:E.
  - destruct (find_first _ _ _ E) as (l1 & l2 & El & Ht & Hf). apply test_exponent in Ht. split; auto.
    destruct (exponents_near l1 0 650 l2 k El) as [-> | Hin].
    + exfalso. assert (HX := X_small). unfold largest_power in HX.
      assert (Hc : (bpow radix2 1024 <= powerRZ 10 310)%R).
      { rewrite <- power2_value, <- power10_value by lia. apply IZR_le. apply Z.leb_le. vm_compute. reflexivity. }
      change (310 - Z.of_nat 0)%Z with 310%Z in Ht. apply (Rlt_irrefl X). eapply Rlt_le_trans; [exact HX|]. eapply Rle_trans; eauto.
    + apply Hf in Hin. destruct (Rle_or_lt (powerRZ 10 (k + 1)) X) as [H|H]; auto. apply test_exponent in H. congruence.
  - exfalso. assert (Hl : In (-339)%Z l) by (apply in_map_iff; exists 649; split; [reflexivity|apply in_seq; lia]).
    assert (Ht := find_none _ _ E _ Hl).
    assert (Hc : (powerRZ 10 (-339) <= bpow radix2 (-1074))%R).
    { change (-339)%Z with (- (339))%Z. change (-1074)%Z with (- (1074))%Z. rewrite power10_opp, bpow_opp. apply Rinv_le; [apply bpow_gt_0|].
      rewrite <- power2_value, <- power10_value by lia. apply IZR_le. apply Z.leb_le. vm_compute. reflexivity. }
    assert (HX := X_large). assert (Hx : (powerRZ 10 (-339) <= X)%R) by (eapply Rle_trans; eauto). apply test_exponent in Hx. exact (Bool.eq_true_false_abs _ Hx Ht).
Qed.

Notation E := (decimal_exponent m e).
Lemma value_nonneg d k : (0 <= decimal_value d k)%R.
Proof. unfold decimal_value. apply Rmult_le_pos; [apply IZR_le; lia|apply Rlt_le, power10_pos]. Qed.
Lemma accept_spec d k : same_f64 (f64_of_decimal negative d k) x = true <-> nearest_double (decimal_value d k) = X.
Proof. rewrite same_f64_eq, of_decimal_rounds. apply rounds_x. apply value_nonneg. Qed.
Lemma nearest_X : nearest_double X = X.
Proof. apply round_generic; auto with typeclass_instances. apply X_format. Qed.
Lemma nearest_le a b : (a <= b)%R -> (nearest_double a <= nearest_double b)%R.
Proof. intro H. apply round_le; auto with typeclass_instances. Qed.
Lemma between_low v a : nearest_double v = X -> (v <= a <= X)%R -> nearest_double a = X.
Proof. intros H [H1 H2]. apply nearest_le in H1, H2. rewrite nearest_X in H2. rewrite H in H1. lra. Qed.
Lemma between_high v a : nearest_double v = X -> (X <= a <= v)%R -> nearest_double a = X.
Proof. intros H [H1 H2]. apply nearest_le in H1, H2. rewrite nearest_X in H1. rewrite H in H2. lra. Qed.

Lemma neighbours_spec k : exists q (u : bool), (0 <= q)%Z /\ neighbours m e k = map Z.to_N (if u then [q + 1; q] else [q; q + 1])%Z /\
  (IZR q * powerRZ 10 k <= X < IZR (q + 1) * powerRZ 10 k)%R /\
  (if u then IZR (q + 1) * powerRZ 10 k - X <= X - IZR q * powerRZ 10 k else X - IZR q * powerRZ 10 k <= IZR (q + 1) * powerRZ 10 k - X)%R /\
  ((X - IZR q * powerRZ 10 k = IZR (q + 1) * powerRZ 10 k - X)%R -> u = Z.odd q).
Proof.
  unfold neighbours. destruct (scaled m e k) as [a b] eqn:Es. apply scaled_value in Es. destruct Es as (Ha & Hb' & Es).
  set (q := (a / b)%Z). assert (Hr := Z.mod_pos_bound a b Hb'). assert (Hd := Z.div_mod a b ltac:(lia)). fold q in Hd. set (r := (a mod b)%Z) in *.
  assert (Hp := power10_pos k). assert (HB : (0 < IZR b)%R) by (apply IZR_lt; auto). rewrite power10_opp in Es.
  assert (EX : (X = IZR a / IZR b * powerRZ 10 k)%R) by (rewrite Es; field; lra).
  assert (EA : (IZR a = IZR b * IZR q + IZR r)%R) by (rewrite <- mult_IZR, <- plus_IZR; f_equal; exact Hd).
  assert (EY : (IZR a / IZR b = IZR q + IZR r / IZR b)%R) by (rewrite EA; field; lra).
  assert (R0 : (0 <= IZR r / IZR b)%R) by (apply Rmult_le_pos; [apply IZR_le; lia|apply Rlt_le, Rinv_0_lt_compat; auto]).
  assert (R1 : (IZR r / IZR b < 1)%R).
  { apply Rmult_lt_reg_r with (IZR b); auto. unfold Rdiv. rewrite Rmult_assoc, Rinv_l, Rmult_1_r, Rmult_1_l by lra. apply IZR_lt. lia. }
  assert (ED : (X - IZR q * powerRZ 10 k = IZR r / IZR b * powerRZ 10 k)%R) by (rewrite EX, EY; ring).
  assert (EU : (IZR (q + 1) * powerRZ 10 k - X = (1 - IZR r / IZR b) * powerRZ 10 k)%R) by (rewrite EX, EY, plus_IZR; ring).
  assert (EH : (IZR (2 * r) = 2 * (IZR r / IZR b) * IZR b)%R) by (rewrite mult_IZR; field; lra).
  exists q, (match (2 * r ?= b)%Z with Lt => false | Gt => true | Eq => Z.odd q end).
  split; [apply Z.div_pos; lia|]. split; [reflexivity|]. split; [|split].
  - split.
    + assert (0 <= IZR r / IZR b * powerRZ 10 k)%R by (apply Rmult_le_pos; lra). lra.
    + assert (0 < (1 - IZR r / IZR b) * powerRZ 10 k)%R by (apply Rmult_lt_0_compat; lra). lra.
  - rewrite ED, EU. destruct (Z.compare_spec (2 * r) b) as [Hc|Hc|Hc].
    + apply (f_equal IZR) in Hc. rewrite EH in Hc. assert (Hh : (IZR r / IZR b = / 2)%R).
      { apply Rmult_eq_reg_r with (2 * IZR b)%R; [|lra]. lra. }
      rewrite Hh. destruct (Z.odd q); apply Rmult_le_compat_r; lra.
    + apply IZR_lt in Hc. rewrite EH in Hc. apply Rmult_le_compat_r; [lra|]. assert (2 * (IZR r / IZR b) < 1)%R by (apply Rmult_lt_reg_r with (IZR b); lra). lra.
    + apply IZR_lt in Hc. rewrite EH in Hc. apply Rmult_le_compat_r; [lra|]. assert (1 < 2 * (IZR r / IZR b))%R by (apply Rmult_lt_reg_r with (IZR b); lra). lra.
  - rewrite ED, EU. intro Ht. apply Rmult_eq_reg_r in Ht; [|lra]. assert (Hc : (2 * r = b)%Z).
    { apply eq_IZR. rewrite EH. replace (2 * (IZR r / IZR b))%R with 1%R by lra. ring. }
    rewrite Hc, Z.compare_refl. reflexivity.
Qed.
Lemma value_of_Z q k : (0 <= q)%Z -> decimal_value (Z.to_N q) k = (IZR q * powerRZ 10 k)%R.
Proof. intro H. unfold decimal_value. rewrite Z2N.id; auto. Qed.
Lemma power10_le a b : (a <= b)%Z -> (powerRZ 10 a <= powerRZ 10 b)%R.
Proof.
  intro H. replace b with (a + (b - a))%Z by lia. rewrite power10_add. rewrite <- (Rmult_1_r (powerRZ 10 a)) at 1. apply Rmult_le_compat_l; [apply Rlt_le, power10_pos|].
  rewrite <- power10_value by lia. apply IZR_le. assert (0 < 10 ^ (b - a))%Z by (apply Z.pow_pos_nonneg; lia). lia.
Qed.

(** the decimals with [n] digits next to the number, and the one that is chosen *)
Lemma digits_spec n : 1 <= n -> let k := (E - Z.of_nat n + 1)%Z in exists q,
  (10 ^ (Z.of_nat n - 1) <= q < 10 ^ Z.of_nat n)%Z /\ (IZR q * powerRZ 10 k <= X < IZR (q + 1) * powerRZ 10 k)%R /\
  match with_digits negative m e x n with
  | None => nearest_double (IZR q * powerRZ 10 k) <> X /\ nearest_double (IZR (q + 1) * powerRZ 10 k) <> X
  | Some (d, k') => k' = k /\ nearest_double (decimal_value d k) = X /\ (Z.of_N d = q \/ Z.of_N d = q + 1)%Z /\
      forall v, nearest_double v = X -> (v <= IZR q * powerRZ 10 k \/ IZR (q + 1) * powerRZ 10 k <= v)%R -> (Rabs (decimal_value d k - X) <= Rabs (v - X))%R
  end.
Proof.
  intros Hn k. destruct (neighbours_spec k) as (q & u & Hq & En & Hi & Hu & _). exists q. assert (HE := exponent_value). assert (Hp := power10_pos k).
  assert (Ek : (powerRZ 10 (E + 1) = IZR (10 ^ Z.of_nat n) * powerRZ 10 k)%R) by (rewrite power10_value, <- power10_add by lia; f_equal; unfold k; lia).
  assert (Ek1 : (powerRZ 10 E = IZR (10 ^ (Z.of_nat n - 1)) * powerRZ 10 k)%R) by (rewrite power10_value, <- power10_add by lia; f_equal; unfold k; lia).
  split.
  { split.
    - assert (X1 : (IZR (10 ^ (Z.of_nat n - 1)) < IZR (q + 1))%R) by (apply Rmult_lt_reg_r with (powerRZ 10 k); auto; lra). apply lt_IZR in X1. lia.
    - apply lt_IZR. apply Rmult_lt_reg_r with (powerRZ 10 k); auto. lra. }
  split; auto.
  assert (V1 := value_of_Z q k Hq). assert (V2 := value_of_Z (q + 1) k ltac:(lia)).
  assert (L : (Rabs (IZR q * powerRZ 10 k - X) = X - IZR q * powerRZ 10 k)%R) by (rewrite Rabs_left1; lra).
  assert (U : (Rabs (IZR (q + 1) * powerRZ 10 k - X) = IZR (q + 1) * powerRZ 10 k - X)%R) by (rewrite Rabs_pos_eq; lra).
  assert (Far : forall v, (v <= IZR q * powerRZ 10 k \/ IZR (q + 1) * powerRZ 10 k <= v)%R ->
    (v <= X /\ X - IZR q * powerRZ 10 k <= Rabs (v - X) \/ X <= v /\ IZR (q + 1) * powerRZ 10 k - X <= Rabs (v - X))%R).
  { intros v [Hv|Hv]; [left|right]; (split; [lra|]); [rewrite Rabs_left1; lra|rewrite Rabs_pos_eq; lra]. }
  assert (A : forall b : bool, same_f64 (f64_of_decimal negative (Z.to_N (if b then q + 1 else q)) k) x = true <-> nearest_double (IZR (if b then q + 1 else q) * powerRZ 10 k) = X).
  { intro b. rewrite accept_spec. destruct b; [rewrite V2|rewrite V1]; reflexivity. }
  unfold with_digits. fold k. rewrite En. destruct u; cbn [map find].
  - destruct (same_f64 (f64_of_decimal negative (Z.to_N (q + 1)) k) x) eqn:E1.
    + apply (A true) in E1. cbn [option_map]. split; auto. rewrite V2. split; auto. split; [rewrite Z2N.id; lia|]. intros v _ Hv. apply Far in Hv. rewrite U. lra.
    + destruct (same_f64 (f64_of_decimal negative (Z.to_N q) k) x) eqn:E2.
      * apply (A false) in E2. cbn [option_map]. split; auto. rewrite V1. split; auto. split; [rewrite Z2N.id; lia|]. intros v Hv Hs. rewrite L.
        destruct Hs as [Hs|Hs]; [rewrite Rabs_left1; lra|]. exfalso. assert (Y : nearest_double (IZR (q + 1) * powerRZ 10 k) = X) by (apply (between_high v); auto; lra).
        apply (A true) in Y. congruence.
      * cbn [option_map]. split; intro Y; [apply (A false) in Y|apply (A true) in Y]; congruence.
  - destruct (same_f64 (f64_of_decimal negative (Z.to_N q) k) x) eqn:E1.
    + apply (A false) in E1. cbn [option_map]. split; auto. rewrite V1. split; auto. split; [rewrite Z2N.id; lia|]. intros v _ Hv. apply Far in Hv. rewrite L. lra.
    + destruct (same_f64 (f64_of_decimal negative (Z.to_N (q + 1)) k) x) eqn:E2.
      * apply (A true) in E2. cbn [option_map]. split; auto. rewrite V2. split; auto. split; [rewrite Z2N.id; lia|]. intros v Hv Hs. rewrite U.
        destruct Hs as [Hs|Hs]; [|rewrite Rabs_pos_eq; lra]. exfalso. assert (Y : nearest_double (IZR q * powerRZ 10 k) = X) by (apply (between_low v); auto; lra).
        apply (A false) in Y. congruence.
      * cbn [option_map]. split; intro Y; [apply (A false) in Y|apply (A true) in Y]; congruence.
Qed.
(** decimals with [n] digits are not between the two *)
Lemma digits_outside n q d' k' : 1 <= n -> let k := (E - Z.of_nat n + 1)%Z in (10 ^ (Z.of_nat n - 1) <= q)%Z -> (Z.of_N d' < 10 ^ Z.of_nat n)%Z ->
  (decimal_value d' k' <= IZR q * powerRZ 10 k \/ IZR (q + 1) * powerRZ 10 k <= decimal_value d' k')%R.
Proof.
  intros Hn k Hq Hd. assert (Hp := power10_pos k). unfold decimal_value. destruct (Z_le_gt_dec k k') as [Hk|Hk].
  - assert (Ev : (IZR (Z.of_N d') * powerRZ 10 k' = IZR (Z.of_N d' * 10 ^ (k' - k)) * powerRZ 10 k)%R).
    { rewrite mult_IZR, power10_value, Rmult_assoc, <- power10_add by lia. do 2 f_equal. lia. }
    rewrite Ev. destruct (Z_le_gt_dec (Z.of_N d' * 10 ^ (k' - k)) q) as [Hj|Hj]; [left|right]; apply Rmult_le_compat_r; try lra; apply IZR_le; lia.
  - left. apply Rle_trans with (IZR (10 ^ (Z.of_nat n - 1)) * powerRZ 10 k)%R; [|apply Rmult_le_compat_r; [lra|apply IZR_le; auto]].
    rewrite power10_value, <- power10_add by lia.
    apply Rle_trans with (IZR (10 ^ Z.of_nat n) * powerRZ 10 k')%R; [apply Rmult_le_compat_r; [apply Rlt_le, power10_pos|apply IZR_le; lia]|].
    rewrite power10_value, <- power10_add by lia. apply power10_le. lia.
Qed.
Lemma seventeen : with_digits negative m e x 17 <> None.
Proof.
  intro H. set (k := (E - Z.of_nat 17 + 1)%Z). destruct (digits_spec 17 ltac:(lia)) as (q & Hq & Hi & Hw). fold k in Hi, Hw. rewrite H in Hw.
  assert (Hp := power10_pos k). destruct Hw as [W1 W2]. rewrite plus_IZR in Hi, W2.
  assert (Hs : (powerRZ 10 k * 10000000000000000 <= X)%R).
  { assert (HE := exponent_value). change 10000000000000000%R with (IZR (10 ^ 16)). rewrite power10_value, <- power10_add by lia. replace (k + 16)%Z with E by (unfold k; lia). lra. }
  destruct (Rle_or_lt (X - IZR q * powerRZ 10 k) (powerRZ 10 k / 2)) as [Hc|Hc].
  - apply W1. apply (close_nearest X _ (powerRZ 10 k)); auto; [apply X_format|apply X_pos|lra|]. rewrite Rabs_left1; lra.
  - apply W2. apply (close_nearest X _ (powerRZ 10 k)); auto; [apply X_format|apply X_pos|lra|]. rewrite Rabs_pos_eq; lra.
Qed.
Lemma first_some_spec {A B} (g : A -> option B) l : match first_some g l with
  | Some b => exists l1 a l2, l = l1 ++ a :: l2 /\ g a = Some b /\ forall c, In c l1 -> g c = None
  | None => forall a, In a l -> g a = None
  end.
Proof.
  induction l as [|a l IH]; cbn [first_some]; [intros a []|]. destruct (g a) as [b|] eqn:Ea.
  - exists [], a, l. split; auto. split; auto. intros c [].
  - destruct (first_some g l) as [b|].
    + destruct IH as (l1 & a' & l2 & -> & H1 & H2). exists (a :: l1), a', l2. split; auto. split; auto. intros c [<-|Hc]; auto.
    + intros c [<-|Hc]; auto.
Qed.
Lemma seq_split l1 : forall start n a l2, seq start n = l1 ++ a :: l2 -> forall j, start <= j < a -> In j l1.
Proof.
  induction l1 as [|b l1 IH]; intros start n a l2 H j Hj; destruct n as [|n]; try discriminate; cbn [seq app] in H.
  - injection H as <- _. lia.
  - injection H as <- H. destruct (Nat.eq_dec j start) as [->|Hne]; [left; auto|]. right. eapply IH; eauto. lia.
Qed.
Lemma strip_value fuel : forall d k d' k', strip_zeros fuel d k = (d', k') -> decimal_value d' k' = decimal_value d k /\ ((0 < d)%N -> (0 < d')%N).
Proof.
  induction fuel as [|fuel IH]; intros d k d' k' H; cbn [strip_zeros] in H.
  - injection H as <- <-. auto.
  - destruct ((0 <? d)%N && (d mod 10 =? 0)%N) eqn:Ec; [|injection H as <- <-; auto]. apply andb_true_iff in Ec. destruct Ec as [E1 E2]. apply N.ltb_lt in E1. apply N.eqb_eq in E2.
    assert (Hd := N.div_mod d 10 ltac:(lia)). rewrite E2, N.add_0_r in Hd. apply IH in H. destruct H as [H1 H2]. split.
    + rewrite H1. rewrite Hd at 2. unfold decimal_value. rewrite N2Z.inj_mul, mult_IZR, power10_add. change (powerRZ 10 1) with (10 * 1)%R. change (Z.of_N 10) with 10%Z. ring.
    + intros _. apply H2. lia.
Qed.
Lemma X_not_zero v : nearest_double v = X -> v <> 0%R.
Proof. intros H ->. unfold nearest_double in H. rewrite round_0 in H by auto with typeclass_instances. assert (Y := X_pos). lra. Qed.
Lemma significant_value n d k d' k' : decimal_value d k = decimal_value d' k' -> significant n d k -> significant n d' k'.
Proof. intros H (a & b & H1 & H2). exists a, b. split; congruence. Qed.
Lemma significant_more n n' d k : n <= n' -> significant n d k -> significant n' d k.
Proof. intros H (a & b & H1 & H2). exists a, b. split; auto. eapply Z.lt_le_trans; [exact H2|]. apply Z.pow_le_mono_r; lia. Qed.
Lemma shortest_spec : exists d k, shortest negative m e x = Some (d, k) /\ (0 < d)%N /\ rounds negative (decimal_value d k) x /\
  forall n d' k', rounds negative (decimal_value d' k') x -> significant n d' k' ->
    significant n d k /\ ((forall j, significant j d k -> n <= j) -> (Rabs (decimal_value d k - X) <= Rabs (decimal_value d' k' - X))%R).
Proof.
  unfold shortest. assert (Hf := first_some_spec (with_digits negative m e x) (seq 1 17)).
  destruct (first_some (with_digits negative m e x) (seq 1 17)) as [[d0 k0]|].
  2: { exfalso. apply seventeen. apply Hf. apply in_seq. lia. }
  destruct Hf as (l1 & n0 & l2 & El & Hw & Hno). assert (Hn0 : 1 <= n0) by (assert (Hi : In n0 (seq 1 17)) by (rewrite El; apply in_app_iff; right; left; auto); apply in_seq in Hi; lia).
  assert (Hmin : forall j, 1 <= j < n0 -> with_digits negative m e x j = None) by (intros j Hj; apply Hno; eapply seq_split; eauto).
  clear Hno El l1 l2. cbn [option_map fst snd]. destruct (strip_zeros 18 d0 k0) as [d k] eqn:Es. apply strip_value in Es. destruct Es as [Ev Hpos].
  exists d, k. split; auto. destruct (digits_spec n0 Hn0) as (q & Hq & Hi & Hd). rewrite Hw in Hd. destruct Hd as (-> & Hr & Hd & Hclose).
  set (k0 := (E - Z.of_nat n0 + 1)%Z) in *.
  assert (Q1 : (0 < 10 ^ (Z.of_nat n0 - 1))%Z) by (apply Z.pow_pos_nonneg; lia).
  split; [apply Hpos; lia|]. split; [apply rounds_x; [apply value_nonneg|]; rewrite Ev; auto|].
  assert (Any : forall n d' k', nearest_double (decimal_value d' k') = X -> significant n d' k' -> n0 <= n).
  { intros n d' k' Hr' (a & b & E1 & E2). destruct (le_gt_dec n0 n) as [Hle|Hgt]; auto. exfalso.
    assert (Hn1 : 1 <= n).
    { destruct n; [|lia]. exfalso. cbn in E2. apply (X_not_zero _ Hr'). rewrite E1. unfold decimal_value. replace (Z.of_N a) with 0%Z by lia. ring. }
    destruct (digits_spec n Hn1) as (q' & Hq' & Hi' & Hd'). rewrite (Hmin n ltac:(lia)) in Hd'. destruct Hd' as [N1 N2].
    rewrite E1 in Hr'. destruct (digits_outside n q' a b Hn1 ltac:(lia) E2) as [Ho|Ho].
    - apply N1. apply (between_low (decimal_value a b)); auto. lra.
    - apply N2. apply (between_high (decimal_value a b)); auto. lra. }
  assert (Sig : significant n0 d k).
  { apply (significant_value n0 d0 k0); auto. destruct (Z_lt_le_dec (Z.of_N d0) (10 ^ Z.of_nat n0)) as [Hlt|Hge]; [exists d0, k0; auto|].
    exists 1%N, (k0 + Z.of_nat n0)%Z. split.
    - unfold decimal_value. replace (Z.of_N d0) with (10 ^ Z.of_nat n0)%Z by lia. rewrite power10_value, <- power10_add by lia. change (Z.of_N 1) with 1%Z. rewrite Rmult_1_l. f_equal. lia.
    - apply Z.lt_le_trans with (10 ^ 1)%Z; [reflexivity|]. apply Z.pow_le_mono_r; lia. }
  intros n d' k' Hr' Hs'. apply rounds_x in Hr'; [|apply value_nonneg]. assert (Hn := Any n d' k' Hr' Hs'). split; [eapply significant_more; eauto|].
  intro Hleast. assert (n = n0) by (assert (n <= n0) by auto; lia). subst n. rewrite Ev.
  destruct Hs' as (a & b & E1 & E2). rewrite E1 in *. apply Hclose; auto. apply digits_outside; auto. lia.
Qed.
End Finite.
