(** Proofs about thresholds and means in double precision. *)
From Coq Require Import ZArith Reals Lia Lra Psatz.
From Flocq Require Import Core IEEE754.BinarySingleNaN.
From Verif Require Export M_Float.
Local Open Scope R_scope.

Notation fexp64 := (SpecFloat.fexp 53 1024).
Notation rnd64 := (round radix2 fexp64 ZnearestE).
Notation R_of := (@B2R 53 1024).
Notation finite := (@is_finite 53 1024).

Lemma fexp64_FLT : fexp64 = FLT_exp (-1074) 53.
Proof. reflexivity. Qed.
Global Instance valid64 : Valid_exp fexp64.
Proof. rewrite fexp64_FLT. apply FLT_exp_valid. reflexivity. Qed.

Lemma format_int (m e : Z) : (Z.abs m < 2 ^ 53)%Z -> (-1074 <= e)%Z -> generic_format radix2 fexp64 (IZR m * bpow radix2 e).
Proof.
  intros Hm He. rewrite fexp64_FLT. apply generic_format_FLT. exists (Float radix2 m e); auto.
Qed.
Lemma format_IZR (m : Z) : (Z.abs m <= 2 ^ 53)%Z -> generic_format radix2 fexp64 (IZR m).
Proof.
  intros H. destruct (Z.eq_dec (Z.abs m) (2 ^ 53)) as [E|E].
  - replace (IZR m) with (IZR (m / 2) * bpow radix2 1).
    + apply format_int; [|lia]. assert (m = 2 ^ 53 \/ m = - 2 ^ 53)%Z as [->| ->] by lia; reflexivity.
    + replace (bpow radix2 1) with (IZR 2) by reflexivity. rewrite <- mult_IZR. f_equal.
      assert (m = 2 ^ 53 \/ m = - 2 ^ 53)%Z as [->| ->] by lia; reflexivity.
  - replace (IZR m) with (IZR m * bpow radix2 0) by (cbn; lra). apply format_int; lia.
Qed.

Lemma IZR_small (m : Z) : (Z.abs m <= 2 ^ 53)%Z -> Rabs (IZR m) < bpow radix2 1024.
Proof.
  intros H. apply Rle_lt_trans with (bpow radix2 53); [|now apply bpow_lt].
  rewrite <- abs_IZR. replace (bpow radix2 53) with (IZR (2 ^ 53)); [now apply IZR_le|]. reflexivity.
Qed.

Lemma f64_of_Z_exact (z : Z) : (Z.abs z <= 2 ^ 53)%Z -> R_of (f64_of_Z z) = IZR z /\ finite (f64_of_Z z) = true.
Proof.
  intros Hz. pose proof (binary_normalize_correct 53 1024 prec_ok emax_ok mode_NE z 0 false) as H. cbv zeta in H.
  fold (f64_of_Z z) in H.
  assert (E : F2R (Float radix2 z 0) = IZR z) by (unfold F2R; cbn; lra).
  rewrite E in H. cbn [round_mode] in H. rewrite round_generic in H; [|auto with typeclass_instances|now apply format_IZR].
  rewrite Rlt_bool_true in H by now apply IZR_small. destruct H as (H1 & H2 & _). auto.
Qed.
Lemma f64_of_nat_exact (n : nat) : (Z.of_nat n <= 2 ^ 53)%Z -> R_of (f64_of_nat n) = INR n /\ finite (f64_of_nat n) = true.
Proof. intros H. rewrite INR_IZR_INZ. apply f64_of_Z_exact. lia. Qed.

(** rounding stays between representable bounds *)
Lemma rnd_between x lo hi : generic_format radix2 fexp64 lo -> generic_format radix2 fexp64 hi -> lo <= x <= hi -> lo <= rnd64 x <= hi.
Proof.
  intros Hlo Hhi [H1 H2]. split.
  - apply round_ge_generic; auto with typeclass_instances.
  - apply round_le_generic; auto with typeclass_instances.
Qed.
Lemma bounded_small x lo hi : (Z.abs lo <= 2 ^ 53)%Z -> (Z.abs hi <= 2 ^ 53)%Z -> IZR lo <= x <= IZR hi -> Rabs x < bpow radix2 1024.
Proof.
  intros H1 H2 [H3 H4]. apply IZR_small in H1, H2. unfold Rabs in *.
  destruct (Rcase_abs x), (Rcase_abs (IZR lo)), (Rcase_abs (IZR hi)); lra.
Qed.

(** division of small integers *)
Lemma fdiv_int (a b lo hi : Z) (x y : f64) : R_of x = IZR a -> finite x = true -> R_of y = IZR b -> (b <> 0)%Z ->
  (Z.abs lo <= 2 ^ 53)%Z -> (Z.abs hi <= 2 ^ 53)%Z -> IZR lo <= IZR a / IZR b <= IZR hi ->
  R_of (fdiv x y) = rnd64 (IZR a / IZR b) /\ finite (fdiv x y) = true.
Proof.
  intros Hx Fx Hy Hb Hlo Hhi Hq. pose proof (Bdiv_correct 53 1024 prec_ok emax_ok mode_NE x y) as H.
  fold (fdiv x y) in H. rewrite Hx, Hy in H. specialize (H (IZR_neq _ _ Hb)). cbn [round_mode] in H.
  rewrite Rlt_bool_true in H.
  - destruct H as (H1 & H2 & _). split; auto. congruence.
  - apply (bounded_small _ lo hi); auto. apply rnd_between; auto using format_IZR.
Qed.
Lemma fsub_int (a b : Z) (x y : f64) : R_of x = IZR a -> finite x = true -> R_of y = IZR b -> finite y = true ->
  (Z.abs (a - b) <= 2 ^ 53)%Z -> R_of (fsub x y) = IZR (a - b) /\ finite (fsub x y) = true.
Proof.
  intros Hx Fx Hy Fy Hs. pose proof (Bminus_correct 53 1024 prec_ok emax_ok mode_NE x y Fx Fy) as H.
  fold (fsub x y) in H. rewrite Hx, Hy, <- minus_IZR in H. cbn [round_mode] in H.
  rewrite round_generic in H; [|auto with typeclass_instances|now apply format_IZR].
  rewrite Rlt_bool_true in H by now apply IZR_small. destruct H as (H1 & H2 & _). auto.
Qed.

Lemma round_FIX0 (rnd : R -> Z) {Hr : Valid_rnd rnd} x : round radix2 (FIX_exp 0) rnd x = IZR (rnd x).
Proof. unfold round, scaled_mantissa, cexp, FIX_exp, F2R. cbn. now rewrite !Rmult_1_r. Qed.

Lemma ffloor_spec x : R_of (ffloor x) = IZR (Zfloor (R_of x)) /\ finite (ffloor x) = finite x.
Proof.
  destruct (Bnearbyint_correct 53 1024 emax_ok mode_DN x) as (H1 & H2 & _). fold (ffloor x) in *. split; auto.
  rewrite H1. cbn [round_mode]. apply round_FIX0; auto with typeclass_instances.
Qed.
Lemma fceil_spec x : R_of (fceil x) = IZR (Zceil (R_of x)) /\ finite (fceil x) = finite x.
Proof.
  destruct (Bnearbyint_correct 53 1024 emax_ok mode_UP x) as (H1 & H2 & _). fold (fceil x) in *. split; auto.
  rewrite H1. cbn [round_mode]. apply round_FIX0; auto with typeclass_instances.
Qed.
Lemma usize_of_int (x : f64) (z : Z) : finite x = true -> R_of x = IZR z -> usize_of_f64 x = Z.to_nat (Z.min z usize_max).
Proof.
  intros Fx Hx. assert (Hz : Btrunc x = z).
  { apply eq_IZR. rewrite (Btrunc_correct 53 1024 emax_ok x), Hx. rewrite round_FIX0 by auto with typeclass_instances. now rewrite Ztrunc_IZR. }
  destruct x as [s|s| |s m e He]; try discriminate; unfold usize_of_f64; now rewrite Hz.
Qed.

(** [fl(m/3)] has the floor of [m/3] *)
Lemma floor_third (m : Z) : (0 <= m < 2 ^ 53)%Z -> Zfloor (rnd64 (IZR m / IZR 3)) = (m / 3)%Z.
Proof.
  intros Hm. set (k := (m / 3)%Z). assert (Hk : (0 <= k)%Z) by (apply Z.div_pos; lia).
  pose proof (Z.div_mod m 3 ltac:(lia)) as Hdm. pose proof (Z.mod_pos_bound m 3 ltac:(lia)) as Hmod. fold k in Hdm.
  set (r := (m mod 3)%Z) in *.
  assert (Ex : IZR m / IZR 3 = IZR k + IZR r / 3).
  { rewrite Hdm, plus_IZR, mult_IZR. field. }
  assert (Hr3 : 0 <= IZR r / 3 <= 2 / 3).
  { assert (0 <= IZR r) by (apply IZR_le; lia). assert (IZR r <= 2) by (apply IZR_le; lia). lra. }
  assert (Hlow : IZR k <= rnd64 (IZR m / IZR 3)).
  { apply round_ge_generic; auto with typeclass_instances; [apply format_IZR; lia|]. rewrite Ex. lra. }
  apply Zfloor_imp. split; [exact Hlow|].
  destruct (Z.eq_dec r 0) as [Hr0|Hr0].
  - rewrite Ex, Hr0. replace (IZR k + 0 / 3) with (IZR k) by lra.
    rewrite round_generic; [apply IZR_lt; lia|auto with typeclass_instances|apply format_IZR; lia].
  - assert (Hr1 : 1 / 3 <= IZR r / 3) by (assert (1 <= IZR r) by (apply IZR_le; lia); lra).
    set (g := IZR (2 * k + 1) * bpow radix2 (-1)).
    assert (Hg : g = IZR k + 1 / 2).
    { unfold g. rewrite plus_IZR, mult_IZR. cbn. lra. }
    assert (Fg : generic_format radix2 fexp64 g) by (apply format_int; lia).
    pose proof (round_N_pt radix2 fexp64 (fun z => negb (Z.even z)) (IZR m / IZR 3)) as [_ Hn].
    specialize (Hn g Fg). fold rnd64 in Hn. rewrite plus_IZR. destruct (Rlt_or_le (rnd64 (IZR m / IZR 3)) (IZR k + 1)) as [?|Hge]; auto.
    exfalso. rewrite Hg, Ex in Hn. rewrite Ex in Hge.
    unfold Rabs in Hn. repeat destruct Rcase_abs in Hn; lra.
Qed.

Theorem threshold_67p (n : nat) : (1 <= n)%nat -> (Z.of_nat n <= 2 ^ 53)%Z ->
  calculate_67p_threshold n = (n - (n - 1) / 3)%nat.
Proof.
  intros H1 Hn. unfold calculate_67p_threshold. f_equal.
  destruct (f64_of_Z_exact (Z.of_nat n) ltac:(lia)) as [A1 A2].
  destruct (f64_of_Z_exact 1 ltac:(lia)) as [B1 B2]. destruct (f64_of_Z_exact 3 ltac:(lia)) as [C1 C2].
  destruct (fsub_int (Z.of_nat n) 1 _ _ A1 A2 B1 B2 ltac:(lia)) as [D1 D2].
  set (m := (Z.of_nat n - 1)%Z) in *. assert (Hm : (0 <= m < 2 ^ 53)%Z) by lia.
  destruct (fdiv_int m 3 0 m _ (f64_of_Z 3) D1 D2 C1 ltac:(lia) ltac:(lia) ltac:(lia)) as [F1 F2].
  { assert (0 <= IZR m) by (apply IZR_le; lia). lra. }
  destruct (ffloor_spec (fdiv (fsub (f64_of_Z (Z.of_nat n)) (f64_of_Z 1)) (f64_of_Z 3))) as [G1 G2].
  rewrite F1, floor_third in G1 by auto. rewrite F2 in G2.
  unfold f64_of_nat. change (Z.of_nat 1) with 1%Z. change (Z.of_nat 3) with 3%Z.
  rewrite (usize_of_int _ _ G2 G1). unfold usize_max. rewrite Z.min_l.
  - unfold m. apply Nat2Z.inj. rewrite Z2Nat.id by (apply Z.div_pos; lia). rewrite Nat2Z.inj_div, Nat2Z.inj_sub by auto. reflexivity.
  - assert (m / 3 <= m)%Z by (apply Z.div_le_upper_bound; lia). lia.
Qed.

Lemma threshold_67p_least n : (1 <= n)%nat -> (Z.of_nat n <= 2 ^ 53)%Z ->
  let t := calculate_67p_threshold n in
  (1 <= t <= n)%nat /\ (2 * n + 1 <= 3 * t)%nat /\ (forall t', (2 * n + 1 <= 3 * t')%nat -> (t <= t')%nat).
Proof.
  intros H1 Hn t. subst t. rewrite threshold_67p by auto.
  pose proof (Nat.div_mod (n - 1) 3 ltac:(lia)). pose proof (Nat.mod_upper_bound (n - 1) 3 ltac:(lia)). split; [|split]; lia.
Qed.

(** ** relative thresholds *)
Lemma x_threshold_pos n x : (1 <= calculate_x_threshold n x)%nat.
Proof. unfold calculate_x_threshold. lia. Qed.

Lemma x_threshold_nan n x : finite x = false -> x <> @B754_infinity 53 1024 false -> (1 <= n)%nat -> (Z.of_nat n <= 2 ^ 53)%Z ->
  calculate_x_threshold n x = 1%nat.
Proof.
  intros Fx Hx H1 Hn. unfold calculate_x_threshold. destruct (f64_of_nat_exact n Hn) as [A1 A2].
  assert (Hpos : 0 < R_of (f64_of_nat n)) by (rewrite A1; apply lt_0_INR; lia).
  destruct x as [s|s| |s m e He]; try discriminate.
  - destruct s; [|congruence]. destruct (f64_of_nat n) as [s|s| |s m e He]; try discriminate; cbn in Hpos; try lra.
    destruct s; [|reflexivity]. exfalso. pose proof (F2R_lt_0 radix2 (Float radix2 (Z.neg m) e) eq_refl). cbn in *. lra.
  - destruct (f64_of_nat n); reflexivity.
Qed.

Lemma x_threshold_finite n (x : f64) : finite x = true -> (Z.of_nat n <= 2 ^ 53)%Z ->
  Rabs (rnd64 (R_of x * INR n)) < bpow radix2 1024 ->
  calculate_x_threshold n x = Nat.max 1 (Z.to_nat (Z.min (Zceil (rnd64 (R_of x * INR n))) usize_max)).
Proof.
  intros Fx Hn Hb. unfold calculate_x_threshold. destruct (f64_of_nat_exact n Hn) as [A1 A2].
  pose proof (Bmult_correct 53 1024 prec_ok emax_ok mode_NE x (f64_of_nat n)) as H. fold (fmul x (f64_of_nat n)) in H.
  rewrite A1 in H. cbn [round_mode] in H. rewrite Rlt_bool_true in H by exact Hb.
  destruct H as (H1 & H2 & _). rewrite Fx, A2 in H2. cbn in H2.
  destruct (fceil_spec (fmul x (f64_of_nat n))) as [G1 G2]. rewrite H1 in G1. rewrite H2 in G2.
  now rewrite (usize_of_int _ _ G2 G1).
Qed.
Lemma x_threshold_inf n : (1 <= n)%nat -> (Z.of_nat n <= 2 ^ 53)%Z ->
  calculate_x_threshold n (B754_infinity false) = Nat.max 1 (Z.to_nat usize_max).
Proof.
  intros H1 Hn. unfold calculate_x_threshold. destruct (f64_of_nat_exact n Hn) as [A1 A2].
  assert (Hpos : 0 < R_of (f64_of_nat n)) by (rewrite A1; apply lt_0_INR; lia).
  destruct (f64_of_nat n) as [s|s| |s m e He]; try discriminate; cbn in Hpos; try lra.
  destruct s; [|reflexivity]. exfalso. pose proof (F2R_lt_0 radix2 (Float radix2 (Z.neg m) e) eq_refl). cbn in *. lra.
Qed.

(** for a fraction [x] between 0 and 1 the threshold is between 1 and [n] *)
Lemma x_threshold_fraction n (x : f64) : finite x = true -> 0 <= R_of x <= 1 -> (1 <= n)%nat -> (Z.of_nat n <= 2 ^ 53)%Z ->
  (1 <= calculate_x_threshold n x <= n)%nat.
Proof.
  intros Fx Hx H1 Hn. assert (Hn0 : 1 <= INR n) by (replace 1 with (INR 1) by reflexivity; apply le_INR; auto).
  assert (Hprod : 0 <= R_of x * INR n <= INR n) by nra.
  assert (Hrnd : IZR 0 <= rnd64 (R_of x * INR n) <= IZR (Z.of_nat n)).
  { apply rnd_between; [apply format_IZR; lia|apply format_IZR; lia|]. now rewrite <- INR_IZR_INZ. }
  rewrite x_threshold_finite; auto.
  - assert (Zceil (rnd64 (R_of x * INR n)) <= Z.of_nat n)%Z by (apply Zceil_glb; apply Hrnd). unfold usize_max. lia.
  - apply Rle_lt_trans with (IZR (Z.of_nat n)).
    + rewrite Rabs_pos_eq; apply Hrnd.
    + apply Rle_lt_trans with (bpow radix2 53); [|now apply bpow_lt]. replace (bpow radix2 53) with (IZR (2 ^ 53)) by reflexivity. now apply IZR_le.
Qed.

(** ** mean *)
Lemma list_sum_bounds l lo hi : (forall x, In x l -> lo <= x <= hi)%nat -> (List.length l * lo <= list_sum l <= List.length l * hi)%nat.
Proof.
  induction l as [|a l IH]; cbn [List.length list_sum]; intros H; [cbn; lia|]. change (list_sum (a :: l)) with (a + list_sum l)%nat.
  pose proof (H a (or_introl eq_refl)). specialize (IH (fun x Hx => H x (or_intror Hx))). nia.
Qed.

Lemma mean_spec (r : vec_result) (lo hi : nat) : node_sets r <> [] -> (forall s, In s (node_sets r) -> lo <= len s <= hi)%nat ->
  (Z.of_nat (list_sum (map len (node_sets r))) <= 2 ^ 53)%Z -> (Z.of_nat (List.length (node_sets r)) <= 2 ^ 53)%Z ->
  (Z.of_nat hi <= 2 ^ 53)%Z ->
  finite (vr_mean r) = true /\
  R_of (vr_mean r) = rnd64 (INR (list_sum (map len (node_sets r))) / INR (List.length (node_sets r))) /\
  INR lo <= R_of (vr_mean r) <= INR hi.
Proof.
  intros Hne Hb Hs Hl Hh. unfold vr_mean. destruct (node_sets r) as [|s0 l0] eqn:E; [congruence|]. rewrite <- E in *. clear Hne.
  set (sum := list_sum (map len (node_sets r))) in *. set (n := List.length (node_sets r)) in *.
  assert (Hn : (1 <= n)%nat) by (unfold n; rewrite E; cbn; lia).
  assert (Hbounds : (n * lo <= sum <= n * hi)%nat).
  { unfold n, sum. rewrite <- (map_length len). apply list_sum_bounds. intros x Hx. apply in_map_iff in Hx as (s & <- & Hs'). auto. }
  assert (Hlo : (Z.of_nat lo <= 2 ^ 53)%Z).
  { assert (lo <= hi)%nat; [|lia]. specialize (Hb s0). rewrite E in Hb. specialize (Hb (or_introl eq_refl)). lia. }
  destruct (f64_of_nat_exact sum Hs) as [A1 A2]. destruct (f64_of_nat_exact n Hl) as [B1 B2].
  rewrite !INR_IZR_INZ in *.
  assert (Hpos : 0 < IZR (Z.of_nat n)) by (apply IZR_lt; lia).
  assert (Hq : IZR (Z.of_nat lo) <= IZR (Z.of_nat sum) / IZR (Z.of_nat n) <= IZR (Z.of_nat hi)).
  { split.
    - apply Rmult_le_reg_r with (IZR (Z.of_nat n)); auto. unfold Rdiv. rewrite Rmult_assoc, Rinv_l, Rmult_1_r by lra.
      rewrite <- mult_IZR. apply IZR_le. lia.
    - apply Rmult_le_reg_r with (IZR (Z.of_nat n)); auto. unfold Rdiv. rewrite Rmult_assoc, Rinv_l, Rmult_1_r by lra.
      rewrite <- mult_IZR. apply IZR_le. lia. }
  destruct (fdiv_int (Z.of_nat sum) (Z.of_nat n) (Z.of_nat lo) (Z.of_nat hi) _ (f64_of_nat n) A1 A2 B1 ltac:(lia) ltac:(lia) ltac:(lia) Hq) as [H1 H2].
  split; auto. split; auto. rewrite H1. apply rnd_between; auto; apply format_IZR; lia.
Qed.
Lemma x_threshold_not_finite n (x : f64) : finite x = false -> (1 <= n)%nat -> (Z.of_nat n <= 2 ^ 53)%Z ->
  calculate_x_threshold n x = (if match x with B754_infinity false => true | _ => false end then Nat.max 1 (Z.to_nat usize_max) else 1)%nat.
Proof.
  intros Fx H1 Hn. destruct x as [s|s| |s m e He]; try discriminate.
  - destruct s; [|now apply x_threshold_inf]. apply x_threshold_nan; auto. discriminate.
  - apply x_threshold_nan; auto. discriminate.
Qed.
