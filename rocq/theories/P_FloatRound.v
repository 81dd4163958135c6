(** Proofs about the texts of floating point numbers: the layout is read back. *)
From Coq Require Import ZArith Reals Ascii String Lia Lra.
From Flocq Require Import Core IEEE754.BinarySingleNaN.
From Verif Require Import Spec_FloatText P_FloatText P_FloatParse P_FloatShort P_JsonNumber P_JsonPrint Spec_Csv P_CliText M_CliText.
Local Open Scope string_scope.
Local Open Scope list_scope.
Local Open Scope nat_scope.

Lemma value_app a b : value_of_digits (a ++ b) = (value_of_digits a * 10 ^ N.of_nat (List.length b) + value_of_digits b)%N.
Proof.
  induction b as [|c b IH] using rev_ind; [rewrite app_nil_r; cbn; lia|]. rewrite app_assoc, !value_snoc, IH, app_length. cbn [List.length].
  replace (N.of_nat (List.length b + 1)) with (N.succ (N.of_nat (List.length b))) by lia. rewrite N.pow_succ_r'. ring.
Qed.
Lemma zeros_value n : value_of_digits (repeat "0"%char n) = 0%N.
Proof.
  induction n as [|n IH]; [reflexivity|]. exact IH.
Qed.
Lemma zeros_digits n : all_digits (repeat "0"%char n).
Proof. induction n; constructor; auto. Qed.
Lemma digits_facts d : (0 < d)%N -> exists c t, print_N d = c :: t /\ all_digits (c :: t) /\ value_of_digits (c :: t) = d /\ c <> "0"%char.
Proof.
  intro Hd. assert (H := print_N_spec d). destruct H as [H1 H2]. apply digits_of_spec in H1. destruct H1 as (Hn & Ha & Hv).
  destruct (print_N d) as [|c t]; [congruence|]. exists c, t. split; auto. split; auto. split; auto. intros ->. destruct H2 as [H2|H2]; [|apply H2; eauto].
  injection H2 as ->. cbn in Hv. lia.
Qed.
Lemma all_app a b : all_digits (a ++ b) <-> all_digits a /\ all_digits b.
Proof. apply Forall_app. Qed.
Lemma print_Z_text e : exponent_text (bytes "e" ++ print_Z e) e.
Proof.
  unfold print_Z. destruct (Z.ltb_spec e 0) as [H|H].
  - assert (X := some_exponent "e"%char (bytes "-") true (print_N (Z.abs_N e)) (Z.abs_N e)). cbv beta iota in X. replace (- Z.of_N (Z.abs_N e))%Z with e in X by lia. apply X.
    + constructor; [auto|constructor].
    + right. auto.
    + apply print_N_spec.
  - assert (X := some_exponent "e"%char [] false (print_N (Z.to_N e)) (Z.to_N e)). cbv beta iota in X. replace (Z.of_N (Z.to_N e))%Z with e in X by lia. apply X.
    + constructor; [auto|constructor].
    + left. auto.
    + apply print_N_spec.
Qed.
(** how a text is laid out *)
Lemma layout d k : (0 < d)%N -> exists whole fraction et e,
  decimal_text d k = whole ++ (match fraction with [] => [] | _ => bytes "." ++ fraction end) ++ et /\ whole <> [] /\ all_digits (whole ++ fraction) /\
  leading_zero whole = false /\ (et = [] /\ e = 0%Z \/ et = bytes "e" ++ print_Z e) /\ fraction ++ et <> [] /\
  decimal_value (value_of_digits (whole ++ fraction)) (e - Z.of_nat (List.length fraction)) = decimal_value d k.
Proof.
  intro Hd. destruct (digits_facts d Hd) as (c & t & Ep & Ha & Hv & Hc). unfold decimal_text. rewrite Ep. cbv zeta.
  set (ds := c :: t) in *. set (len := Z.of_nat (List.length ds)).
  assert (Hl : (1 <= len)%Z) by (unfold len, ds; cbn [List.length]; lia).
  assert (Lead : forall n, 1 <= n -> leading_zero (firstn n ds) = false /\ firstn n ds <> []).
  { intros n Hn. destruct n as [|n]; [lia|]. unfold ds. cbn [firstn]. split; [|discriminate].
    destruct (leading_zero (c :: firstn n t)) eqn:El; auto. exfalso. assert (Y := proj2 (leading_zero_spec (c :: firstn n t))).
    assert (Z0 : ~ exists r, c :: firstn n t = "0"%char :: r) by (intros (r & Hr); injection Hr as Hr _; auto). rewrite Y in El by auto. discriminate. }
  destruct ((0 <=? k)%Z && (len + k <=? 16)%Z) eqn:E1.
  { apply andb_true_iff in E1. destruct E1 as [E1 _]. apply Z.leb_le in E1. exists (ds ++ repeat "0"%char (Z.to_nat k)), (bytes "0"), [], 0%Z.
    split; [rewrite <- !app_assoc; reflexivity|]. split; [discriminate|]. split; [apply all_app; split; [apply all_app; split; auto; apply zeros_digits|repeat constructor]|].
    split.
    { destruct (leading_zero (ds ++ repeat "0"%char (Z.to_nat k))) eqn:El; auto. exfalso. rewrite (proj2 (leading_zero_spec (ds ++ repeat "0"%char (Z.to_nat k)))) in El; [discriminate|].
      right. intros (r & Hr). injection Hr as Hr _. auto. }
    split; [auto|]. split; [discriminate|].
    rewrite !value_app, Hv, zeros_value, repeat_length. change (List.length (bytes "0")) with 1. change (value_of_digits (bytes "0")) with 0%N.
    unfold decimal_value. rewrite !N.add_0_r, !N2Z.inj_mul, !N2Z.inj_pow, !nat_N_Z, !mult_IZR. change (Z.of_N 10) with 10%Z. rewrite Z2Nat.id by auto. rewrite (power10_value k) by lia.
    change (IZR (10 ^ Z.of_nat 1)) with 10%R. change (0 - Z.of_nat 1)%Z with (-1)%Z.
    change (powerRZ 10 (-1)) with (/ (10 * 1))%R. field. }
  assert (K : (0 < len + k <= 16)%Z -> (k < 0)%Z).
  { intro H. apply andb_false_iff in E1. destruct E1 as [E1|E1]; apply Z.leb_gt in E1; lia. }
  destruct ((0 <? len + k)%Z && (len + k <=? 16)%Z) eqn:E2.
  { apply andb_true_iff in E2. destruct E2 as [E2 E3]. apply Z.ltb_lt in E2. apply Z.leb_le in E3. specialize (K (conj E2 E3)). set (p := Z.to_nat (len + k)).
    destruct (Lead p ltac:(unfold p; lia)) as [L1 L2]. exists (firstn p ds), (skipn p ds), [], 0%Z.
    assert (Hs : List.length (skipn p ds) = Z.to_nat (- k)) by (rewrite skipn_length; unfold p, len; lia).
    assert (Hn : skipn p ds <> []) by (intro Y; rewrite Y in Hs; cbn in Hs; lia).
    split; [rewrite app_nil_r; destruct (skipn p ds); [congruence|reflexivity]|]. split; auto. rewrite firstn_skipn. split; auto. split; auto. split; auto. split; [rewrite app_nil_r; auto|].
    rewrite Hv, Hs. f_equal. lia. }
  destruct ((-5 <? len + k)%Z && (len + k <=? 0)%Z) eqn:E3.
  { apply andb_true_iff in E3. destruct E3 as [E3 E4]. apply Z.leb_le in E4. exists (bytes "0"), (repeat "0"%char (Z.to_nat (- (len + k))) ++ ds), [], 0%Z.
    split.
    { rewrite app_nil_r. destruct (repeat "0"%char (Z.to_nat (- (len + k))) ++ ds) eqn:Er; [|reflexivity]. apply app_eq_nil in Er. destruct Er as [_ Er]. discriminate. }
    split; [discriminate|]. split; [apply all_app; split; [repeat constructor|apply all_app; split; auto; apply zeros_digits]|]. split; [reflexivity|]. split; auto.
    split; [rewrite app_nil_r; intro Er; apply app_eq_nil in Er; destruct Er as [_ Er]; discriminate|].
    rewrite !value_app, Hv, zeros_value, app_length, repeat_length. change (value_of_digits (bytes "0")) with 0%N. rewrite !N.mul_0_l, !N.add_0_l. f_equal. fold ds. unfold len in *. lia. }
  destruct (len =? 1)%Z eqn:E4.
  { apply Z.eqb_eq in E4. exists ds, [], (bytes "e" ++ print_Z (len + k - 1)), (len + k - 1)%Z. split; [reflexivity|]. split; [discriminate|]. rewrite app_nil_r. split; auto.
    destruct (Lead (List.length ds) ltac:(cbn; lia)) as [L1 _]. rewrite firstn_all in L1. split; auto. split; auto. split; [discriminate|]. rewrite Hv. f_equal. cbn [List.length]. lia. }
  apply Z.eqb_neq in E4. destruct (Lead 1 ltac:(lia)) as [L1 L2]. exists (firstn 1 ds), (skipn 1 ds), (bytes "e" ++ print_Z (len + k - 1)), (len + k - 1)%Z.
  assert (Hs : List.length (skipn 1 ds) = (List.length ds - 1)) by (rewrite skipn_length; lia).
  split; [destruct (skipn 1 ds) eqn:Es; [change (0 = List.length ds - 1) in Hs; unfold len in *; lia|rewrite <- !app_assoc; reflexivity]|]. split; auto. rewrite firstn_skipn. split; auto. split; auto. split; auto.
  split; [intro Y; apply app_eq_nil in Y; destruct Y as [_ Y]; discriminate|]. rewrite Hv, Hs. f_equal. unfold len in *. lia.
Qed.
Lemma layout_literal d k : (0 < d)%N -> exists d' k', literal (decimal_text d k) d' k' /\ decimal_value d' k' = decimal_value d k.
Proof.
  intro Hd. destruct (layout d k Hd) as (whole & fraction & et & e & -> & Hw & Ha & _ & He & Hn & Hv). do 2 eexists. split; [|exact Hv]. apply all_app in Ha.
  exists whole, (match fraction with [] => [] | _ => bytes "." ++ fraction end), fraction, et, e. split; auto. split; [apply any_all, Ha|]. split; [apply any_all, Ha|].
  split; [destruct fraction; auto|]. split.
  - apply digits_of_spec. split; [intro Y; apply app_eq_nil in Y; tauto|]. split; auto. apply all_app. auto.
  - split; auto. destruct He as [(-> & ->)| ->]; [constructor|apply print_Z_text].
Qed.
Lemma layout_number mz (s : bool) d k : (0 < d)%N -> number mz JFloat (bytes (if s then "-" else "") ++ decimal_text d k).
Proof.
  intro Hd. destruct (layout d k Hd) as (whole & fraction & et & e & -> & Hw & Ha & Hl & He & Hn & _). apply all_app in Ha. destruct Ha as [A1 A2].
  apply (number_float mz (bytes (if s then "-" else "")) whole (value_of_digits whole) (match fraction with [] => [] | _ => bytes "." ++ fraction end) et).
  - destruct s; cbn; auto.
  - apply integer_of_spec. auto.
  - destruct fraction as [|c fr]; auto. right. exists (c :: fr), (value_of_digits (c :: fr)). split; [reflexivity|]. apply digits_of_spec. split; [discriminate|auto].
  - destruct He as [(-> & _)| ->]; auto. right. apply print_Z_exponent.
  - destruct fraction; auto. discriminate.
Qed.
Lemma ryu_means x : means_double (ryu_text x) x.
Proof.
  destruct x as [s|s| |s m e Hb]; cbn [ryu_text finite_text].
  - exists (bytes (if s then "-" else "")), s, (bytes "0.0"). split; [destruct s; [right|left]; auto|]. split; [destruct s; reflexivity|]. right. right. exists 0%N, (-1)%Z. split.
    + exists (bytes "0"), (bytes ".0"), (bytes "0"), [], 0%Z. split; [reflexivity|]. split; [apply any_all; repeat constructor|]. split; [apply any_all; repeat constructor|].
      split; [right; reflexivity|]. split; [apply digits_of_spec; split; [discriminate|split; [repeat constructor|reflexivity]]|]. split; [constructor|reflexivity].
    + unfold decimal_value. change (Z.of_N 0) with 0%Z. rewrite Rmult_0_l. left. unfold nearest_double. rewrite round_0 by auto with typeclass_instances.
      split; [apply bpow_gt_0|]. split; [reflexivity|]. split; [destruct s; cbn; ring|reflexivity].
  - exists (bytes (if s then "-" else "")), s, (bytes "inf"). split; [destruct s; [right|left]; auto|]. split; [destruct s; reflexivity|]. left. split; auto. left. repeat constructor.
  - exists [], false, (bytes "NaN"). split; [left; auto|]. split; [reflexivity|]. right. left. split; auto. constructor; [right; reflexivity|]. constructor; [left; reflexivity|].
    constructor; [right; reflexivity|constructor].
  - destruct (shortest_spec s m e Hb) as (d & k & -> & Hd & Hr & _). destruct (layout_literal d k Hd) as (d' & k' & Hl & Hv).
    exists (bytes (if s then "-" else "")), s, (decimal_text d k). split; [destruct s; [right|left]; auto|]. split; [reflexivity|]. right. right. exists d', k'. split; auto. rewrite Hv. exact Hr.
Qed.
Lemma ryu_not_empty x : ryu_text x <> [].
Proof.
  intro H. assert (M := ryu_means x). rewrite H in M. apply parse_spec in M. discriminate.
Qed.
Lemma ryu_readable : readable_format ryu_text parse_f64.
Proof. intro x. split; [apply ryu_not_empty|apply parse_spec, ryu_means]. Qed.
Lemma json_float_format mz : float_format mz json_float_text.
Proof.
  split; intros x H; unfold json_float_text; rewrite H; auto. destruct x as [s|s| |s m e Hb]; try discriminate H; cbn [finite_text].
  - replace (bytes (if s then "-0.0" else "0.0")) with (bytes (if s then "-" else "") ++ bytes "0" ++ bytes ".0" ++ []) by (destruct s; reflexivity).
    apply (number_float mz _ (bytes "0") 0%N (bytes ".0") []); [destruct s; cbn; auto| | |auto|discriminate].
    + apply integer_of_spec. split; [discriminate|]. split; [repeat constructor|split; reflexivity].
    + right. exists (bytes "0"), 0%N. split; [reflexivity|]. apply digits_of_spec. split; [discriminate|]. split; [repeat constructor|reflexivity].
  - destruct (shortest_spec s m e Hb) as (d & k & -> & Hd & _). apply layout_number. auto.
Qed.
Lemma json_float_ryu x : @is_finite 53 1024 x = true -> json_float_text x = ryu_text x.
Proof. intro H. unfold json_float_text. rewrite H. destruct x; try discriminate H; reflexivity. Qed.
Lemma json_float_faithful : faithful_format json_float_text.
Proof.
  intros x y Hx Hy H. rewrite !json_float_ryu in H by auto. assert (P := proj2 (ryu_readable x)). rewrite H in P. rewrite (proj2 (ryu_readable y)) in P. injection P as P. auto.
Qed.
Lemma cons_eq' {A} (a b : A) l m : a :: l = b :: m -> a = b /\ l = m.
Proof. intro H. split; congruence. Qed.
Lemma magnitude s m e (Hb : SpecFloat.bounded 53 1024 m e = true) : magnitude_of m e = Rabs (@B2R 53 1024 (B754_finite s m e Hb)).
Proof.
  assert (P := X_pos m e). assert (V := X_value s m e Hb). cbv zeta in V. rewrite V. destruct s; [rewrite Rabs_Ropp|]; symmetry; apply Rabs_pos_eq; lra.
Qed.
Lemma ryu_shortest (x : f64) d k t (negative : bool) : @is_finite_strict 53 1024 x = true ->
  ryu_text x = bytes (if negative then "-" else "") ++ t -> literal t d k ->
  rounds negative (decimal_value d k) x /\
  forall n d' k', rounds negative (decimal_value d' k') x -> significant n d' k' ->
    significant n d k /\ ((forall j, significant j d k -> n <= j) ->
      (Rabs (decimal_value d k - Rabs (@B2R 53 1024 x)) <= Rabs (decimal_value d' k' - Rabs (@B2R 53 1024 x)))%R).
Proof.
  intros Hs Et Hl. destruct x as [s|s| |s m e Hb]; try discriminate Hs. cbn [ryu_text finite_text] in Et.
  destruct (shortest_spec s m e Hb) as (d0 & k0 & E0 & Hd & Hr & Hmin). rewrite E0 in Et. destruct (layout_literal d0 k0 Hd) as (d1 & k1 & Hl1 & Hv1).
  assert (Es : negative = s /\ t = decimal_text d0 k0).
  { assert (H1 := literal_head _ _ _ Hl). assert (H2 := literal_head _ _ _ Hl1). destruct H1 as (c & u & -> & Hc), H2 as (c' & u' & Et' & Hc'). rewrite Et' in Et |- *.
    destruct negative, s; cbn [bytes list_ascii_of_string app] in Et; apply cons_eq' in Et; destruct Et as [E1 E2].
    - split; auto.
    - exfalso. rewrite E1 in Hc'. destruct Hc' as [Hc'|Hc']; discriminate Hc'.
    - exfalso. rewrite <- E1 in Hc. destruct Hc as [Hc|Hc]; discriminate Hc.
    - split; auto. congruence. }
  destruct Es as [-> ->]. assert (Ed : decimal_value d k = decimal_value d0 k0).
  { apply decimal_spec in Hl, Hl1. rewrite Hl in Hl1. apply some_eq in Hl1. apply pair_equal_spec in Hl1. destruct Hl1 as [-> ->]. exact Hv1. }
  rewrite Ed. split; auto. intros n d' k' Hr' Hsig. destruct (Hmin n d' k' Hr' Hsig) as [M1 M2].
  assert (Sig : forall j, significant j d k <-> significant j d0 k0) by (intro j; split; apply significant_value; auto).
  split; [apply Sig; auto|]. intro Hj. rewrite <- (magnitude s m e Hb). apply M2. intros j H. apply Hj, Sig. auto.
Qed.
(** example *)
Lemma decimal_half x : parse_f64 (bytes "-2.5") = Some x ->
  @is_finite_strict 53 1024 x = true /\ ryu_text x = bytes "-" ++ bytes "2.5" /\ literal (bytes "2.5") 25 (-1).
Proof.
  intro H. assert (A : match parse_f64 (bytes "-2.5") with Some y => @is_finite_strict 53 1024 y = true /\ ryu_text y = bytes "-" ++ bytes "2.5" | None => False end) by (vm_compute; auto).
  rewrite H in A. split; [apply A|]. split; [apply A|]. apply decimal_spec. vm_compute. reflexivity.
Qed.
