(** Numbers in JSON texts. *)
From Coq Require Import ZArith Ascii.
From Verif Require Export P_JsonText.
Local Open Scope char_scope.
Local Open Scope list_scope.

Lemma digit_of_value c d : digit_of c d -> is_digit c = true /\ digit_value c = N.of_nat d.
Proof. unfold digit_of. intro H. do 10 (destruct d as [|d]; [cbn in H; injection H as <-; split; reflexivity|]). destruct d; discriminate. Qed.
Lemma is_digit_of c : is_digit c = true -> exists d, digit_of c d.
Proof.
  intro H. unfold digit_of, decimal_digits. all_bytes c; try discriminate H;
    first [exists 0; reflexivity|exists 1; reflexivity|exists 2; reflexivity|exists 3; reflexivity|exists 4; reflexivity
          |exists 5; reflexivity|exists 6; reflexivity|exists 7; reflexivity|exists 8; reflexivity|exists 9; reflexivity].
Qed.
Definition all_digits (ds : text) : Prop := Forall (fun c => is_digit c = true) ds.
Lemma value_snoc t c : value_of_digits (t ++ [c]) = (10 * value_of_digits t + digit_value c)%N.
Proof. unfold value_of_digits. rewrite fold_left_app. reflexivity. Qed.
Lemma digits_of_spec t v : digits_of t v <-> t <> [] /\ all_digits t /\ v = value_of_digits t.
Proof.
  split.
  - induction 1 as [c d H|t v c d Ht (Hn & Ha & ->) Hc].
    + apply digit_of_value in H. destruct H as [H1 H2]. split; [discriminate|]. split; [constructor; auto; constructor|].
      unfold value_of_digits. cbn [fold_left]. rewrite H2. lia.
    + apply digit_of_value in Hc. destruct Hc as [H1 H2]. split; [destruct t; discriminate|].
      split; [apply Forall_app; split; auto; constructor; auto; constructor|]. rewrite value_snoc, H2. auto.
  - intros (Hn & Ha & ->). induction t as [|c t IH] using rev_ind; [congruence|]. apply Forall_app in Ha. destruct Ha as [Ha Hc].
    inversion Hc as [|? ? H1 _]; subst. destruct (is_digit_of c H1) as (d & Hd). destruct (digit_of_value c d Hd) as [_ Ev].
    destruct t as [|c' t].
    + cbn [app]. unfold value_of_digits. cbn [fold_left]. replace (10 * 0 + digit_value c)%N with (N.of_nat d) by lia. apply digits_one; auto.
    + rewrite value_snoc, Ev. apply digits_more; auto. apply IH; auto. discriminate.
Qed.

Definition no_digit (r : text) : Prop := match r with c :: _ => is_digit c = false | [] => True end.
Lemma span_complete ds r : all_digits ds -> no_digit r -> span_digits (ds ++ r) = (ds, r).
Proof.
  induction 1 as [|c ds Hc Hd IH]; intro Hr; cbn [app span_digits].
  - destruct r as [|c r]; auto. cbn in *. rewrite Hr. auto.
  - rewrite Hc, IH by auto. auto.
Qed.
Lemma span_sound s ds r : span_digits s = (ds, r) -> s = ds ++ r /\ all_digits ds /\ no_digit r.
Proof.
  revert ds. induction s as [|c s IH]; intros ds H; cbn in H.
  - injection H as <- <-. split; auto. split; [constructor|cbn; auto].
  - destruct (is_digit c) eqn:E.
    + destruct (span_digits s) as [ds' r']. injection H as <- <-. destruct (IH ds' eq_refl) as (-> & Ha & Hr). split; auto. split; [constructor; auto|auto].
    + injection H as <- <-. split; auto. split; [constructor|cbn; auto].
Qed.

(** what may follow a number *)
Definition follow (r : text) : Prop := match r with c :: _ => is_digit c = false /\ ~ In c ["."; "e"; "E"] | [] => True end.
Lemma follow_no_digit r : follow r -> no_digit r.
Proof. destruct r; cbn; tauto. Qed.

Lemma exponent_complete e r : exponent e -> no_digit r -> read_exponent (e ++ r) = Some (true, r).
Proof.
  intros (c & sign & ds & v & -> & Hc & Hs & Hd) Hr. apply digits_of_spec in Hd. destruct Hd as (Hn & Ha & _).
  cbn [app read_exponent]. assert (Ec : (Ascii.eqb c "e" || Ascii.eqb c "E")%bool = true) by (cbn in Hc; destruct Hc as [<-|[<-|[]]]; reflexivity). rewrite Ec.
  assert (E2 : match (sign ++ ds) ++ r with d :: s2 => if (Ascii.eqb d "+" || Ascii.eqb d "-")%bool then s2 else (sign ++ ds) ++ r | [] => (sign ++ ds) ++ r end = ds ++ r).
  { cbn in Hs. destruct Hs as [<-|[<-|[<-|[]]]]; cbn [app]; auto. destruct ds as [|d ds]; [congruence|]. cbn [app].
    inversion Ha as [|? ? Hd _]; subst. assert (X : (Ascii.eqb d "+" || Ascii.eqb d "-")%bool = false) by (all_bytes d; try discriminate Hd; reflexivity). rewrite X. auto. }
  rewrite E2, (span_complete ds r Ha Hr). destruct ds; [congruence|auto].
Qed.
Lemma no_exponent r : follow r -> read_exponent r = Some (false, r).
Proof.
  destruct r as [|c r]; auto. cbn [follow In]. intros [_ H]. cbn [read_exponent].
  rewrite (eqb_false c "e") by (intros ->; tauto). rewrite (eqb_false c "E") by (intros ->; tauto). auto.
Qed.
Lemma exponent_sound s b r : read_exponent s = Some (b, r) -> exists e, s = e ++ r /\ (b = false /\ e = [] \/ b = true /\ exponent e).
Proof.
  destruct s as [|c s1]; [intro H; injection H as <- <-; exists []; auto|]. cbn [read_exponent].
  destruct (Ascii.eqb c "e" || Ascii.eqb c "E")%bool eqn:Ec; [|intro H; injection H as <- <-; exists []; auto].
  assert (Hc : In c ["e"; "E"]) by (apply orb_true_iff in Ec; destruct Ec as [E|E]; apply eqb_true in E; subst; cbn; auto).
  assert (Hs : exists sign s2, In sign [[]; ["+"]; ["-"]] /\ s1 = sign ++ s2 /\
    match s1 with d :: s2 => if (Ascii.eqb d "+" || Ascii.eqb d "-")%bool then s2 else s1 | [] => s1 end = s2).
  { destruct s1 as [|d s2]; [exists [], []; cbn; auto|]. destruct (Ascii.eqb d "+" || Ascii.eqb d "-")%bool eqn:Ed.
    - apply orb_true_iff in Ed. destruct Ed as [E|E]; apply eqb_true in E; subst; [exists ["+"], s2|exists ["-"], s2]; cbn; auto 6.
    - exists [], (d :: s2). cbn; auto. }
  destruct Hs as (sign & s2 & Hs & E1 & E2). rewrite E2. destruct (span_digits s2) as [ds r'] eqn:Ed. apply span_sound in Ed. destruct Ed as (-> & Ha & _).
  destruct ds as [|d ds]; [discriminate|]. intro H. injection H as <- <-. subst s1. exists (c :: sign ++ d :: ds). split; [cbn; rewrite <- app_assoc; auto|].
  right. split; auto. exists c, sign, (d :: ds), (value_of_digits (d :: ds)). split; auto. split; auto. split; auto.
  apply digits_of_spec. split; [discriminate|auto].
Qed.

Lemma fraction_complete f r : fraction f -> no_digit r -> read_fraction (f ++ r) = Some (true, r).
Proof.
  intros (ds & v & -> & Hd) Hr. apply digits_of_spec in Hd. destruct Hd as (Hn & Ha & _). cbn [app read_fraction].
  change (Ascii.eqb "." ".") with true. cbv iota. rewrite (span_complete ds r Ha Hr). destruct ds; [congruence|auto].
Qed.
Lemma no_fraction r : match r with c :: _ => c <> "." | [] => True end -> read_fraction r = Some (false, r).
Proof. destruct r as [|c r]; auto. intro H. cbn [read_fraction]. rewrite (eqb_false c "." H). auto. Qed.
Lemma fraction_sound s b r : read_fraction s = Some (b, r) -> exists f, s = f ++ r /\ (b = false /\ f = [] \/ b = true /\ fraction f).
Proof.
  destruct s as [|c s1]; [intro H; injection H as <- <-; exists []; auto|]. cbn [read_fraction].
  destruct (Ascii.eqb c ".") eqn:Ec; [|intro H; injection H as <- <-; exists []; auto]. apply eqb_true in Ec. subst c.
  destruct (span_digits s1) as [ds r'] eqn:Ed. apply span_sound in Ed. destruct Ed as (-> & Ha & _). destruct ds as [|d ds]; [discriminate|].
  intro H. injection H as <- <-. exists ("." :: d :: ds). split; auto. right. split; auto. exists (d :: ds), (value_of_digits (d :: ds)). split; auto.
  apply digits_of_spec. split; [discriminate|auto].
Qed.

Lemma leading_zero_spec ds : leading_zero ds = false <-> ds = ["0"] \/ ~ exists r, ds = "0" :: r.
Proof.
  destruct ds as [|c [|d ds]]; cbn [leading_zero].
  - split; auto. intros _. right. intros (r & H). discriminate.
  - split; auto. intros _. destruct (Ascii.eqb c "0") eqn:E; [apply eqb_true in E; subst; auto|]. right. intros (r & H).
    injection H as ->. discriminate.
  - split.
    + intro H. right. intros (r & E). injection E as -> _. discriminate.
    + intros [H|H]; [discriminate|]. apply eqb_false. intros ->. apply H. eauto.
Qed.
Lemma integer_of_spec t v : integer_of t v <-> t <> [] /\ all_digits t /\ v = value_of_digits t /\ leading_zero t = false.
Proof. unfold integer_of. rewrite digits_of_spec, leading_zero_spec. tauto. Qed.

Lemma zero_value t : integer_of t 0 -> t = ["0"].
Proof.
  intro H. assert (H' := H). apply integer_of_spec in H. destruct H as (Hn & Ha & Hv & _). destruct H' as (_ & [E|E]); auto. exfalso.
  destruct t as [|c t]; [congruence|]. inversion Ha as [|? ? Hc Ht]; subst.
  assert (Hp : (0 < digit_value c)%N).
  { destruct (is_digit_of c Hc) as (d & Hd). destruct (digit_of_value c d Hd) as [_ Ev]. rewrite Ev. destruct d; [|lia].
    exfalso. apply E. exists t. cbn in Hd. injection Hd as <-. auto. }
  assert (Hm : forall l a, (0 < a)%N -> (0 < fold_left (fun v c => 10 * v + digit_value c) l a)%N) by (induction l as [|x l IH]; intros a Hx; cbn [fold_left]; auto; apply IH; lia).
  unfold value_of_digits in Hv. cbn [fold_left] in Hv. specialize (Hm t (10 * 0 + digit_value c)%N). lia.
Qed.

Lemma number_digits ds r : all_digits ds -> ds <> [] ->
  match ds ++ r with c :: s' => if Ascii.eqb c "-" then (true, s') else (false, ds ++ r) | [] => (false, ds ++ r) end = (false, ds ++ r).
Proof.
  destruct ds as [|d ds]; [congruence|]. cbn [app]. intros Ha _. inversion Ha as [|? ? Hd _]; subst.
  assert (X : Ascii.eqb d "-" = false) by (all_bytes d; try discriminate Hd; reflexivity). rewrite X. auto.
Qed.

(** the digits, fraction and exponent *)
Lemma tail_complete f e r : f = [] \/ fraction f -> e = [] \/ exponent e -> follow r ->
  no_digit (f ++ e ++ r) /\
  exists bf be, read_fraction (f ++ e ++ r) = Some (bf, e ++ r) /\ read_exponent (e ++ r) = Some (be, r) /\ (bf || be)%bool = match f ++ e with [] => false | _ => true end.
Proof.
  intros Hf He Hr.
  assert (E : exists be : bool, read_exponent (e ++ r) = Some (be, r) /\ be = match e with [] => false | _ => true end).
  { destruct He as [->|He]; [exists false; split; auto; apply no_exponent; auto|]. exists true. split; [apply exponent_complete; auto; apply follow_no_digit; auto|].
    destruct He as (c & sg & ds & v & -> & _). auto. }
  assert (Ne : no_digit (e ++ r) /\ match e ++ r with c :: _ => c <> "." | [] => True end).
  { destruct He as [->|(c & sg & ds & v & -> & Hc & _)]; cbn [app].
    - destruct r as [|c r]; cbn; auto. cbn in Hr. destruct Hr as [H1 H2]. split; [auto|]. intros ->. apply H2. left; auto.
    - cbn in Hc. destruct Hc as [<-|[<-|[]]]; cbn; split; auto; discriminate. }
  destruct Ne as [Ne Nd]. destruct E as (be & E & Eb).
  destruct Hf as [->|Hf].
  - split; [exact Ne|]. exists false, be. split; [apply no_fraction; exact Nd|]. split; auto.
  - split; [destruct Hf as (ds & v & -> & _); cbn; auto|]. exists true, be. split; [apply fraction_complete; auto|]. split; auto.
    destruct Hf as (ds & v & -> & _). auto.
Qed.
Lemma read_number_complete mz j t r : number mz j t -> follow r -> read_number mz (t ++ r) = Some (j, r).
Proof.
  intros H Hr. destruct H as [t v Ht|t v Ht Hv| |sg t v f e Hs Ht Hf He Hne].
  - apply integer_of_spec in Ht. destruct Ht as (Hn & Ha & -> & Hz). unfold read_number. rewrite (number_digits t r Ha Hn).
    rewrite (span_complete t r Ha (follow_no_digit r Hr)). destruct t as [|c t]; [congruence|]. cbv iota zeta. rewrite Hz.
    destruct (tail_complete [] [] r (or_introl eq_refl) (or_introl eq_refl) Hr) as (_ & bf & be & E1 & E2 & E3). cbn [app] in *. rewrite E1, E2, E3. auto.
  - apply integer_of_spec in Ht. destruct Ht as (Hn & Ha & -> & Hz). unfold read_number. cbn [app]. change (Ascii.eqb "-" "-") with true. cbv iota.
    rewrite (span_complete t r Ha (follow_no_digit r Hr)). destruct t as [|c t]; [congruence|]. cbv iota zeta. rewrite Hz.
    destruct (tail_complete [] [] r (or_introl eq_refl) (or_introl eq_refl) Hr) as (_ & bf & be & E1 & E2 & E3). cbn [app] in *. rewrite E1, E2, E3.
    rewrite (proj2 (N.eqb_neq _ _) Hv). auto.
  - unfold read_number. cbn [app]. change (Ascii.eqb "-" "-") with true. cbv iota.
    assert (H0 : all_digits ["0"]) by (constructor; [reflexivity|constructor]). assert (Es := span_complete ["0"] r H0 (follow_no_digit r Hr)).
    cbn [app] in Es. rewrite Es. cbv iota zeta. cbn [leading_zero].
    destruct (tail_complete [] [] r (or_introl eq_refl) (or_introl eq_refl) Hr) as (_ & bf & be & E1 & E2 & E3). cbn [app] in *. rewrite E1, E2, E3.
    change (value_of_digits ["0"]) with 0%N. destruct mz; auto.
  - apply integer_of_spec in Ht. destruct Ht as (Hn & Ha & -> & Hz).
    destruct (tail_complete f e r Hf He Hr) as (Nd & bf & be & E1 & E2 & E3).
    assert (Eb : (bf || be)%bool = true) by (rewrite E3; destruct (f ++ e); [congruence|auto]).
    assert (Es : exists neg, match (sg ++ t ++ f ++ e) ++ r with c :: s' => if Ascii.eqb c "-" then (true, s') else (false, (sg ++ t ++ f ++ e) ++ r) | [] => (false, (sg ++ t ++ f ++ e) ++ r) end = (neg, t ++ f ++ e ++ r)).
    { cbn in Hs. destruct Hs as [<-|[<-|[]]]; cbn [app].
      - exists false. rewrite <- !app_assoc. apply number_digits; auto.
      - exists true. rewrite <- !app_assoc. auto. }
    destruct Es as (neg & Es). unfold read_number. rewrite Es, (span_complete t (f ++ e ++ r) Ha Nd). destruct t as [|c t]; [congruence|]. cbv iota zeta.
    rewrite Hz, E1, E2, Eb. auto.
Qed.
Lemma read_number_sound mz s j r : read_number mz s = Some (j, r) -> exists t, number mz j t /\ s = t ++ r.
Proof.
  unfold read_number.
  assert (Hs : exists sg s1 neg, In sg [[]; ["-"]] /\ s = sg ++ s1 /\ (neg = true /\ sg = ["-"] \/ neg = false /\ sg = []) /\
    match s with c :: s' => if Ascii.eqb c "-" then (true, s') else (false, s) | [] => (false, s) end = (neg, s1)).
  { destruct s as [|c s']; [exists [], [], false; cbn; auto 6|]. destruct (Ascii.eqb c "-") eqn:E.
    - apply eqb_true in E. subst c. exists ["-"], s', true. cbn; auto 6.
    - exists [], (c :: s'), false. cbn; auto 6. }
  destruct Hs as (sg & s1 & neg & Hs & -> & Hneg & ->). destruct (span_digits s1) as [ds s2] eqn:Ed. apply span_sound in Ed. destruct Ed as (-> & Ha & _).
  assert (Hd : match ds with [] => True | _ => ds <> [] end) by (destruct ds; [auto|discriminate]).
  destruct ds as [|d ds]; [discriminate|]. destruct (leading_zero (d :: ds)) eqn:Ez; [discriminate|].
  destruct (read_fraction s2) as [[bf s3]|] eqn:Ef; [|discriminate]. destruct (read_exponent s3) as [[be s4]|] eqn:Ee; [|discriminate].
  intro H. apply some_eq in H. injection H as <- <-. apply fraction_sound in Ef. destruct Ef as (f & -> & Hf). apply exponent_sound in Ee. destruct Ee as (e & -> & He).
  assert (Hi : integer_of (d :: ds) (value_of_digits (d :: ds))) by (apply integer_of_spec; auto).
  exists (sg ++ (d :: ds) ++ f ++ e). split; [|rewrite <- !app_assoc; auto].
  destruct (bf || be)%bool eqn:Eb.
  - apply number_float with (v := value_of_digits (d :: ds)); auto.
    + tauto.
    + tauto.
    + destruct Hf as [[-> _]|[_ Hf]]; [|destruct Hf as (x & y & -> & _); discriminate]. destruct He as [[-> _]|[_ He]]; [discriminate|].
      destruct He as (x & y & z & w & -> & _). destruct f; discriminate.
  - apply orb_false_iff in Eb. destruct Eb as [-> ->]. destruct Hf as [[_ ->]|[X _]]; [|discriminate]. destruct He as [[_ ->]|[X _]]; [|discriminate].
    rewrite !app_nil_r. destruct Hneg as [[-> ->]|[-> ->]].
    + destruct (N.eqb_spec (value_of_digits (d :: ds)) 0) as [E0|E0].
      * rewrite E0 in *. apply zero_value in Hi. rewrite Hi. cbn [app andb]. destruct mz; cbn [negb]; [exact (number_minus_zero true)|exact (number_minus_zero false)].
      * cbn [andb]. apply number_negative; auto.
    + cbn [app]. apply number_natural; auto.
Qed.

Lemma number_head mz j t : number mz j t -> exists c t', t = c :: t' /\ (c = "-" \/ is_digit c = true).
Proof.
  assert (G : forall t v, integer_of t v -> exists c t', t = c :: t' /\ is_digit c = true).
  { intros u v H. apply integer_of_spec in H. destruct H as (Hn & Ha & _). destruct u as [|c u]; [congruence|]. inversion Ha; subst. eauto. }
  intros [u v H|u v H _| |sg u v f e Hs H _ _ _].
  - destruct (G u v H) as (c & u' & -> & Hc). eauto.
  - eauto.
  - eauto.
  - destruct (G u v H) as (c & u' & -> & Hc). cbn in Hs. destruct Hs as [<-|[<-|[]]]; cbn; eauto.
Qed.
