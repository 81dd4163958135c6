(** Proofs about texts of floating point numbers: reading. *)
From Coq Require Import ZArith Reals Ascii Lra Lia.
From Flocq Require Import Core IEEE754.BinarySingleNaN.
From Verif Require Export P_FloatText.
Local Open Scope string_scope.
Local Open Scope list_scope.

Definition small_letter (c : ascii) : Prop := (97 <= N_of_ascii c <= 122)%N.
Lemma N_of_ascii_inj a b : N_of_ascii a = N_of_ascii b -> a = b.
Proof. intro H. rewrite <- (ascii_N_embedding a), <- (ascii_N_embedding b), H. auto. Qed.
Lemma lower_spec c c' : small_letter c -> (lower c' = c <-> c' = c \/ (N_of_ascii c' + 32)%N = N_of_ascii c).
Proof.
  unfold small_letter, lower, byte_range. intro H. change (N_of_ascii "A") with 65%N. change (N_of_ascii "Z") with 90%N.
  destruct ((65 <=? N_of_ascii c')%N && (N_of_ascii c' <=? 90)%N) eqn:E.
  - apply andb_true_iff in E. destruct E as [E1 E2]. apply N.leb_le in E1, E2. split.
    + intro X. right. rewrite <- X, N_ascii_embedding; lia.
    + intros [-> | X]; [lia|]. rewrite X. apply ascii_N_embedding.
  - split; auto. intros [X|X]; auto. exfalso. apply andb_false_iff in E. destruct E as [E|E]; apply N.leb_gt in E; lia.
Qed.
Lemma spelled_spec word t : Forall small_letter (bytes word) -> (String.eqb (string_of_list_ascii (map lower t)) word = true <-> spelled word t).
Proof.
  intro H. rewrite String.eqb_eq. unfold spelled.
  transitivity (map lower t = bytes word).
  { split; intro X; [rewrite <- X; symmetry; apply list_ascii_of_string_of_list_ascii|rewrite X; apply string_of_list_ascii_of_string]. }
  revert t. induction H as [|c w Hc Hw IH]; intros [|c' t]; cbn [map].
  - split; auto.
  - split; [discriminate|]. intro X. inversion X.
  - split; [discriminate|]. intro X. inversion X.
  - split.
    + intro X. injection X as X1 X2. constructor; [apply lower_spec; auto|apply IH; auto].
    + intro X. inversion X as [|? ? ? ? X1 X2]; subst. apply lower_spec in X1; auto. apply IH in X2. congruence.
Qed.
Lemma letters_ok l : forallb (fun c => (97 <=? N_of_ascii c)%N && (N_of_ascii c <=? 122)%N) l = true -> Forall small_letter l.
Proof.
  intro H. apply Forall_forall. intros c Hc. rewrite forallb_forall in H. apply H in Hc. apply andb_true_iff in Hc. destruct Hc as [H1 H2].
  apply N.leb_le in H1, H2. split; auto.
Qed.

Lemma e_lower c : Ascii.eqb (lower c) "e" = true <-> spelled "e" [c].
Proof.
  rewrite Ascii.eqb_eq, lower_spec by (unfold small_letter; cbn; lia). unfold spelled. split.
  - intro H. constructor; auto.
  - intro H. inversion H; auto.
Qed.
Lemma digit_first ds n c r : digits_of ds n -> ds = c :: r -> is_digit c = true.
Proof. intros H ->. apply digits_of_spec in H. destruct H as (_ & H & _). inversion H; auto. Qed.
Lemma take_sign_sound s negative t : take_sign s = (negative, t) -> exists sign, sign_text sign negative /\ s = sign ++ t.
Proof.
  destruct s as [|c s]; cbn [take_sign].
  - intro H. injection H as <- <-. exists []. split; [left; auto|auto].
  - destruct (Ascii.eqb c "-") eqn:E1.
    + apply Ascii.eqb_eq in E1. subst c. intro H. injection H as <- <-. exists (bytes "-"). split; [right; auto|reflexivity].
    + destruct (Ascii.eqb c "+") eqn:E2.
      * apply Ascii.eqb_eq in E2. subst c. intro H. injection H as <- <-. exists (bytes "+"). split; [left; auto|reflexivity].
      * intro H. injection H as <- <-. exists []. split; [left; auto|auto].
Qed.
Definition unsigned (t : list ascii) : Prop := forall t', t <> "-"%char :: t' /\ t <> "+"%char :: t'.
Lemma take_sign_complete sign negative t : sign_text sign negative -> unsigned t -> take_sign (sign ++ t) = (negative, t).
Proof.
  intros [([-> | ->] & ->)|(-> & ->)] H; [|reflexivity|reflexivity]. cbn [app]. destruct t as [|c t]; auto. cbn [take_sign].
  destruct (Ascii.eqb c "-") eqn:E1; [apply Ascii.eqb_eq in E1; subst c; destruct (H t) as [X _]; congruence|].
  destruct (Ascii.eqb c "+") eqn:E2; [apply Ascii.eqb_eq in E2; subst c; destruct (H t) as [_ X]; congruence|]. auto.
Qed.
Lemma digit_unsigned c t : is_digit c = true -> unsigned (c :: t).
Proof. intros H t'. split; intro E; injection E as -> _; discriminate. Qed.
Lemma exponent_spec s e : parse_exponent s = Some e <-> exponent_text s e.
Proof.
  split.
  - destruct s as [|c s]; cbn [parse_exponent].
    + intro H. injection H as <-. constructor.
    + destruct (Ascii.eqb (lower c) "e") eqn:E; [|discriminate]. apply e_lower in E. destruct (take_sign s) as [negative t] eqn:Et.
      destruct (span_digits t) as [ds r] eqn:Es. apply take_sign_sound in Et. destruct Et as (sign & Hs & ->). apply span_sound in Es. destruct Es as (-> & Ha & _).
      destruct ds as [|d ds]; [discriminate|]. destruct r; [|discriminate]. intro H. apply some_eq in H. subst e. rewrite app_nil_r.
      apply (some_exponent c sign negative (d :: ds) (value_of_digits (d :: ds))); auto. apply digits_of_spec. split; [discriminate|auto].
  - intro H. destruct H as [|c sign negative ds n H1 H2 H3]; auto. cbn [parse_exponent]. apply e_lower in H1. rewrite H1.
    apply digits_of_spec in H3. destruct H3 as (Hn & Ha & ->). destruct ds as [|d ds]; [congruence|].
    rewrite (take_sign_complete sign negative (d :: ds) H2) by (apply digit_unsigned; inversion Ha; auto).
    assert (X := span_complete (d :: ds) [] Ha I). rewrite app_nil_r in X. rewrite X. reflexivity.
Qed.
Lemma any_all t : any_digits t <-> all_digits t.
Proof.
  unfold any_digits, all_digits. rewrite Forall_forall. split; intros H c Hc; specialize (H c Hc).
  - apply In_nth_error in H. destruct H as (d & Hd). apply (digit_of_value c d). exact Hd.
  - destruct (is_digit_of c H) as (d & Hd). eapply nth_error_In. exact Hd.
Qed.
Lemma exponent_no_digit et e : exponent_text et e -> no_digit et.
Proof.
  intro H. destruct H as [|c sign negative ds n H _ _]; [exact I|]. apply e_lower in H. apply Ascii.eqb_eq in H.
  cbn [no_digit]. destruct (is_digit c) eqn:E; auto. unfold lower in H. exfalso.
  unfold is_digit, byte_range in *. change (N_of_ascii "0") with 48%N in E. change (N_of_ascii "9") with 57%N in E. change (N_of_ascii "A") with 65%N in H.
  apply andb_true_iff in E. destruct E as [E1 E2]. apply N.leb_le in E1, E2.
  destruct (65 <=? N_of_ascii c)%N eqn:E3; [apply N.leb_le in E3; lia|]. cbn [andb] in H. subst c. cbn in E2. lia.
Qed.
Lemma exponent_no_point et e t : exponent_text et e -> et <> "."%char :: t.
Proof.
  intros H E. destruct H as [|c sign negative ds n H _ _]; [discriminate|]. injection E as -> _. apply e_lower in H. discriminate.
Qed.
Lemma decimal_spec t d k : parse_decimal t = Some (d, k) <-> literal t d k.
Proof.
  split.
  - unfold parse_decimal. destruct (span_digits t) as [whole r] eqn:Es. apply span_sound in Es. destruct Es as (-> & Ha & Hr).
    assert (X : exists point fraction r', (match r with c :: r1 => if Ascii.eqb c "." then span_digits r1 else ([], r) | [] => ([], r) end) = (fraction, r') /\
      r = point ++ r' /\ all_digits fraction /\ (point = [] /\ fraction = [] \/ point = bytes "." ++ fraction)).
    { destruct r as [|c r1]; [exists [], [], []; repeat split; auto; constructor|]. destruct (Ascii.eqb c ".") eqn:E.
      - apply Ascii.eqb_eq in E. subst c. destruct (span_digits r1) as [fraction r'] eqn:Es. apply span_sound in Es. destruct Es as (-> & Hf & _).
        exists (bytes "." ++ fraction), fraction, r'. split; auto.
      - exists [], [], (c :: r1). repeat split; auto. constructor. }
    destruct X as (point & fraction & r' & -> & -> & Hf & Hp). destruct (whole ++ fraction) as [|d0 ds] eqn:Ed; [discriminate|].
    destruct (parse_exponent r') as [e|] eqn:Ee; [|discriminate]. cbn [option_map]. intro H. apply some_eq in H. apply pair_equal_spec in H. destruct H as [<- <-].
    apply exponent_spec in Ee. exists whole, point, fraction, r', e. split; [auto|]. split; [apply any_all; auto|]. split; [apply any_all; auto|]. split; auto.
    split; [|split; auto]. rewrite Ed. apply digits_of_spec. split; [discriminate|]. split; auto. rewrite <- Ed. apply Forall_app. auto.
  - intros (whole & point & fraction & et & e & -> & Hw & Hf & Hp & Hd & He & ->). apply any_all in Hw, Hf. apply digits_of_spec in Hd. destruct Hd as (Hn & _ & ->).
    unfold parse_decimal.
    assert (Hr : no_digit (point ++ et)).
    { destruct Hp as [(-> & _)| ->]; [cbn [app]; eapply exponent_no_digit; eauto|reflexivity]. }
    rewrite (span_complete whole (point ++ et) Hw Hr).
    assert (X : (match point ++ et with c :: r1 => if Ascii.eqb c "." then span_digits r1 else ([], point ++ et) | [] => ([], point ++ et) end) = (fraction, et)).
    { destruct Hp as [(-> & ->)| ->].
      - cbn [app]. destruct et as [|c et]; auto. destruct (Ascii.eqb c ".") eqn:E; auto. apply Ascii.eqb_eq in E. subst c. destruct (exponent_no_point _ _ et He). auto.
      - change (span_digits (fraction ++ et) = (fraction, et)).
        apply span_complete; auto. eapply exponent_no_digit; eauto. }
    rewrite X. destruct (whole ++ fraction) as [|d0 ds] eqn:Ed; [congruence|]. apply exponent_spec in He. rewrite He. reflexivity.
Qed.
Lemma spelled_head word t c w : spelled word t -> bytes word = c :: w -> small_letter c -> exists c' t', t = c' :: t' /\ (c' = c \/ (N_of_ascii c' + 32)%N = N_of_ascii c).
Proof. unfold spelled. intros H E Hc. rewrite E in H. inversion H as [|? c' ? t' H1 H2]; subst. exists c', t'. auto. Qed.
Lemma letter_unsigned c c' t : small_letter c -> c' = c \/ (N_of_ascii c' + 32)%N = N_of_ascii c -> unsigned (c' :: t).
Proof. unfold small_letter. intros H H' t'. split; intro E; injection E as -> _; destruct H' as [<- | H']; cbn in *; lia. Qed.
Lemma literal_unsigned t d k : literal t d k -> unsigned t.
Proof.
  intros (whole & point & fraction & et & e & -> & Hw & Hf & Hp & Hd & He & ->). apply any_all in Hw, Hf. apply digits_of_spec in Hd. destruct Hd as (Hn & _ & _).
  destruct whole as [|c whole].
  - destruct Hp as [(-> & ->)| ->]; [cbn in Hn; congruence|]. intro t'. cbn. split; discriminate.
  - cbn [app]. apply digit_unsigned. inversion Hw; auto.
Qed.
Lemma literal_head t d k : literal t d k -> exists c t', t = c :: t' /\ (is_digit c = true \/ c = "."%char).
Proof.
  intros (whole & point & fraction & et & e & -> & Hw & Hf & Hp & Hd & He & ->). apply any_all in Hw, Hf. apply digits_of_spec in Hd. destruct Hd as (Hn & _ & _).
  destruct whole as [|c whole].
  - destruct Hp as [(-> & ->)| ->]; [cbn in Hn; congruence|]. cbn. eauto.
  - cbn [app]. inversion Hw; eauto.
Qed.
Lemma spelled_no_literal word t d k c w : spelled word t -> bytes word = c :: w -> small_letter c -> ~ literal t d k.
Proof.
  intros H E Hc Hl. destruct (spelled_head _ _ _ _ H E Hc) as (c' & t' & -> & H'). destruct (literal_head _ _ _ Hl) as (c2 & t2 & E2 & H2). injection E2 as <- _.
  unfold small_letter in Hc. destruct H2 as [H2| ->].
  - unfold is_digit, byte_range in H2. apply andb_true_iff in H2. destruct H2 as [_ H2]. apply N.leb_le in H2. change (N_of_ascii "9") with 57%N in H2. destruct H' as [-> | H']; lia.
  - destruct H' as [<- | H']; cbn in *; lia.
Qed.
Lemma word_of word t : Forall small_letter (bytes word) -> {spelled word t} + {~ spelled word t}.
Proof.
  intro H. destruct (String.eqb (string_of_list_ascii (map lower t)) word) eqn:E.
  - left. apply spelled_spec; auto.
  - right. intro X. apply spelled_spec in X; auto. congruence.
Qed.
Lemma parse_spec s x : parse_f64 s = Some x <-> means_double s x.
Proof.
  assert (L1 : Forall small_letter (bytes "inf")) by (apply letters_ok; reflexivity).
  assert (L2 : Forall small_letter (bytes "infinity")) by (apply letters_ok; reflexivity).
  assert (L3 : Forall small_letter (bytes "nan")) by (apply letters_ok; reflexivity).
  assert (B : forall negative t, (if String.eqb (string_of_list_ascii (map lower t)) "inf" || String.eqb (string_of_list_ascii (map lower t)) "infinity" then Some (@B754_infinity 53 1024 negative)
      else if String.eqb (string_of_list_ascii (map lower t)) "nan" then Some (@B754_nan 53 1024)
      else option_map (fun p => f64_of_decimal negative (fst p) (snd p)) (parse_decimal t)) = Some x <->
    ((spelled "inf" t \/ spelled "infinity" t) /\ x = @B754_infinity 53 1024 negative \/ spelled "nan" t /\ x = @B754_nan 53 1024 \/
     exists d k, literal t d k /\ rounds negative (decimal_value d k) x)).
  { intros negative t. split.
    - destruct (String.eqb (string_of_list_ascii (map lower t)) "inf" || String.eqb (string_of_list_ascii (map lower t)) "infinity") eqn:E.
      + intro H. apply some_eq in H. left. split; auto. apply orb_true_iff in E. destruct E as [E|E]; apply spelled_spec in E; auto.
      + destruct (String.eqb (string_of_list_ascii (map lower t)) "nan") eqn:E2.
        * intro H. apply some_eq in H. right. left. split; auto. apply spelled_spec; auto.
        * destruct (parse_decimal t) as [[d k]|] eqn:Ed; [|discriminate]. cbn [option_map fst snd]. intro H. apply some_eq in H. right. right. exists d, k.
          apply decimal_spec in Ed. split; auto. apply of_decimal_rounds. auto.
    - intros [(H & ->)|[(H & ->)|(d & k & H & Hr)]].
      + assert (X : String.eqb (string_of_list_ascii (map lower t)) "inf" || String.eqb (string_of_list_ascii (map lower t)) "infinity" = true)
          by (apply orb_true_iff; destruct H as [H|H]; [left|right]; apply spelled_spec; auto). rewrite X. auto.
      + assert (X := H). apply spelled_spec in X; auto. rewrite X.
        apply String.eqb_eq in X. rewrite X. reflexivity.
      + assert (X : String.eqb (string_of_list_ascii (map lower t)) "inf" || String.eqb (string_of_list_ascii (map lower t)) "infinity" = false).
        { apply orb_false_iff. split; match goal with |- ?e = false => destruct e eqn:Ee; auto end; exfalso; apply spelled_spec in Ee; auto;
            refine (spelled_no_literal _ _ d k _ _ Ee eq_refl _ H); unfold small_letter; cbn; lia. }
        rewrite X. assert (Y : String.eqb (string_of_list_ascii (map lower t)) "nan" = false).
        { match goal with |- ?e = false => destruct e eqn:Ee; auto end; exfalso; apply spelled_spec in Ee; auto;
            refine (spelled_no_literal _ _ d k _ _ Ee eq_refl _ H); unfold small_letter; cbn; lia. }
        rewrite Y. apply decimal_spec in H. rewrite H. cbn [option_map fst snd]. f_equal. apply of_decimal_rounds. auto. }
  unfold parse_f64, means_double. split.
  - destruct (take_sign s) as [negative t] eqn:Et. intro H. apply B in H. apply take_sign_sound in Et. destruct Et as (sign & Hs & ->). exists sign, negative, t. auto.
  - intros (sign & negative & t & Hs & -> & H).
    assert (Hu : unsigned t).
    { destruct H as [([H|H] & _)|[(H & _)|(d & k & H & _)]].
      - destruct (spelled_head _ _ _ _ H eq_refl) as (c' & t' & -> & Hc); [unfold small_letter; cbn; lia|]. eapply letter_unsigned; eauto. unfold small_letter; cbn; lia.
      - destruct (spelled_head _ _ _ _ H eq_refl) as (c' & t' & -> & Hc); [unfold small_letter; cbn; lia|]. eapply letter_unsigned; eauto. unfold small_letter; cbn; lia.
      - destruct (spelled_head _ _ _ _ H eq_refl) as (c' & t' & -> & Hc); [unfold small_letter; cbn; lia|]. eapply letter_unsigned; eauto. unfold small_letter; cbn; lia.
      - eapply literal_unsigned; eauto. }
    rewrite (take_sign_complete sign negative t Hs Hu). apply B. exact H.
Qed.
