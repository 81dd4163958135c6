(** Proofs about CSV texts: cells and columns. *)
From Coq Require Import ZArith Ascii.
From Verif Require Export P_Csv.
Local Open Scope string_scope.
Local Open Scope list_scope.
Local Open Scope nat_scope.

(** ** numbers *)
Definition valid_digit (base : N) (c : ascii) : Prop := exists d, hex_value c = Some d /\ (d < base)%N.
Definition next_value (base v : N) (c : ascii) : N := (v * base + match hex_value c with Some d => d | None => 0 end)%N.
Lemma fold_value_le base s : (1 <= base)%N -> forall v, (v <= fold_left (next_value base) s v)%N.
Proof.
  intro Hb. induction s as [|c s IH]; intro v; cbn [fold_left]; [lia|]. etransitivity; [|apply IH]. unfold next_value. nia.
Qed.
Lemma digits_value_spec base s w : (1 <= base)%N -> forall v,
  digits_value base v s = Some w <-> Forall (valid_digit base) s /\ w = fold_left (next_value base) s v /\ (s = [] \/ (w < 2 ^ 64)%N).
Proof.
  intros Hb. induction s as [|c s IH]; intro v; cbn [digits_value fold_left].
  - split; [intro H; injection H as <-; split; auto|]. intros (_ & -> & _). auto.
  - destruct (hex_value c) as [d|] eqn:E.
    + assert (En : next_value base v c = (v * base + d)%N) by (unfold next_value; rewrite E; auto).
      destruct ((d <? base)%N && (v * base + d <? 2 ^ 64)%N) eqn:T.
      * apply andb_true_iff in T. destruct T as [T1 T2]. apply N.ltb_lt in T1, T2. rewrite IH, En. split.
        -- intros (H1 & H2 & H3). split; [constructor; auto; exists d; auto|]. split; auto. right.
           destruct H3 as [-> | H3]; auto. cbn [fold_left] in H2. rewrite H2. auto.
        -- intros (H1 & H2 & H3). inversion H1; subst. split; auto. split; auto. right. destruct H3 as [H3|H3]; [discriminate|auto].
      * split; [discriminate|]. intros (H1 & H2 & H3). exfalso. inversion H1 as [|? ? (d' & Ed & Hd) _]; subst. rewrite E in Ed. injection Ed as <-.
        destruct H3 as [H3|H3]; [discriminate|]. assert (X := fold_value_le base s Hb (next_value base v c)). rewrite En in X, H3.
        apply andb_false_iff in T. destruct T as [T|T]; apply N.ltb_ge in T; lia.
    + split; [discriminate|]. intros (H1 & _). inversion H1 as [|? ? (d' & Ed & _) _]; subst. congruence.
Qed.

Lemma digit_valid c : is_digit c = true <-> valid_digit 10 c.
Proof.
  unfold valid_digit. split.
  - intro H. exists (digit_value c). unfold hex_value. rewrite H. split; auto. unfold is_digit, byte_range in H. apply andb_true_iff in H. destruct H as [H1 H2].
    change (N_of_ascii "9") with 57%N in H2. apply N.leb_le in H1, H2. unfold digit_value. lia.
  - intros (d & H & Hd). unfold hex_value in H. destruct (is_digit c); auto. exfalso. revert H. unfold byte_range.
    change (N_of_ascii "a") with 97%N. change (N_of_ascii "f") with 102%N. change (N_of_ascii "A") with 65%N. change (N_of_ascii "F") with 70%N.
    generalize (N_of_ascii c). intro k. destruct ((97 <=? k)%N && (k <=? 102)%N) eqn:E1.
    + intro H. injection H as <-. apply andb_true_iff in E1. destruct E1 as [E _]. apply N.leb_le in E. lia.
    + destruct ((65 <=? k)%N && (k <=? 70)%N) eqn:E2; [|discriminate]. intro H. injection H as <-. apply andb_true_iff in E2. destruct E2 as [E _]. apply N.leb_le in E. lia.
Qed.
Lemma value_fold t : Forall (valid_digit 10) t -> value_of_digits t = fold_left (next_value 10) t 0%N.
Proof.
  unfold value_of_digits. generalize 0%N. induction t as [|c t IH]; intros v H; cbn [fold_left]; auto. inversion H as [|? ? Hc Ht]; subst.
  rewrite IH; auto. f_equal. unfold next_value, hex_value. apply digit_valid in Hc. rewrite Hc. lia.
Qed.
Lemma digits_fold t v : digits_of t v <-> t <> [] /\ Forall (valid_digit 10) t /\ v = fold_left (next_value 10) t 0%N.
Proof.
  rewrite digits_of_spec. unfold all_digits. split; intros (H1 & H2 & H3).
  - assert (X : Forall (valid_digit 10) t) by (revert H2; apply Forall_impl; intro; apply digit_valid). rewrite <- value_fold; auto.
  - rewrite <- value_fold in H3; auto. split; auto. split; auto. revert H2. apply Forall_impl. intro; apply digit_valid.
Qed.
Lemma hex_bound c v : hex_value c = Some v -> (v < 16)%N.
Proof.
  intro H. assert (X : exists d, hex_value c = Some (N.of_nat d) /\ d < 16).
  { assert (Y : hex_of c (N.to_nat v)) by (apply hex_of_value; rewrite N2Nat.id; auto). exists (N.to_nat v). rewrite N2Nat.id. split; auto.
    destruct Y as [Y|Y].
    - change 16 with (List.length hex_digits_lower). apply nth_error_Some. rewrite Y. discriminate.
    - change 16 with (List.length hex_digits_upper). apply nth_error_Some. rewrite Y. discriminate. }
  destruct X as (d & E & Hd). rewrite E in H. injection H as <-. lia.
Qed.
Lemma hex_digit_value c d : hex_digit_of c d <-> hex_value c = Some (N.of_nat d).
Proof. exact (hex_of_value c d). Qed.
Lemma hex_fold t v : hex_digits_of t v <-> t <> [] /\ Forall (valid_digit 16) t /\ v = fold_left (next_value 16) t 0%N.
Proof.
  assert (A : forall c d, hex_digit_of c d -> valid_digit 16 c /\ forall v, next_value 16 v c = (16 * v + N.of_nat d)%N).
  { intros c d H. apply hex_digit_value in H. split.
    - exists (N.of_nat d). split; auto. eapply hex_bound; eauto.
    - intro w. unfold next_value. rewrite H. lia. }
  split.
  - induction 1 as [c d H|t v c d Ht (Hn & Ha & ->) Hc].
    + destruct (A c d H) as [H1 H2]. split; [discriminate|]. split; [constructor; auto|]. cbn [fold_left]. rewrite H2. lia.
    + destruct (A c d Hc) as [H1 H2]. split; [destruct t; discriminate|]. split; [apply Forall_app; split; auto|]. rewrite fold_left_app. cbn [fold_left].
      rewrite H2. auto.
  - intros (Hn & Ha & ->). induction t as [|c t IH] using rev_ind; [congruence|]. apply Forall_app in Ha. destruct Ha as [Ha Hc].
    inversion Hc as [|? ? (d & Hd & Hb) _]; subst. assert (Hh : hex_digit_of c (N.to_nat d)) by (apply hex_digit_value; rewrite N2Nat.id; auto).
    destruct (A _ _ Hh) as [_ Ev]. rewrite fold_left_app. cbn [fold_left]. rewrite Ev. destruct t as [|c' t].
    + cbn [app fold_left]. replace (16 * 0 + N.of_nat (N.to_nat d))%N with (N.of_nat (N.to_nat d)) by lia. apply hex_one; auto.
    + apply hex_more; auto. apply IH; auto. discriminate.
Qed.
Lemma plus_invalid base : ~ valid_digit base "+".
Proof. intros (d & H & _). discriminate. Qed.
Lemma x_invalid base : ~ valid_digit base "x".
Proof. intros (d & H & _). discriminate. Qed.
Lemma parse_radix_spec base s n : (1 <= base)%N ->
  (parse_radix base s = Some n <-> fits n /\ exists sign ds, plus_sign sign /\ s = sign ++ ds /\
     ds <> [] /\ Forall (valid_digit base) ds /\ N.of_nat n = fold_left (next_value base) ds 0%N).
Proof.
  intro Hb. unfold parse_radix, fits.
  assert (A : forall ds, ds <> [] -> (match ds with [] => None | _ => option_map N.to_nat (digits_value base 0 ds) end = Some n <->
     (N.of_nat n < usize_limit)%N /\ Forall (valid_digit base) ds /\ N.of_nat n = fold_left (next_value base) ds 0%N)).
  { intros ds Hn. destruct ds as [|c ds]; [congruence|]. set (l := c :: ds) in *. unfold usize_limit. split.
    - destruct (digits_value base 0 l) as [w|] eqn:E; [|discriminate]. cbn [option_map]. intro H. apply some_eq in H. subst n.
      apply digits_value_spec in E; auto. destruct E as (E1 & E2 & [E3|E3]); [discriminate|]. rewrite N2Nat.id. auto.
    - intros (H1 & H2 & H3). assert (X : digits_value base 0 l = Some (N.of_nat n)) by (apply digits_value_spec; auto).
      rewrite X. cbn [option_map]. rewrite Nat2N.id. auto. }
  split.
  - intro H.
    assert (X : exists sign ds, plus_sign sign /\ s = sign ++ ds /\ ds <> [] /\ match ds with [] => None | _ => option_map N.to_nat (digits_value base 0 ds) end = Some n).
    { destruct s as [|c [|d s]].
      - discriminate.
      - exists [], [c]. split; [left; auto|]. split; auto. split; [discriminate|exact H].
      - destruct (Ascii.eqb c "+") eqn:E.
        + apply Ascii.eqb_eq in E. subst c. exists ["+"%char], (d :: s). split; [right; auto|]. split; auto. split; [discriminate|exact H].
        + exists [], (c :: d :: s). split; [left; auto|]. split; auto. split; [discriminate|exact H]. }
    destruct X as (sign & ds & H1 & H2 & H3 & H4). apply A in H4; auto. destruct H4 as (H4 & H5 & H6). split; auto. exists sign, ds. auto.
  - intros (H0 & sign & ds & H1 & -> & H3 & H4 & H5).
    assert (X : match ds with [] => None | _ => option_map N.to_nat (digits_value base 0 ds) end = Some n) by (apply A; auto).
    destruct H1 as [-> | ->].
    + cbn [app]. destruct ds as [|c [|d ds]]; auto. destruct (Ascii.eqb c "+") eqn:E; auto. apply Ascii.eqb_eq in E. subst c.
      inversion H4 as [|? ? Hp _]; subst. destruct (plus_invalid _ Hp).
    + destruct ds as [|d ds]; [congruence|]. exact X.
Qed.
Lemma parse_cell_usize_spec reads_hex s n : parse_cell_usize reads_hex s = Some n <-> number_cell reads_hex n s.
Proof.
  assert (D : parse_radix 10 s = Some n <-> (N.of_nat n < usize_limit)%N /\ exists sign ds, plus_sign sign /\ digits_of ds (N.of_nat n) /\ s = sign ++ ds).
  { rewrite parse_radix_spec by lia. split; intros (H0 & sign & ds & H1 & H2 & H3); (split; [exact H0|]); exists sign, ds.
    - split; auto. split; auto. apply digits_fold. auto.
    - split; auto. split; auto. apply digits_fold. auto. }
  assert (Dh : parse_radix 10 s = Some n -> number_cell reads_hex n s).
  { intro H. apply D in H. destruct H as (H0 & sign & ds & H1 & H2 & H3). split; auto. exists sign, ds. auto. }
  assert (X : forall s', parse_radix 16 s' = Some n <-> (N.of_nat n < usize_limit)%N /\ exists sign ds, plus_sign sign /\ hex_digits_of ds (N.of_nat n) /\ s' = sign ++ ds).
  { intro s'. rewrite parse_radix_spec by lia. split; intros (H0 & sign & ds & H1 & H2 & H3); (split; [exact H0|]); exists sign, ds.
    - split; auto. split; auto. apply hex_fold. auto.
    - split; auto. split; auto. apply hex_fold. auto. }
  split.
  - intro H. destruct s as [|a [|b s']]; [auto..|]. cbn [parse_cell_usize] in H. destruct (reads_hex && Ascii.eqb a "0" && Ascii.eqb b "x") eqn:E; auto.
    apply andb_true_iff in E. destruct E as [E Eb]. apply andb_true_iff in E. destruct E as [-> Ea]. apply Ascii.eqb_eq in Ea, Eb. subst a b.
    apply X in H. destruct H as (H0 & sign & ds & H1 & H2 & ->). split; auto. exists sign, ds. split; auto.
  - intros (H0 & sign & ds & H1 & [(H2 & H3)|(Hh & H2 & H3)]).
    + assert (Hd : parse_radix 10 s = Some n) by (apply D; split; auto; exists sign, ds; auto).
      destruct s as [|a [|b s']]; auto. cbn [parse_cell_usize]. destruct (reads_hex && Ascii.eqb a "0" && Ascii.eqb b "x") eqn:E; auto. exfalso.
      apply andb_true_iff in E. destruct E as [E Eb]. apply andb_true_iff in E. destruct E as [_ Ea]. apply Ascii.eqb_eq in Ea, Eb. subst a b.
      apply digits_fold in H2. destruct H2 as (_ & Hv & _). destruct H1 as [-> | ->]; [|discriminate]. cbn [app] in H3. subst ds.
      inversion Hv as [|? ? _ Hv']; subst. inversion Hv' as [|? ? Hx _]; subst. destruct (x_invalid _ Hx).
    + subst s. cbn [bytes list_ascii_of_string app parse_cell_usize]. rewrite Hh, !eqb_refl'. cbn [andb]. apply X. split; auto. exists sign, ds. auto.
Qed.

(** ** other values *)
Lemma sola_bytes s : string_of_list_ascii (bytes s) = s.
Proof. apply string_of_list_ascii_of_string. Qed.
Lemma bytes_sola s : bytes (string_of_list_ascii s) = s.
Proof. apply list_ascii_of_string_of_list_ascii. Qed.
Lemma parse_bool_spec s b : parse_bool s = Some b <-> flag_cell b s.
Proof.
  unfold parse_bool, flag_cell. split.
  - destruct (string_dec (string_of_list_ascii s) "true") as [E|_].
    + intro H. injection H as <-. rewrite <- E. symmetry. apply bytes_sola.
    + destruct (string_dec (string_of_list_ascii s) "false") as [E|_]; [|discriminate]. intro H. injection H as <-. rewrite <- E. symmetry. apply bytes_sola.
  - intros ->. rewrite sola_bytes. destruct b; reflexivity.
Qed.
Lemma parse_string_spec s t : parse_string s = Some t <-> text_cell t s.
Proof.
  unfold parse_string, text_cell. split.
  - intro H. injection H as <-. symmetry. apply bytes_sola.
  - intros ->. rewrite sola_bytes. auto.
Qed.

(** ** columns *)
Lemma cons_both {A} (a b : A) l m : a :: l = b :: m -> a = b /\ l = m.
Proof. intro H. split; congruence. Qed.
Definition named (header r : record) : list (string * list ascii) := combine (map string_of_list_ascii header) r.
Lemma values_cons name h header v r : cells_of name (named (h :: header) (v :: r)) =
  if String.eqb (string_of_list_ascii h) name then v :: cells_of name (named header r) else cells_of name (named header r).
Proof. unfold cells_of, named. cbn [map combine filter fst]. destruct (String.eqb (string_of_list_ascii h) name); reflexivity. Qed.
Lemma header_eqb h name : String.eqb (string_of_list_ascii h) name = true <-> h = bytes name.
Proof.
  rewrite String.eqb_eq. split; intro H.
  - subst name. symmetry. apply bytes_sola.
  - subst h. apply sola_bytes.
Qed.
Lemma no_values name header : forall r, List.length r = List.length header -> (cells_of name (named header r) = [] <-> ~ In (bytes name) header).
Proof.
  induction header as [|h header IH]; intros [|v r] L; try discriminate L; [split; auto|]. cbn [List.length] in L. rewrite values_cons.
  destruct (String.eqb (string_of_list_ascii h) name) eqn:E.
  - apply header_eqb in E. split; [discriminate|]. intro H. destruct H. left; auto.
  - rewrite IH by lia. split; intro H.
    + intros [X|X]; [|auto]. apply header_eqb in X. congruence.
    + intro X. apply H. right; auto.
Qed.
Lemma one_value name v header : forall r, List.length r = List.length header -> (cells_of name (named header r) = [v] <-> the_column header r name v).
Proof.
  induction header as [|h header IH]; intros [|w r] L; try discriminate L.
  - split; [discriminate|]. intros ((i & H & _) & _). destruct i; discriminate.
  - cbn [List.length] in L. rewrite values_cons. destruct (String.eqb (string_of_list_ascii h) name) eqn:E.
    + apply header_eqb in E. subst h. assert (X := no_values name header r ltac:(lia)). split.
      * intro H. apply cons_both in H. destruct H as [-> H]. apply X in H. split; [exists 0; split; auto|].
        intros [|i] [|j] Hi Hj; auto; exfalso; apply H; eapply nth_error_In; eauto.
      * intros ((i & H1 & H2) & H3). destruct i as [|i].
        -- injection H2 as ->. f_equal. apply X. intro Hin. destruct (In_nth_error _ _ Hin) as (j & Hj).
           assert (Y := H3 0 (S j) eq_refl Hj). discriminate.
        -- assert (Y := H3 0 (S i) eq_refl H1). discriminate.
    + assert (Hne : h <> bytes name) by (intro Hh; apply header_eqb in Hh; congruence). rewrite IH by lia. split.
      * intros ((i & H1 & H2) & H3). split; [exists (S i); split; auto|]. intros [|i'] [|j'] Hi Hj; cbn in Hi, Hj; try congruence. assert (i' = j') by eauto. lia.
      * intros ((i & H1 & H2) & H3). destruct i as [|i]; [cbn in H1; congruence|]. split; [exists i; split; auto|].
        intros i' j' Hi Hj. assert (Y := H3 (S i') (S j') Hi Hj). lia.
Qed.
Lemma the_column_unique header r name s t : the_column header r name s -> the_column header r name t -> s = t.
Proof.
  intros ((i & H1 & H2) & H3) ((j & H4 & H5) & _). assert (i = j) by eauto. subst j. congruence.
Qed.
Section Columns.
Context {A : Type} (parse : list ascii -> option A) (cell : A -> list ascii -> Prop) (Hp : forall s a, parse s = Some a <-> cell a s).
Lemma required_spec header r name a : List.length r = List.length header -> (required_cell parse name (named header r) = Some a <-> value_in cell header r name a).
Proof using Hp.
  intro L. unfold required_cell, value_in. split.
  - destruct (cells_of name (named header r)) as [|v [|? ?]] eqn:E; try discriminate. intro H. apply Hp in H. exists v. split; auto. apply one_value; auto.
  - intros (s & H1 & H2). apply one_value in H1; auto. rewrite H1. apply Hp. auto.
Qed.
Lemma optional_spec header r name o : List.length r = List.length header -> (optional_cell parse name (named header r) = Some o <-> option_in cell header r name o).
Proof using Hp.
  intro L. unfold optional_cell, option_in. split.
  - destruct (cells_of name (named header r)) as [|v [|? ?]] eqn:E.
    + intro H. injection H as <-. right. apply no_values in E; auto.
    + apply one_value in E; auto. destruct v as [|c v].
      * intro H. injection H as <-. auto.
      * destruct (parse (c :: v)) as [a|] eqn:Ep; [|discriminate]. cbn [option_map]. intro H. injection H as <-. apply Hp in Ep.
        exists (c :: v). split; auto. split; auto. discriminate.
    + destruct v; discriminate.
  - destruct o as [a|].
    + intros (s & H1 & H2 & H3). apply one_value in H1; auto. rewrite H1. destruct s as [|c s]; [congruence|]. apply Hp in H3. rewrite H3. auto.
    + intros [H|H].
      * apply one_value in H; auto. rewrite H. auto.
      * apply (no_values name header r L) in H. rewrite H. auto.
Qed.
End Columns.

Lemma all_some_spec {A B} (g : A -> option B) l bs : all_some g l = Some bs <-> Forall2 (fun a b => g a = Some b) l bs.
Proof.
  split.
  - revert bs. induction l as [|a l IH]; intros bs H; cbn [all_some] in H.
    + injection H as <-. constructor.
    + destruct (g a) as [b|] eqn:E; [|discriminate]. destruct (all_some g l) as [bs'|]; [|discriminate]. injection H as <-. constructor; auto.
  - induction 1 as [|a b l bs H H' IH]; auto. cbn [all_some]. rewrite H, IH. auto.
Qed.
Lemma skip_mark_spec skips_mark s s' : skip_mark skips_mark s = s' <-> after_mark skips_mark s s'.
Proof.
  unfold skip_mark, after_mark. change (map ascii_of_nat [239; 187; 191]) with byte_order_mark. cbv zeta. destruct skips_mark.
  - destruct (drop_prefix byte_order_mark s) as [r|] eqn:E.
    + apply drop_prefix_sound in E. subst s. split.
      * intros <-. auto.
      * intros [(_ & H)|([H|H] & _)]; [apply app_inv_head in H; auto|discriminate|destruct (H r); auto].
    + assert (X : forall t, s <> byte_order_mark ++ t) by (intros t ->; rewrite drop_prefix_complete in E; discriminate). split.
      * intros <-. auto.
      * intros [(_ & H)|(_ & H)]; [destruct (X _ H)|auto].
  - split; [intros <-; auto|]. intros [(H & _)|(_ & H)]; [discriminate|auto].
Qed.
Lemma read_csv_spec {A} skips_mark (from : list (string * list ascii) -> option A) row_in s rows :
  (forall header r a, List.length r = List.length header -> (from (named header r) = Some a <-> row_in header r a)) ->
  (read_csv skips_mark from s = Some rows <-> exists s', after_mark skips_mark s s' /\ says_rows row_in s' rows).
Proof.
  intro Hf. unfold read_csv. set (t := skip_mark skips_mark s).
  assert (Ht : after_mark skips_mark s t) by (apply skip_mark_spec; reflexivity).
  assert (Hu : forall s', after_mark skips_mark s s' -> s' = t) by (intros s' H; apply skip_mark_spec in H; auto).
  transitivity (says_rows row_in t rows).
  2: { split; [intro H; exists t; auto|]. intros (s' & H1 & H2). apply Hu in H1. subst s'. auto. }
  clear Ht Hu. unfold says_rows. destruct (read_records StartRecord [] [] t) as [|header records] eqn:E.
  - assert (E' := E). apply records_spec in E'. split.
    + intro H. injection H as <-. left. auto.
    + intros [(_ & ->)|(header & records & H & _)]; auto. apply records_spec in H. congruence.
  - assert (E' := E). apply records_spec in E'. rewrite all_some_spec.
    assert (X : forall r a, (if List.length r =? List.length header then from (named header r) else None) = Some a <->
      List.length r = List.length header /\ row_in header r a).
    { intros r a. destruct (Nat.eqb_spec (List.length r) (List.length header)) as [L|L].
      - rewrite Hf by auto. tauto.
      - split; [discriminate|]. intros (H & _). contradiction. }
    split.
    + intro H. right. exists header, records. split; auto. eapply Forall2_impl; [|exact H]. intros r a Hr. apply X. exact Hr.
    + intros [(H & _)|(header' & records' & H & HF)]; apply records_spec in H; rewrite E in H; [discriminate|]. injection H as <- <-.
      eapply Forall2_impl; [|exact HF]. intros r a Hr. apply X in Hr. exact Hr.
Qed.
