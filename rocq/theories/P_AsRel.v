(** Reading any text as an AS relationship file. *)
From Coq Require Import DecimalString DecimalN ZArith.
From Verif Require Import Spec_AsRel P_List P_SimGraph P_Mesh P_GraphIO.
Local Open Scope string_scope.
Local Open Scope list_scope.

(** ** numbers *)
Definition digit_value (c : ascii) : option N :=
  match c with
  | "0" => Some 0 | "1" => Some 1 | "2" => Some 2 | "3" => Some 3 | "4" => Some 4
  | "5" => Some 5 | "6" => Some 6 | "7" => Some 7 | "8" => Some 8 | "9" => Some 9 | _ => None
  end%char%N.
Lemma digit_value_is c d : digit_value c = Some d <-> digit_is c d.
Proof.
  split; [|destruct 1; reflexivity]. destruct c as [[] [] [] [] [] [] [] []]; cbn; intro H; try discriminate; injection H as <-; constructor.
Qed.
Fixpoint horner (acc : N) (s : string) : option N :=
  match s with
  | EmptyString => Some acc
  | String c s' => match digit_value c with Some d => horner (10 * acc + d) s' | None => None end
  end.
Definition uint_cons (c : ascii) (u : Decimal.uint) : option Decimal.uint :=
  match c with
  | "0" => Some (Decimal.D0 u) | "1" => Some (Decimal.D1 u) | "2" => Some (Decimal.D2 u) | "3" => Some (Decimal.D3 u) | "4" => Some (Decimal.D4 u)
  | "5" => Some (Decimal.D5 u) | "6" => Some (Decimal.D6 u) | "7" => Some (Decimal.D7 u) | "8" => Some (Decimal.D8 u) | "9" => Some (Decimal.D9 u) | _ => None
  end%char.
Lemma acc_cons c d u u' p : digit_value c = Some d -> uint_cons c u = Some u' -> exists q, Npos q = (10 * Npos p + d)%N /\ Pos.of_uint_acc u' p = Pos.of_uint_acc u q.
Proof.
  intros Hd Hu. apply digit_value_is in Hd. destruct Hd; cbn in Hu; injection Hu as <-; cbn [Pos.of_uint_acc]; eexists; (split; [|reflexivity]); lia.
Qed.
Lemma uint_of_string_cons c s : NilEmpty.uint_of_string (String c s) = match NilEmpty.uint_of_string s with Some u => uint_cons c u | None => None end.
Proof. cbn [NilEmpty.uint_of_string]. destruct (NilEmpty.uint_of_string s); destruct c as [[] [] [] [] [] [] [] []]; reflexivity. Qed.
Lemma cons_digit c u : (exists d, digit_value c = Some d) <-> exists u', uint_cons c u = Some u'.
Proof. destruct c as [[] [] [] [] [] [] [] []]; cbn; (split; intros [x H]; [discriminate|discriminate] + (split; intros [x H]; eauto)). Qed.
Lemma horner_acc s : forall p, option_map (fun u => Npos (Pos.of_uint_acc u p)) (NilEmpty.uint_of_string s) = horner (Npos p) s.
Proof.
  induction s as [|c s IH]; intro p; [reflexivity|]. rewrite uint_of_string_cons. cbn [horner].
  destruct (NilEmpty.uint_of_string s) as [u|] eqn:Eu; cbn [option_map] in *.
  - destruct (digit_value c) as [d|] eqn:Ed.
    + destruct (proj1 (cons_digit c u) (ex_intro _ d Ed)) as [u' Hu]. rewrite Hu. cbn [option_map]. destruct (acc_cons _ _ _ _ p Ed Hu) as (q & Hq & ->). rewrite <- Hq. apply IH.
    + destruct (uint_cons c u) as [u'|] eqn:Hu; [|reflexivity]. destruct (proj2 (cons_digit c u) (ex_intro _ u' Hu)) as [d Hd]. congruence.
  - destruct (digit_value c) as [d|] eqn:Ed; [|reflexivity]. destruct (digit_value_is c d) as [H _]. specialize (H Ed).
    assert (Hq : exists q, Npos q = (10 * Npos p + d)%N) by (destruct H; eexists; cbn; reflexivity). destruct Hq as [q Hq]. rewrite <- Hq. apply IH.
Qed.
Lemma horner_uint s : option_map N.of_uint (NilEmpty.uint_of_string s) = horner 0 s.
Proof.
  induction s as [|c s IH]; [reflexivity|]. rewrite uint_of_string_cons. cbn [horner]. destruct (digit_value c) as [d|] eqn:Ed.
  - destruct (N.eq_dec d 0) as [->|Hd].
    + apply digit_value_is in Ed. inversion Ed; subst c. change (10 * 0 + 0)%N with 0%N. rewrite <- IH. destruct (NilEmpty.uint_of_string s) as [u|]; reflexivity.
    + assert (Hq : exists q, d = Npos q) by (destruct d; [congruence|eauto]). destruct Hq as [q ->]. change (10 * 0 + Npos q)%N with (Npos q). rewrite <- horner_acc.
      destruct (NilEmpty.uint_of_string s) as [u|]; [|reflexivity]. apply digit_value_is in Ed. inversion Ed; subst; reflexivity.
  - destruct (NilEmpty.uint_of_string s) as [u|]; [|reflexivity]. destruct (uint_cons c u) as [u'|] eqn:Hu; [|reflexivity].
    destruct (proj2 (cons_digit c u) (ex_intro _ u' Hu)) as [d Hd]. congruence.
Qed.
Lemma horner_snoc s c acc : horner acc (s ++ String c "") = match horner acc s, digit_value c with Some n, Some d => Some (10 * n + d)%N | _, _ => None end.
Proof.
  revert acc. induction s as [|a s IH]; intro acc; cbn [append horner]; [destruct (digit_value c); reflexivity|]. destruct (digit_value a); auto.
Qed.
Lemma snoc_cases s : s = "" \/ exists s' c, s = (s' ++ String c "")%string.
Proof.
  induction s as [|a s IH]; auto. right. destruct IH as [->|(s' & c & ->)]; [exists "", a; reflexivity|]. exists (String a s'), c. reflexivity.
Qed.
Lemma append_length (a b : string) : String.length (a ++ b) = String.length a + String.length b.
Proof. induction a; cbn; auto. Qed.
Lemma horner_numeral s n : s <> "" -> horner 0 s = Some n <-> numeral s n.
Proof.
  intro Hs. split.
  - remember (String.length s) as k eqn:Ek. revert s Ek Hs n. induction k as [k IH] using lt_wf_ind. intros s -> Hs n H.
    destruct (snoc_cases s) as [->|(s' & c & ->)]; [congruence|]. rewrite horner_snoc in H.
    destruct (horner 0 s') as [m|] eqn:Em; [|discriminate]. destruct (digit_value c) as [d|] eqn:Ed; [|discriminate]. injection H as <-. apply digit_value_is in Ed.
    destruct s' as [|a s''] eqn:Es; [injection Em as <-; exact (one_digit c d Ed)|]. rewrite <- Es in *. constructor; auto.
    eapply IH; [|reflexivity|rewrite Es; discriminate|exact Em]. rewrite append_length. cbn. lia.
  - intro H. clear Hs. induction H as [c d Hd|s n c d Hn IH Hd]; apply digit_value_is in Hd.
    + cbn. rewrite Hd. f_equal.
    + rewrite horner_snoc, IH, Hd. reflexivity.
Qed.
Lemma numeral_nonempty s n : numeral s n -> s <> "".
Proof. destruct 1 as [|s]; [discriminate|]. destruct s; discriminate. Qed.
Lemma parse_digits_numeral s n : parse_digits s = Ok n <-> numeral s n.
Proof.
  destruct s as [|a s]; [split; [discriminate|]; intro H; apply numeral_nonempty in H; congruence|].
  rewrite <- horner_numeral by discriminate. rewrite <- horner_uint. cbn [parse_digits].
  destruct (NilEmpty.uint_of_string (String a s)); cbn; split; intro H; try discriminate; injection H as <-; reflexivity.
Qed.
Lemma numeral_fun s n m : numeral s n -> numeral s m -> n = m.
Proof. intros H H'. apply parse_digits_numeral in H, H'. congruence. Qed.
Lemma numeral_digits s n : numeral s n -> digits s.
Proof.
  induction 1 as [c d Hd|s n c d Hn IH Hd].
  - cbn. split; auto. destruct Hd; unfold digit; cbn; tauto.
  - clear Hn. induction s as [|a s IHs]; cbn in *; [split; auto; destruct Hd; unfold digit; cbn; tauto|]. destruct IH. auto.
Qed.
(** a text that begins with a sign is no numeral *)
Lemma no_sign c s n : ~ digit c -> ~ numeral (String c s) n.
Proof. intros Hc H. apply numeral_digits in H. destruct H. auto. Qed.
Lemma not_plus : ~ digit "+". Proof. unfold digit; cbn; intuition discriminate. Qed.
Lemma not_minus : ~ digit "-". Proof. unfold digit; cbn; intuition discriminate. Qed.
Lemma not_bar : ~ digit "|". Proof. unfold digit; cbn; intuition discriminate. Qed.
Lemma not_hash : ~ digit "#". Proof. unfold digit; cbn; intuition discriminate. Qed.

(** ** signs *)
Lemma sign_cases s : (exists s', s = String "+" s') \/ (exists s', s = String "-" s') \/ ((forall s', s <> String "+" s') /\ (forall s', s <> String "-" s')).
Proof.
  destruct s as [|c s]; [right; right; split; discriminate|]. destruct (ascii_dec c "+") as [->|Hp]; [left; eauto|]. destruct (ascii_dec c "-") as [->|Hm]; [right; left; eauto|].
  right. right. split; intros s' E; injection E; auto.
Qed.
Lemma parse_usize_plain s : (forall s', s <> String "+" s') -> parse_usize s = (v <- parse_digits s ;; assert (v <? 2 ^ 64)%N (Ok v)).
Proof.
  intro H. unfold parse_usize. destruct s as [|c s]; [reflexivity|]. specialize (H s). destruct c as [[] [] [] [] [] [] [] []]; try reflexivity. congruence.
Qed.
Lemma parse_i32_plain s : (forall s', s <> String "+" s') -> (forall s', s <> String "-" s') -> parse_i32 s = (v <- parse_digits s ;; assert (v <? 2 ^ 31)%N (Ok (Z.of_N v))).
Proof.
  intros H H'. unfold parse_i32. destruct s as [|c s]; [reflexivity|]. specialize (H s). specialize (H' s). destruct c as [[] [] [] [] [] [] [] []]; try reflexivity; congruence.
Qed.
Lemma parse_usize_text s n : parse_usize s = Ok (N.of_nat n) <-> id_text s n /\ (N.of_nat n < 2 ^ 64)%N.
Proof.
  assert (G : forall t, (v <- parse_digits t ;; assert (v <? 2 ^ 64)%N (Ok v)) = Ok (N.of_nat n) <-> numeral t (N.of_nat n) /\ (N.of_nat n < 2 ^ 64)%N).
  { intro t. rewrite <- parse_digits_numeral, <- N.ltb_lt. destruct (parse_digits t) as [v|]; cbn [bind]; [|intuition discriminate].
    unfold assert. destruct (N.ltb_spec v (2 ^ 64)) as [Hv|Hv].
    - split; [intro E; injection E as ->; rewrite N.ltb_lt; auto|]. intros [E _]. auto.
    - split; [discriminate|]. intros [E Hn]. injection E as ->. apply N.ltb_lt in Hn. lia. }
  unfold id_text. destruct (sign_cases s) as [[s' ->]|H].
  - change (parse_usize (String "+" s')) with (v <- parse_digits s' ;; assert (v <? 2 ^ 64)%N (Ok v)). rewrite G. split.
    + intros [H1 H2]. split; auto. right. eauto.
    + intros [[H|(t & E & H)] Hn]; [destruct (no_sign _ _ _ not_plus H)|]. injection E as <-. auto.
  - assert (Hp : forall s', s <> String "+" s') by (destruct H as [[s' ->]|H]; [discriminate|apply H]). rewrite parse_usize_plain by auto. rewrite G. split; [tauto|].
    intros [[H1|(t & E & H1)] Hn]; auto. destruct (Hp _ E).
Qed.
Definition kind_ok (p : bool) (k : Z) : Prop := k = if p then 0%Z else (-1)%Z.
Lemma parse_i32_text s (p : bool) : parse_i32 s = Ok (if p then 0 else -1)%Z <-> kind_text s p.
Proof.
  assert (G : forall t, (v <- parse_digits t ;; assert (v <? 2 ^ 31)%N (Ok (Z.of_N v))) = Ok (if p then 0 else -1)%Z <-> p = true /\ numeral t 0).
  { intro t. rewrite <- parse_digits_numeral. destruct (parse_digits t) as [v|]; cbn [bind]; [|intuition discriminate]. unfold assert.
    destruct (N.ltb_spec v (2 ^ 31)) as [Hv|Hv].
    - destruct p; split.
      + intro E. injection E as E. split; auto. f_equal. lia.
      + intros [_ E]. injection E as ->. reflexivity.
      + intro E. injection E as E. lia.
      + intros [E _]. discriminate.
    - split; [discriminate|]. intros [_ E]. injection E as ->. lia. }
  unfold kind_text. destruct (sign_cases s) as [[s' ->]|[[s' ->]|[Hp Hm]]].
  - change (parse_i32 (String "+" s')) with (v <- parse_digits s' ;; assert (v <? 2 ^ 31)%N (Ok (Z.of_N v))). rewrite G. destruct p; split.
    + intros [_ H]. right. eauto.
    + intros [H|(t & [E|E] & H)]; [destruct (no_sign _ _ _ not_plus H)| |discriminate]. injection E as <-. auto.
    + intros [E _]. discriminate.
    + intros (t & E & _). discriminate.
  - change (parse_i32 (String "-" s')) with (v <- parse_digits s' ;; assert (v <=? 2 ^ 31)%N (Ok (- Z.of_N v)%Z)).
    assert (G' : (v <- parse_digits s' ;; assert (v <=? 2 ^ 31)%N (Ok (- Z.of_N v)%Z)) = Ok (if p then 0 else -1)%Z <-> numeral s' (if p then 0 else 1)%N).
    { rewrite <- parse_digits_numeral. destruct (parse_digits s') as [v|]; cbn [bind]; [|intuition discriminate]. unfold assert.
      destruct (N.leb_spec v (2 ^ 31)) as [Hv|Hv].
      - destruct p; split; intro E; injection E as E; try (f_equal; lia); rewrite E; reflexivity.
      - split; [discriminate|]. intro E. injection E as ->. destruct p; lia. }
    rewrite G'. destruct p; split.
    + intros H. right. eauto.
    + intros [H|(t & [E|E] & H)]; [destruct (no_sign _ _ _ not_minus H)|discriminate|]. injection E as <-. auto.
    + eauto.
    + intros (t & E & H). injection E as <-. auto.
  - rewrite parse_i32_plain by auto. rewrite G. destruct p; split.
    + intros [_ H]. auto.
    + intros [H|(t & [E|E] & H)]; auto; [destruct (Hp _ E)|destruct (Hm _ E)].
    + intros [E _]. discriminate.
    + intros (t & E & H). destruct (Hm _ E).
Qed.
(** ** lines *)
Lemma split_on_inv c s x l : split_on c s = x :: l -> free_of c x /\ (l = [] /\ s = x \/ exists s', s = (x ++ String c s')%string /\ split_on c s' = l).
Proof.
  revert x l. induction s as [|a s IH]; intros x l; cbn [split_on]; [intro H; injection H as <- <-; cbn; auto|].
  destruct (Ascii.eqb_spec a c) as [->|Ha].
  - intro H. injection H as <- <-. split; [exact I|]. right. exists s. auto.
  - destruct (split_on c s) as [|y m]; [discriminate|]. intro H. injection H as <- <-. destruct (IH _ _ eq_refl) as [Hf H]. split; [cbn; auto|].
    destruct H as [[-> ->]|(s' & -> & H)]; [left; auto|right; exists s'; auto].
Qed.
Lemma id_text_free s n : id_text s n -> free_of "|" s.
Proof.
  intros [H|(s' & -> & H)]; apply numeral_digits in H; [|split; [discriminate|]]; apply digits_free; auto using not_bar.
Qed.
Lemma kind_text_free s p : kind_text s p -> free_of "|" s.
Proof.
  assert (G : forall t n, numeral t n -> free_of "|" t) by (intros t n H; apply numeral_digits in H; apply digits_free; auto using not_bar).
  destruct p; cbn [kind_text]; [intros [H|(s' & [->| ->] & H)]|intros (s' & -> & H)]; try (split; [discriminate|]); eauto.
Qed.
Lemma id_text_head s n : id_text s n -> exists c s', s = String c s' /\ c <> "#"%char.
Proof.
  intros [H|(s' & -> & H)]; [|exists "+"%char, s'; split; [auto|discriminate]]. pose proof (numeral_nonempty _ _ H). apply numeral_digits in H. destruct s as [|c s]; [congruence|].
  exists c, s. split; auto. intros ->. destruct H as [H _]. apply not_hash; auto.
Qed.
Definition relation_of (line : string) : res (option (N * N * bool)) :=
  let parts := split_on "|" line in
  sink <- (p <- unwrap (nth_error parts 0) ;; parse_usize p) ;;
  source <- (p <- unwrap (nth_error parts 1) ;; parse_usize p) ;;
  kind <- (p <- unwrap (nth_error parts 2) ;; parse_i32 p) ;;
  peering <- (if Z.eqb kind (-1) then Ok false else if Z.eqb kind 0 then Ok true else Panic) ;;
  Ok (Some (sink, source, peering)).
Lemma get_edge_relation c s : c <> "#"%char -> get_edge_from_as_rel_line (String c s) = relation_of (String c s).
Proof. intro H. destruct c as [[] [] [] [] [] [] [] []]; try reflexivity. congruence. Qed.
Lemma edge_says line item : line_says line item -> get_edge_from_as_rel_line line = Ok (as_edge item).
Proof.
  destruct 1 as [|text|sa a sb b sk p rest Ha Hb Hk La Lb Hr]; [reflexivity|reflexivity|].
  destruct (id_text_head _ _ Ha) as (c & s' & Es & Hc). pose proof (id_text_free _ _ Ha) as Fa. rewrite Es. cbn [append]. rewrite get_edge_relation by auto.
  change (String c (s' ++ String "|" (sb ++ String "|" (sk ++ rest))))%string with ((String c s') ++ String "|" (sb ++ String "|" (sk ++ rest)))%string.
  rewrite <- Es. unfold relation_of. rewrite split_on_app by auto. rewrite split_on_app by (eapply id_text_free; eauto).
  assert (Hs : exists more, split_on "|" (sk ++ rest) = sk :: more).
  { pose proof (kind_text_free _ _ Hk). destruct Hr as [->|[cols ->]]; [rewrite append_nil, split_on_free by auto; eauto|rewrite split_on_app by auto; eauto]. }
  destruct Hs as [more ->]. cbn [nth_error unwrap bind].
  assert (Ea : parse_usize sa = Ok (N.of_nat a)) by (apply parse_usize_text; split; [auto|lia]).
  assert (Eb : parse_usize sb = Ok (N.of_nat b)) by (apply parse_usize_text; split; [auto|lia]).
  apply parse_i32_text in Hk. rewrite Ea, Eb, Hk. cbn [bind as_edge]. destruct p; reflexivity.
Qed.
Lemma edge_inv line : match get_edge_from_as_rel_line line with
  | Ok None => exists item, line_says line item /\ as_edge item = None
  | Ok (Some (a, b, p)) => (N.max a b + 1 < 2 ^ 64)%N -> exists item, line_says line item /\ as_edge item = Some (a, b, p)
  | Panic => True
  end.
Proof.
  destruct line as [|c s]; [exists Blank; split; [constructor|reflexivity]|]. destruct (ascii_dec c "#") as [->|Hc]; [exists (Comment s); split; [constructor|reflexivity]|].
  rewrite get_edge_relation by auto. remember (String c s) as line eqn:El. clear c s El Hc. unfold relation_of.
  destruct (split_on "|" line) as [|sa l] eqn:E; cbn [nth_error unwrap bind]; [exact I|]. destruct (parse_usize sa) as [a|] eqn:Ea; cbn [bind]; [|exact I].
  destruct l as [|sb l]; cbn [nth_error unwrap bind]; [exact I|]. destruct (parse_usize sb) as [b|] eqn:Eb; cbn [bind]; [|exact I].
  destruct l as [|sk l]; cbn [nth_error unwrap bind]; [exact I|]. destruct (parse_i32 sk) as [k|] eqn:Ek; cbn [bind]; [|exact I].
  assert (Hp : (if Z.eqb k (-1) then Ok false else if Z.eqb k 0 then Ok true else Panic) = Panic \/
    exists p : bool, (if Z.eqb k (-1) then Ok false else if Z.eqb k 0 then Ok true else Panic) = Ok p /\ k = if p then 0%Z else (-1)%Z).
  { destruct (Z.eqb_spec k (-1)); [right; exists false; auto|]. destruct (Z.eqb_spec k 0); [right; exists true; auto|left; auto]. }
  destruct Hp as [->|(p & -> & Hk)]; cbn [bind]; [exact I|]. intro Hb.
  destruct (split_on_inv _ _ _ _ E) as [Fa [[? _]|(s1 & -> & E1)]]; [discriminate|]. destruct (split_on_inv _ _ _ _ E1) as [Fb [[? _]|(s2 & -> & E2)]]; [discriminate|].
  destruct (split_on_inv _ _ _ _ E2) as [Fk H2].
  assert (Hr : exists rest, s2 = (sk ++ rest)%string /\ (rest = "" \/ exists columns, rest = String "|" columns)).
  { destruct H2 as [[_ ->]|(s3 & -> & _)]; [exists ""; rewrite append_nil; auto|exists (String "|" s3); eauto]. }
  destruct Hr as (rest & -> & Hr). rewrite <- (N2Nat.id a) in Ea |- *. rewrite <- (N2Nat.id b) in Eb |- *.
  exists (Relation (N.to_nat a) (N.to_nat b) p rest). split; [|reflexivity].
  apply parse_usize_text in Ea, Eb. subst k. apply parse_i32_text in Ek.
  apply (says_relation sa (N.to_nat a) sb (N.to_nat b) sk p rest); try tauto; rewrite N2Nat.id; lia.
Qed.

(** ** the lines of a text *)
Lemma strip_cr_keep s : ~ ends_with_cr s -> strip_cr s = s.
Proof.
  induction s as [|a s IH]; intro H; [reflexivity|]. cbn [strip_cr]. destruct s as [|b s'] eqn:Es.
  - destruct (Ascii.eqb_spec a carriage_return) as [->|]; [|reflexivity]. exfalso. apply H. exists "". reflexivity.
  - f_equal. apply IH. intros [t Ht]. apply H. exists (String a t). rewrite Ht. reflexivity.
Qed.
Lemma strip_cr_cut s : strip_cr (s ++ String carriage_return "") = s.
Proof. rewrite strip_cr_app by discriminate. cbn. apply append_nil. Qed.
Lemma ends_cr_dec s : ends_with_cr s \/ ~ ends_with_cr s.
Proof.
  destruct (snoc_cases s) as [->|(s' & c & ->)]; [right; intros [t Ht]; destruct t; discriminate|].
  destruct (ascii_dec c carriage_return) as [->|Hc]; [left; exists s'; auto|right]. intros [t Ht].
  assert (G : forall a b, (a ++ String c "" = b ++ String carriage_return "")%string -> c = carriage_return).
  { clear. induction a as [|x a IH]; intros [|y b] H; cbn in H; injection H; auto.
    - intros H1 _. destruct b; discriminate.
    - intros H1 _. destruct a; discriminate.
    - intros H1 _. eapply IH; eauto. }
  apply Hc, (G _ _ Ht).
Qed.
Lemma split_on_some c s : exists x l, split_on c s = x :: l.
Proof.
  induction s as [|a s (x & l & IH)]; [exists "", []; reflexivity|]. cbn [split_on]. rewrite IH. destruct (Ascii.eqb a c); eauto.
Qed.
Lemma lines_cons s t : free_of newline s -> lines (s ++ String newline t) = strip_cr s :: lines t.
Proof.
  intro H. unfold lines. rewrite split_on_app by auto. cbn [rev]. destruct (rev (split_on newline t)) as [|x l] eqn:E.
  - exfalso. assert (Hn : split_on newline t = []) by (rewrite <- (rev_involutive (split_on newline t)), E; reflexivity).
    destruct (split_on_some newline t) as (y & m & Hy). congruence.
  - cbn [app]. destruct x as [|a x]; rewrite rev_app_distr; reflexivity.
Qed.
Lemma text_lines_lines s ls : text_lines s ls -> ~ ends_with_cr s -> lines s = ls.
Proof.
  induction 1 as [|s Hs Hf|s t ls Hf Hc Ht IH|s t ls Hf Ht IH]; intro He.
  - reflexivity.
  - unfold lines. rewrite split_on_free by auto. cbn. destruct s; [congruence|]. cbn [rev map app]. now rewrite strip_cr_keep.
  - rewrite lines_cons by auto. rewrite strip_cr_keep by auto. f_equal. apply IH. intros [t' ->]. apply He. exists (s ++ String newline t')%string. rewrite append_assoc. reflexivity.
  - replace (s ++ String carriage_return (String newline t))%string with ((s ++ String carriage_return "") ++ String newline t)%string by (rewrite append_assoc; reflexivity).
    rewrite lines_cons by (rewrite free_of_app; split; [auto|]; cbn; split; [discriminate|auto]). rewrite strip_cr_cut. f_equal. apply IH.
    intros [t' ->]. apply He. exists (s ++ String carriage_return (String newline t'))%string. rewrite append_assoc. reflexivity.
Qed.
Lemma newline_cases s : free_of newline s \/ exists a b, s = (a ++ String newline b)%string /\ free_of newline a.
Proof.
  induction s as [|c s IH]; [left; exact I|]. destruct (ascii_dec c newline) as [->|Hc]; [right; exists "", s; split; [auto|exact I]|].
  destruct IH as [H|(a & b & -> & H)]; [left; cbn; auto|right]. exists (String c a), b. cbn. auto.
Qed.
Lemma text_lines_exist s : exists ls, text_lines s ls.
Proof.
  remember (String.length s) as k eqn:Ek. revert s Ek. induction k as [k IH] using lt_wf_ind. intros s ->.
  destruct (newline_cases s) as [H|(a & b & -> & H)].
  - destruct s as [|c s]; [exists []; constructor|]. exists [String c s]. constructor; [discriminate|auto].
  - destruct (IH (String.length b)) with (s := b) as [ls Hls]; auto; [rewrite append_length; cbn; lia|].
    destruct (ends_cr_dec a) as [[a' ->]|Ha].
    + exists (a' :: ls). rewrite append_assoc. cbn [append]. apply crlf_line; auto. apply free_of_app in H. apply H.
    + exists (a :: ls). constructor; auto.
Qed.

(** ** reading *)
Lemma add_edge_any items o a b p rest : (N.of_nat a + 1 < 2 ^ 64)%N -> (N.of_nat b + 1 < 2 ^ 64)%N -> read_inv items o ->
  exists o', add_edge o (N.of_nat a, N.of_nat b, p) = Ok o' /\ read_inv (items ++ [Relation a b p rest]) o'.
Proof.
  intros Ha Hb Hi. destruct (add_edge_ok items o a b p "") as (o' & E & H1 & H2 & H3); auto; [cbn; auto|]. exists o'. split; auto. split; [|split].
  - intros i j. rewrite H1, !said_link_snoc. reflexivity.
  - intros i H. apply H2. rewrite said_node_snoc in *. auto.
  - intros n' H. apply H3. intros i Hi'. apply H. rewrite said_node_snoc in *. auto.
Qed.
Lemma fold_says ls items : Forall2 line_says ls items -> forall done o, read_inv done o ->
  exists o', foldM read_line o ls = Ok o' /\ read_inv (done ++ items) o'.
Proof.
  induction 1 as [|line item ls items Hl Hls IH]; intros done o Hi; cbn [foldM]; [exists o; rewrite app_nil_r; auto|].
  unfold read_line at 1. rewrite (edge_says _ _ Hl). cbn [bind].
  assert (G : exists o1, (match as_edge item with Some edge => add_edge o edge | None => Ok o end) = Ok o1 /\ read_inv (done ++ [item]) o1).
  { destruct item as [|t|a b p rest]; cbn [as_edge].
    - exists o. split; auto. apply read_inv_skip; auto.
    - exists o. split; auto. apply read_inv_skip; auto.
    - inversion Hl; subst. apply add_edge_any; auto. }
  destruct G as (o1 & E1 & H1). rewrite E1. cbn [bind]. destruct (IH _ _ H1) as (o' & E & H). exists o'. split; auto. rewrite <- app_assoc in H. auto.
Qed.
Lemma fold_inv ls : forall o o', foldM read_line o ls = Ok o' -> exists items, Forall2 line_says ls items.
Proof.
  induction ls as [|line ls IH]; intros o o' H; [exists []; constructor|]. cbn [foldM] in H. unfold read_line at 1 in H.
  pose proof (edge_inv line) as He. destruct (get_edge_from_as_rel_line line) as [e|]; cbn [bind] in H; [|discriminate].
  assert (G : exists item, line_says line item).
  { destruct e as [[[a b] p]|]; [|destruct He as (item & Hi & _); eauto]. assert (Hb : (N.max a b + 1 < 2 ^ 64)%N).
    { unfold add_edge in H. destruct (N.ltb_spec (N.max a b + 1) (2 ^ 64)); auto. discriminate. }
    destruct (He Hb) as (item & Hi & _). eauto. }
  destruct G as [item Hi]. destruct (match e with Some edge => add_edge o edge | None => Ok o end) as [o1|]; cbn [bind] in H; [|discriminate].
  destruct (IH _ _ H) as [items Hs]. exists (item :: items). constructor; auto.
Qed.
Lemma read_any text ls : text_lines text ls -> ~ ends_with_cr text ->
  (forall items, Forall2 line_says ls items -> exists g, from_as_rel_string text = Ok g /\ ascending_links g /\
     (forall i j, link g i j <-> said_link items i j) /\ least_above (said_node items) (List.length g)) /\
  ((~ exists items, Forall2 line_says ls items) -> from_as_rel_string text = Panic).
Proof.
  intros Ht He. unfold from_as_rel_string. fold read_line. rewrite (text_lines_lines _ _ Ht He). split.
  - intros items Hs. destruct (fold_says _ _ Hs [] [] read_inv_nil) as (o & E & H1 & H2). rewrite E. cbn [bind app] in *. exists (map elements o). split; auto. split; [|split].
    + unfold ascending_links. apply Forall_map, Forall_forall. intros s _. apply elements_sorted.
    + intros i j. rewrite link_links. unfold links. rewrite <- elements_empty, map_nth, elements_spec. apply H1.
    + rewrite map_length. auto.
  - intro Hn. destruct (foldM read_line [] ls) as [o|] eqn:E; [|reflexivity]. exfalso. apply Hn. eapply fold_inv, E.
Qed.
Lemma lines_of_text text : ~ ends_with_cr text -> exists ls, text_lines text ls /\ forall ls', text_lines text ls' -> ls' = ls.
Proof.
  intro He. destruct (text_lines_exist text) as [ls H]. exists ls. split; auto. intros ls' H'. rewrite <- (text_lines_lines _ _ H He). symmetry. apply text_lines_lines; auto.
Qed.
Lemma read_any_iff text ls : text_lines text ls -> ~ ends_with_cr text ->
  (from_as_rel_string text = Panic <-> ~ exists items, Forall2 line_says ls items).
Proof.
  intros Ht He. destruct (read_any text ls Ht He) as [H1 H2]. split; [|exact H2]. intros Hp [items Hi]. destruct (H1 items Hi) as (g & E & _). congruence.
Qed.
Definition odd_text : string :=
  ("# AS relationships" ++ String carriage_return (String newline ("+007|2|-0|bgp" ++ String carriage_return (String newline (String newline "3|07|-01")))))%string.
Definition odd_lines : list string := ["# AS relationships"; "+007|2|-0|bgp"; ""; "3|07|-01"].
Definition odd_items : list as_item := [Comment " AS relationships"; Relation 7 2 true "|bgp"; Blank; Relation 3 7 false ""].
Lemma odd_read : text_lines odd_text odd_lines /\ ~ ends_with_cr odd_text /\ Forall2 line_says odd_lines odd_items.
Proof.
  split; [|split].
  - apply (crlf_line "# AS relationships"); [cbn; repeat split; discriminate|]. apply (crlf_line "+007|2|-0|bgp"); [cbn; repeat split; discriminate|].
    apply (lf_line ""); [exact I|intros [t Ht]; destruct t; discriminate|]. apply last_line; [discriminate|cbn; repeat split; discriminate].
  - destruct (ends_cr_dec odd_text) as [[t Ht]|H]; auto. exfalso. pose proof (f_equal strip_cr Ht) as H. rewrite strip_cr_cut in H. rewrite <- H in Ht. vm_compute in Ht. discriminate.
  - constructor; [constructor|]. constructor.
    { apply (says_relation "+007" 7 "2" 2 "-0" true "|bgp"); [|left|cbn| | |right; eexists; reflexivity]; try reflexivity.
      - right. exists "007". split; [reflexivity|]. apply parse_digits_numeral. reflexivity.
      - apply parse_digits_numeral. reflexivity.
      - right. exists "0". split; [right; reflexivity|]. apply parse_digits_numeral. reflexivity. }
    constructor; [constructor|]. constructor; [|constructor].
    apply (says_relation "3" 3 "07" 7 "-01" false ""); [left|left|cbn| | |left; reflexivity]; try reflexivity; try (apply parse_digits_numeral; reflexivity).
    exists "01". split; [reflexivity|]. apply parse_digits_numeral. reflexivity.
Qed.
