(** Proofs about CSV texts: records. *)
From Coq Require Import ZArith Ascii.
From Verif Require Export Spec_Csv P_CliText.
Local Open Scope string_scope.
Local Open Scope list_scope.
Local Open Scope nat_scope.

Lemma line_break_spec c : is_line_break c = true <-> ends_lines c.
Proof.
  unfold is_line_break, ends_lines. rewrite orb_true_iff, !Ascii.eqb_eq. reflexivity.
Qed.
Lemma line_break_false c : ~ ends_lines c -> is_line_break c = false.
Proof. intro H. destruct (is_line_break c) eqn:E; auto. apply line_break_spec in E. contradiction. Qed.
Lemma eqb_refl' c : Ascii.eqb c c = true.
Proof. apply Ascii.eqb_refl. Qed.
Lemma eqb_no a b : a <> b -> Ascii.eqb a b = false.
Proof. apply Ascii.eqb_neq. Qed.
Lemma comma_no_break : is_line_break delimiter = false. Proof. reflexivity. Qed.
Lemma comma_no_quote : Ascii.eqb delimiter quote = false. Proof. reflexivity. Qed.
Lemma quote_no_comma : Ascii.eqb quote delimiter = false. Proof. reflexivity. Qed.
Lemma quote_no_break : is_line_break quote = false. Proof. reflexivity. Qed.
Lemma break_no_comma c : ends_lines c -> Ascii.eqb c delimiter = false.
Proof. intros [-> | ->]; reflexivity. Qed.
Lemma break_no_quote c : ends_lines c -> Ascii.eqb c quote = false.
Proof. intros [-> | ->]; reflexivity. Qed.

(** ** texts are read as the grammar says *)
(** where a field ends *)
Definition boundary (rest : list ascii) : Prop := rest = [] \/ exists c s, rest = c :: s /\ (c = delimiter \/ ends_lines c).
Definition closing (f : list ascii) (fields : record) (rest : list ascii) : list record :=
  match rest with
  | [] => [rev (f :: fields)]
  | c :: s => if Ascii.eqb c delimiter then read_records StartField [] (f :: fields) s else rev (f :: fields) :: read_records StartRecord [] [] s
  end.
Definition inside (r : list ascii) : Prop := forall c, In c r -> c <> the_comma /\ ~ ends_lines c.
Lemma in_field_read r : forall acc fields rest, inside r -> boundary rest ->
  read_records InField acc fields (r ++ rest) = closing (rev acc ++ r) fields rest.
Proof.
  induction r as [|c r IH]; intros acc fields rest Hr Hb; cbn [app].
  - rewrite app_nil_r. destruct Hb as [-> | (c & s & -> & [-> | Hc])]; cbn [read_records closing]; rewrite ?eqb_refl', ?comma_no_quote; auto.
    rewrite (break_no_comma c Hc), (proj2 (line_break_spec c) Hc). auto.
  - destruct (Hr c) as [H1 H2]; [left; auto|]. cbn [read_records]. unfold the_comma in H1. rewrite (eqb_no c delimiter H1), (line_break_false c H2).
    rewrite IH; auto; [|intros d Hd; apply Hr; right; auto]. cbn [rev]. rewrite <- app_assoc. auto.
Qed.
Lemma in_quoted_read f t : doubled_quotes f t -> forall acc fields s, read_records InQuotedField acc fields (t ++ s) = read_records InQuotedField (rev f ++ acc) fields s.
Proof.
  induction 1 as [|c f t Hc H IH|f t H IH]; intros acc fields s; cbn [app rev].
  - auto.
  - cbn [read_records]. unfold the_quote in Hc. rewrite (eqb_no c quote Hc). rewrite IH, <- app_assoc. auto.
  - cbn [read_records]. change (Ascii.eqb the_quote quote) with true. cbn match. rewrite IH, <- app_assoc. auto.
Qed.
Lemma field_read f t : field_text f t -> forall fields rest, boundary rest -> read_records StartField [] fields (t ++ rest) = closing f fields rest.
Proof.
  intros [g [H1 H2]|g u r H [H1 H2]] fields rest Hb.
  - destruct g as [|c g].
    + cbn [app]. destruct Hb as [-> | (c & s & -> & [-> | Hc])]; cbn [read_records closing]; rewrite ?eqb_refl', ?comma_no_quote; auto.
      rewrite (break_no_quote c Hc), (break_no_comma c Hc), (proj2 (line_break_spec c) Hc). auto.
    + destruct (H1 c) as [Hc1 Hc2]; [left; auto|]. assert (Hq : c <> the_quote) by (intros ->; exact (H2 g eq_refl)).
      cbn [app read_records]. rewrite (eqb_no c quote Hq), (eqb_no c delimiter Hc1), (line_break_false c Hc2).
      rewrite in_field_read; auto. intros d Hd. apply H1. right. auto.
  - cbn [app read_records]. change (Ascii.eqb the_quote quote) with true. cbn match. rewrite <- app_assoc. rewrite (in_quoted_read g u H). cbn [app read_records].
    change (Ascii.eqb the_quote quote) with true. cbn match. rewrite app_nil_r. destruct r as [|c r].
    + cbn [app]. rewrite app_nil_r. destruct Hb as [-> | (c & s & -> & [-> | Hc])]; cbn [read_records closing]; rewrite ?eqb_refl', ?comma_no_quote, ?rev_involutive; auto.
      rewrite (break_no_quote c Hc), (break_no_comma c Hc), (proj2 (line_break_spec c) Hc). auto.
    + destruct (H1 c) as [Hc1 Hc2]; [left; auto|]. assert (Hq : c <> the_quote) by (intros ->; exact (H2 r eq_refl)).
      cbn [app read_records]. rewrite (eqb_no c quote Hq), (eqb_no c delimiter Hc1), (line_break_false c Hc2).
      rewrite in_field_read; auto; [|intros d Hd; apply H1; right; auto]. cbn [rev]. rewrite rev_involutive, <- app_assoc. auto.
Qed.
Lemma last_field_read f t : last_field_text f t -> forall fields, read_records StartField [] fields t = [rev (f :: fields)].
Proof.
  intros [g u H|g u H] fields.
  - rewrite <- (app_nil_r u). rewrite (field_read g u H); [reflexivity|left; auto].
  - cbn [read_records]. change (Ascii.eqb the_quote quote) with true. cbn match. rewrite <- (app_nil_r u), (in_quoted_read g u H). cbn [read_records].
    rewrite app_nil_r, rev_involutive. auto.
Qed.
Lemma comma_separated_cons t ts : ts <> [] -> comma_separated (t :: ts) = t ++ the_comma :: comma_separated ts.
Proof. destruct ts; [congruence|auto]. Qed.
Lemma fields_read r ts : Forall2 field_text r ts -> r <> [] -> forall fields rest, boundary rest ->
  read_records StartField [] fields (comma_separated ts ++ rest) = closing (last r []) (rev (removelast r) ++ fields) rest.
Proof.
  induction 1 as [|f t r ts Hf HF IH]; intros Hne fields rest Hb; [congruence|]. destruct HF as [|f' t' r ts Hf' HF].
  - cbn [comma_separated last removelast rev app]. now apply field_read.
  - rewrite comma_separated_cons by discriminate. rewrite <- app_assoc. cbn [app]. rewrite (field_read f t Hf); [|right; exists the_comma; eexists; split; [reflexivity|left; reflexivity]].
    cbn [closing]. change (Ascii.eqb the_comma delimiter) with true. cbn match. rewrite IH; auto; [|discriminate]. f_equal.
    change (removelast (f :: f' :: r)) with (f :: removelast (f' :: r)). cbn [rev]. rewrite <- !app_assoc. reflexivity.
Qed.
Lemma closing_line r c s : r <> [] -> ends_lines c -> closing (last r []) (rev (removelast r) ++ []) (c :: s) = r :: read_records StartRecord [] [] s.
Proof.
  intros Hr Hc. cbn [closing]. rewrite (break_no_comma c Hc). f_equal. cbn [rev]. rewrite app_nil_r, rev_involutive. symmetry. now apply app_removelast_last.
Qed.
(** a record does not begin with a line break *)
Lemma field_head f t c s : field_text f t -> t = c :: s -> ~ ends_lines c.
Proof. intros [g [H _]|g u r _ _] E; [subst; apply (H c); left; auto|injection E as <- _; intros [X|X]; discriminate X]. Qed.
Lemma fields_head r ts u c s : Forall2 field_text r ts -> (exists f, last_field_text f u) -> comma_separated (ts ++ [u]) = c :: s -> ~ ends_lines c.
Proof.
  intros HF (f & Hu) E. destruct HF as [|f' t r ts Hf HF].
  - cbn [app comma_separated] in E. destruct Hu as [g v Hv|g v Hv]; [exact (field_head _ _ _ _ Hv E)|]. injection E as <- _. intros [X|X]; discriminate X.
  - cbn [app] in E. rewrite comma_separated_cons in E by (destruct ts; discriminate). destruct t as [|d t].
    + injection E as <- _. intros [X|X]; discriminate X.
    + injection E as <- _. exact (field_head _ _ _ _ Hf eq_refl).
Qed.
Lemma start_record c s : ~ ends_lines c -> read_records StartRecord [] [] (c :: s) = read_records StartField [] [] (c :: s).
Proof. intro H. cbn [read_records]. rewrite (line_break_false c H). destruct (Ascii.eqb c quote); auto. Qed.
Lemma record_as_last r t : record_text r t -> last_record_text r t.
Proof.
  intros (Ht & ts & Hr & HF & ->). split; auto. assert (Hts : ts <> []) by (destruct HF; congruence).
  rewrite (app_removelast_last [] Hr) in HF. apply Forall2_app_inv_l in HF. destruct HF as (l1 & l2 & H1 & H2 & E). inversion H2 as [|x u y z Hx Hy]; subst. inversion Hy; subst.
  exists (removelast r), (last r []), l1, u. split; [now apply app_removelast_last|]. split; auto. split; [now constructor|auto].
Qed.
Lemma records_complete rs s : records_of rs s -> read_records StartRecord [] [] s = rs.
Proof.
  induction 1 as [|c s rs Hc H IH|r t c s rs Hr Hc H IH|r t Hr].
  - reflexivity.
  - cbn [read_records]. rewrite (proj2 (line_break_spec c) Hc). auto.
  - assert (Hl := record_as_last r t Hr). destruct Hl as (_ & r' & f & ts' & u & E1 & HF' & Hu & E2).
    destruct Hr as (Ht & ts & Hne & HF & ->). destruct (comma_separated ts) as [|d t'] eqn:Et; [congruence|].
    assert (Hd : ~ ends_lines d) by (symmetry in E2; exact (fields_head r' ts' u d t' HF' (ex_intro _ f Hu) E2)).
    cbn [app]. rewrite start_record by auto. change (d :: t' ++ c :: s) with ((d :: t') ++ c :: s). rewrite <- Et.
    rewrite (fields_read r ts HF Hne); [|right; exists c, s; auto]. rewrite closing_line by auto. now rewrite IH.
  - destruct Hr as (Ht & r' & f & ts & u & -> & HF & Hu & ->). destruct (comma_separated (ts ++ [u])) as [|d t'] eqn:Et; [congruence|].
    rewrite start_record by exact (fields_head r' ts u d t' HF (ex_intro _ f Hu) Et). rewrite <- Et. clear Ht Et d t'.
    assert (G : forall fields, read_records StartField [] fields (comma_separated (ts ++ [u])) = [rev fields ++ r' ++ [f]]).
    { induction HF as [|f' t r' ts Hf HF IH]; intro fields.
      - cbn [app comma_separated]. now rewrite (last_field_read f u Hu).
      - cbn [app]. rewrite comma_separated_cons by (destruct ts; discriminate). rewrite (field_read f' t Hf) by (right; exists the_comma; eexists; split; [reflexivity|left; reflexivity]).
        cbn [closing]. change (Ascii.eqb the_comma delimiter) with true. cbn match. rewrite IH. cbn [rev]. rewrite <- !app_assoc. reflexivity. }
    rewrite G. reflexivity.
Qed.

(** ** every text consists of records *)
Lemma dq_snoc_other f t c : doubled_quotes f t -> c <> the_quote -> doubled_quotes (f ++ [c]) (t ++ [c]).
Proof. induction 1 as [|d f t Hd H IH|f t H IH]; intro Hc; cbn; [apply dq_other; auto; constructor|apply dq_other; auto|apply dq_quote; auto]. Qed.
Lemma dq_snoc_quote f t : doubled_quotes f t -> doubled_quotes (f ++ [the_quote]) (t ++ [the_quote; the_quote]).
Proof. induction 1 as [|d f t Hd H IH|f t H IH]; cbn; [apply dq_quote; constructor|apply dq_other; auto|apply dq_quote; auto]. Qed.
(** what was read of the current field *)
Inductive begun : csv_state -> list ascii -> list ascii -> Prop :=
| begun_start : begun StartField [] []
| begun_bare f : bare f -> f <> [] -> begun InField f f
| begun_tail f t r : doubled_quotes f t -> bare r -> r <> [] -> begun InField (f ++ r) (the_quote :: t ++ the_quote :: r)
| begun_quoted f t : doubled_quotes f t -> begun InQuotedField f (the_quote :: t)
| begun_quote f t : doubled_quotes f t -> begun QuoteInQuotedField f (the_quote :: t ++ [the_quote]).
Lemma bare_nil : bare [].
Proof. split; [intros c []|discriminate]. Qed.
Lemma bare_snoc f c : bare f -> f <> [] -> c <> the_comma -> ~ ends_lines c -> bare (f ++ [c]).
Proof.
  intros [H1 H2] Hne Hc Hl. split.
  - intros d Hd. apply in_app_or in Hd. destruct Hd as [Hd|[<-|[]]]; auto.
  - intros t' E. destruct f as [|a f]; [congruence|]. injection E as -> _. exact (H2 f eq_refl).
Qed.
Lemma bare_one c : c <> the_comma -> ~ ends_lines c -> c <> the_quote -> bare [c].
Proof. intros H1 H2 H3. split; [intros d [<-|[]]; auto|]. intros t' E. injection E as -> _. congruence. Qed.
Lemma ended st f t : begun st f t -> st <> InQuotedField -> field_text f t.
Proof.
  intros [|g H1 H2|g u r H1 H2 H3|g u H|g u H] Hst; try congruence.
  - constructor. apply bare_nil.
  - now constructor.
  - now constructor.
  - rewrite <- (app_nil_r g). constructor; auto. apply bare_nil.
Qed.
Lemma ended_last st f t : begun st f t -> last_field_text f t.
Proof.
  intro H. destruct st; try (apply last_closed; apply (ended _ _ _ H); discriminate). inversion H; subst. now apply last_open.
Qed.
Lemma separated_snoc ts t c : comma_separated (ts ++ [t ++ [c]]) = comma_separated (ts ++ [t]) ++ [c].
Proof.
  induction ts as [|u ts IH]; [reflexivity|]. cbn [app]. rewrite !comma_separated_cons by (destruct ts; discriminate). rewrite IH, <- app_assoc. reflexivity.
Qed.
Lemma separated_next ts t : comma_separated ((ts ++ [t]) ++ [[]]) = comma_separated (ts ++ [t]) ++ [the_comma].
Proof.
  induction ts as [|u ts IH]; [reflexivity|]. cbn [app]. rewrite !comma_separated_cons by (destruct ts; discriminate). rewrite IH, <- app_assoc. reflexivity.
Qed.
Lemma Forall2_snoc {A B} (R : A -> B -> Prop) l m a b : Forall2 R l m -> R a b -> Forall2 R (l ++ [a]) (m ++ [b]).
Proof. intros H1 H2. apply Forall2_app; auto. Qed.
Lemma records_sound s : records_of (read_records StartRecord [] [] s) s /\
  forall st r ts f t, Forall2 field_text r ts -> begun st f t -> comma_separated (ts ++ [t]) <> [] ->
    records_of (read_records st (rev f) (rev r) s) (comma_separated (ts ++ [t]) ++ s).
Proof.
  induction s as [|c s [IHa IHb]].
  - split; [constructor|]. intros st r ts f t HF Hb Hne. rewrite app_nil_r.
    assert (E : read_records st (rev f) (rev r) [] = [r ++ [f]]).
    { cbn [read_records rev]. rewrite !rev_involutive. inversion Hb; subst; reflexivity. }
    rewrite E. apply records_last. split; auto. exists r, f, ts, t. split; auto. split; auto. split; auto. now apply (ended_last st).
  - assert (Hfield : forall st r ts f t, Forall2 field_text r ts -> begun st f t -> comma_separated (ts ++ [t]) <> [] -> st <> InQuotedField ->
      records_of (read_records StartField [] (rev (rev f) :: rev r) s) (comma_separated (ts ++ [t]) ++ the_comma :: s) /\
      (ends_lines c -> records_of (rev (rev (rev f) :: rev r) :: read_records StartRecord [] [] s) (comma_separated (ts ++ [t]) ++ c :: s))).
    { intros st r ts f t HF Hb Hne Hst. assert (Hf := ended st f t Hb Hst). rewrite !rev_involutive. split.
      - assert (H := IHb StartField (r ++ [f]) (ts ++ [t]) [] [] (Forall2_snoc _ _ _ _ _ HF Hf) begun_start).
        rewrite separated_next, <- app_assoc in H. rewrite rev_app_distr in H. apply H. destruct (comma_separated (ts ++ [t])); discriminate.
      - intro Hc. cbn [rev]. rewrite rev_involutive. apply records_line; auto. split; auto. exists (ts ++ [t]). split; [destruct r; discriminate|].
        split; auto. now apply Forall2_snoc. }
    assert (Hnext : forall st' r ts f t f', Forall2 field_text r ts -> begun st' f' (t ++ [c]) -> rev f' = c :: rev f \/ f' = f ->
      records_of (read_records st' (rev f') (rev r) s) (comma_separated (ts ++ [t]) ++ c :: s)).
    { intros st' r ts f t f' HF Hb _. assert (H := IHb st' r ts f' (t ++ [c]) HF Hb). rewrite separated_snoc, <- app_assoc in H.
      apply H. destruct (comma_separated (ts ++ [t])); discriminate. }
    assert (Hb : forall st r ts f t, Forall2 field_text r ts -> begun st f t -> comma_separated (ts ++ [t]) <> [] ->
      records_of (read_records st (rev f) (rev r) (c :: s)) (comma_separated (ts ++ [t]) ++ c :: s)).
    { intros st r ts f t HF Hb Hne. destruct (Ascii.eqb_spec c the_quote) as [-> | Hq].
      - change the_quote with quote in *. inversion Hb as [E1 E2 E3|g H1 H2 E1 E2 E3|g u v H1 H2 H3 E1 E2 E3|g u H1 E1 E2 E3|g u H1 E1 E2 E3]; subst; cbn [read_records];
          rewrite ?eqb_refl', ?quote_no_comma, ?quote_no_break.
        + apply (Hnext InQuotedField r ts [] [] []); auto. apply (begun_quoted [] []). constructor.
        + change (quote :: rev t) with (rev [quote] ++ rev t). rewrite <- rev_app_distr. apply (Hnext InField r ts t t (t ++ [quote])); auto.
          * apply begun_bare; [|destruct t; discriminate]. apply bare_snoc; auto; [discriminate|intros [X|X]; discriminate X].
          * left. now rewrite rev_app_distr.
        + change (quote :: rev (g ++ v)) with (rev [quote] ++ rev (g ++ v)). rewrite <- rev_app_distr.
          apply (Hnext InField r ts (g ++ v) (the_quote :: u ++ the_quote :: v) ((g ++ v) ++ [quote])); auto; [|left; now rewrite rev_app_distr].
          rewrite <- app_assoc. cbn [app]. rewrite <- app_assoc. cbn [app]. apply begun_tail; auto; [|destruct v; discriminate].
          apply bare_snoc; auto; [discriminate|intros [X|X]; discriminate X].
        + apply (Hnext QuoteInQuotedField r ts f (the_quote :: u) f); auto. now apply begun_quote.
        + change (quote :: rev f) with (rev [quote] ++ rev f). rewrite <- rev_app_distr.
          apply (Hnext InQuotedField r ts f (the_quote :: u ++ [the_quote]) (f ++ [quote])); auto; [|left; now rewrite rev_app_distr].
          cbn [app]. rewrite <- app_assoc. cbn [app]. apply begun_quoted. now apply dq_snoc_quote.
      - assert (Hq' := eqb_no c quote Hq). destruct (Ascii.eqb_spec c the_comma) as [-> | Hc].
        + change the_comma with delimiter in *. inversion Hb as [E1 E2 E3|g H1 H2 E1 E2 E3|g u v H1 H2 H3 E1 E2 E3|g u H1 E1 E2 E3|g u H1 E1 E2 E3]; subst; cbn [read_records];
            rewrite ?eqb_refl', ?comma_no_quote.
          * apply (Hfield StartField r ts [] []); auto. discriminate.
          * apply (Hfield InField r ts t t); auto. discriminate.
          * apply (Hfield InField r ts (g ++ v) (the_quote :: u ++ the_quote :: v)); auto. discriminate.
          * change (delimiter :: rev f) with (rev [delimiter] ++ rev f). rewrite <- rev_app_distr. apply (Hnext InQuotedField r ts f (the_quote :: u) (f ++ [delimiter])); auto.
            { cbn [app]. apply begun_quoted. apply dq_snoc_other; auto. }
            { left. now rewrite rev_app_distr. }
          * apply (Hfield QuoteInQuotedField r ts f (the_quote :: u ++ [the_quote])); auto. discriminate.
        + assert (Hc' := eqb_no c delimiter Hc). destruct (is_line_break c) eqn:El.
          * assert (Hl := proj1 (line_break_spec c) El).
            inversion Hb as [E1 E2 E3|g H1 H2 E1 E2 E3|g u v H1 H2 H3 E1 E2 E3|g u H1 E1 E2 E3|g u H1 E1 E2 E3]; subst; cbn [read_records]; rewrite ?Hq', ?Hc', ?El.
            { apply (Hfield StartField r ts [] []); auto. discriminate. }
            { apply (Hfield InField r ts t t); auto. discriminate. }
            { apply (Hfield InField r ts (g ++ v) (the_quote :: u ++ the_quote :: v)); auto. discriminate. }
            { change (c :: rev f) with (rev [c] ++ rev f). rewrite <- rev_app_distr. apply (Hnext InQuotedField r ts f (the_quote :: u) (f ++ [c])); auto.
              - cbn [app]. apply begun_quoted. apply dq_snoc_other; auto.
              - left. now rewrite rev_app_distr. }
            { apply (Hfield QuoteInQuotedField r ts f (the_quote :: u ++ [the_quote])); auto. discriminate. }
          * assert (Hl : ~ ends_lines c) by (intro X; apply line_break_spec in X; congruence).
            inversion Hb as [E1 E2 E3|g H1 H2 E1 E2 E3|g u v H1 H2 H3 E1 E2 E3|g u H1 E1 E2 E3|g u H1 E1 E2 E3]; subst; cbn [read_records]; rewrite ?Hq', ?Hc', ?El.
            { apply (Hnext InField r ts [] [] [c]); auto. cbn [app]. apply begun_bare; [now apply bare_one|discriminate]. }
            { change (c :: rev t) with (rev [c] ++ rev t). rewrite <- rev_app_distr. apply (Hnext InField r ts t t (t ++ [c])); auto; [|left; now rewrite rev_app_distr].
              apply begun_bare; [now apply bare_snoc|destruct t; discriminate]. }
            { change (c :: rev (g ++ v)) with (rev [c] ++ rev (g ++ v)). rewrite <- rev_app_distr.
              apply (Hnext InField r ts (g ++ v) (the_quote :: u ++ the_quote :: v) ((g ++ v) ++ [c])); auto; [|left; now rewrite rev_app_distr].
              rewrite <- app_assoc. cbn [app]. rewrite <- app_assoc. cbn [app]. apply begun_tail; auto; [now apply bare_snoc|destruct v; discriminate]. }
            { change (c :: rev f) with (rev [c] ++ rev f). rewrite <- rev_app_distr. apply (Hnext InQuotedField r ts f (the_quote :: u) (f ++ [c])); auto.
              - cbn [app]. apply begun_quoted. apply dq_snoc_other; auto.
              - left. now rewrite rev_app_distr. }
            { change (c :: rev f) with (rev [c] ++ rev f). rewrite <- rev_app_distr.
              apply (Hnext InField r ts f (the_quote :: u ++ [the_quote]) (f ++ [c])); auto; [|left; now rewrite rev_app_distr].
              cbn [app]. rewrite <- app_assoc. cbn [app]. apply begun_tail; auto; [now apply bare_one|discriminate]. } }
    split; auto. cbn [read_records]. destruct (is_line_break c) eqn:El.
    + apply records_empty_line; auto. now apply line_break_spec.
    + assert (Hl : ~ ends_lines c) by (intro X; apply line_break_spec in X; congruence).
      destruct (Ascii.eqb_spec c quote) as [-> | Hq].
      * apply (Hnext InQuotedField [] [] [] [] []); auto. apply (begun_quoted [] []). constructor.
      * destruct (Ascii.eqb_spec c delimiter) as [-> | Hc].
        { apply (IHb StartField [[]] [[]] [] []); [constructor; [constructor; apply bare_nil|constructor]|constructor|discriminate]. }
        apply (Hnext InField [] [] [] [] [c]); auto. cbn [app]. apply begun_bare; [now apply bare_one|discriminate].
Qed.
Lemma records_spec rs s : records_of rs s <-> read_records StartRecord [] [] s = rs.
Proof. split; [apply records_complete|]. intros <-. apply records_sound. Qed.
