(** Proofs about CSV texts: what is left of a text that was cut off. *)
From Coq Require Import ZArith Ascii Lia.
From Verif Require Import P_CsvRuns P_CsvRows P_CsvCells P_Csv P_Durations P_Experiments M_CliText.
Local Open Scope string_scope.
Local Open Scope list_scope.
Local Open Scope nat_scope.

(** ** records *)
Lemma quoted_cut f t : doubled_quotes f t -> forall a b acc fields, t ++ [the_quote] = a ++ b -> exists g, read_records InQuotedField acc fields a = [rev (g :: fields)].
Proof.
  induction 1 as [|c f t Hc H IH|f t H IH]; intros a b acc fields E; destruct a as [|d a]; try (cbn [read_records]; eauto; fail); cbn [app] in E; apply cons_both in E; destruct E as [<- E].
  - cbn [app] in E. symmetry in E. apply app_eq_nil in E. destruct E as [-> _]. cbn [read_records]. change (Ascii.eqb the_quote quote) with true. cbn match. eauto.
  - cbn [read_records]. unfold the_quote in Hc. rewrite (eqb_no c quote Hc). apply (IH a b). auto.
  - cbn [read_records]. change (Ascii.eqb the_quote quote) with true. cbn match. destruct a as [|d a]; [cbn [read_records]; eauto|]. cbn [app] in E. apply cons_both in E. destruct E as [<- E].
    cbn [read_records]. change (Ascii.eqb the_quote quote) with true. cbn match. apply (IH a b). auto.
Qed.
Lemma field_cut f t a b : strict_field f t -> t = a ++ b -> forall fields, exists g, read_records StartField [] fields a = [rev (g :: fields)].
Proof.
  intros H E fields. destruct H as [f H|f t H].
  - exists a. rewrite <- (app_nil_r a) at 1. rewrite (field_read a a); [reflexivity| |left; auto]. constructor. subst f. split.
    + intros c Hc. destruct (H c) as (H1 & _ & H3); [apply in_app_iff; auto|]. auto.
    + intros t' ->. destruct (H the_quote) as (_ & H2 & _); [left; auto|]. auto.
  - destruct a as [|c a]; [cbn [read_records]; eauto|]. cbn [app] in E. apply cons_both in E. destruct E as [<- E]. cbn [read_records]. change (Ascii.eqb the_quote quote) with true. cbn match.
    eapply quoted_cut; eauto.
Qed.
Lemma fields_cut r ts : Forall2 strict_field r ts -> r <> [] -> forall a b fields, comma_separated ts = a ++ b ->
  exists j g, j < List.length r /\ read_records StartField [] fields a = [rev fields ++ firstn j r ++ [g]].
Proof.
  induction 1 as [|f t r ts Hf HF IH]; intros Hne a b fields E; [congruence|]. clear Hne.
  assert (First : forall b', t = a ++ b' -> exists j g, j < List.length (f :: r) /\ read_records StartField [] fields a = [rev fields ++ firstn j (f :: r) ++ [g]]).
  { intros b' E'. destruct (field_cut f t a b' Hf E' fields) as (g & Eg). exists 0, g. split; [cbn; lia|]. exact Eg. }
  destruct HF as [|f' t' r ts Hf' HF]; [apply (First b); exact E|]. rewrite comma_separated_cons in E by discriminate.
  apply app_eq_app in E. destruct E as (l & [(E1 & E2)|(E1 & E2)]).
  - apply (First l). auto.
  - destruct l as [|c l]; [apply (First []); rewrite app_nil_r in *; auto|]. cbn [app] in E2. apply cons_both in E2. destruct E2 as [<- E2]. subst a.
    rewrite (field_read f t (strict_field_text _ _ Hf)); [|right; exists the_comma, l; split; [reflexivity|left; reflexivity]]. cbn [closing]. change (Ascii.eqb the_comma delimiter) with true. cbn match.
    destruct (IH ltac:(discriminate) l b (f :: fields) E2) as (j & g & Hj & Eg). exists (S j), g. split; [cbn in *; lia|]. rewrite Eg. cbn [rev firstn]. rewrite <- app_assoc. reflexivity.
Qed.
Lemma fields_begin r ts c s : Forall2 strict_field r ts -> comma_separated ts = c :: s -> ~ ends_lines c.
Proof.
  intros HF E. destruct HF as [|f t r ts Hf HF]; [discriminate|]. destruct HF as [|f' t' r ts Hf' HF].
  - cbn [comma_separated] in E. exact (field_head _ _ _ _ (strict_field_text _ _ Hf) E).
  - rewrite comma_separated_cons in E by discriminate. destruct t as [|d t].
    + cbn [app] in E. injection E as <- _. intros [X|X]; discriminate X.
    + injection E as <- _. exact (field_head _ _ _ _ (strict_field_text _ _ Hf) eq_refl).
Qed.
(** part of a line *)
Lemma line_cut r line a b : r <> [] -> strict_line r line -> line = a ++ b -> b <> [] ->
  read_records StartRecord [] [] a = [] \/ exists j g, j < List.length r /\ read_records StartRecord [] [] a = [firstn j r ++ [g]].
Proof.
  intros Hr (ts & HF & ->) E Hb. assert (Ec : exists b', comma_separated ts = a ++ b').
  { rewrite (app_removelast_last "000"%char Hb), app_assoc in E. apply app_inj_tail in E. destruct E as [E _]. exists (removelast b). exact E. }
  destruct Ec as (b' & Ec). destruct a as [|c a]; [left; reflexivity|]. right. assert (Hc := fields_begin r ts c (a ++ b') HF Ec).
  rewrite start_record by auto. destruct (fields_cut r ts HF Hr (c :: a) b' [] Ec) as (j & g & Hj & Eg). exists j, g. auto.
Qed.
Lemma strict_cut rs s : Forall (fun r => 2 <= List.length r) rs -> strict_csv rs s -> forall a b, s = a ++ b -> exists k last,
  read_records StartRecord [] [] a = firstn k rs ++ last /\
  (last = [] \/ exists r j g, nth_error rs k = Some r /\ j < List.length r /\ last = [firstn j r ++ [g]]).
Proof.
  intros Hl (lines & HF & ->). induction HF as [|r line rs lines Hr HF IH]; intros a b E.
  - cbn [concat] in E. symmetry in E. apply app_eq_nil in E. destruct E as [-> _]. exists 0, []. auto.
  - inversion Hl as [|? ? L1 L2]; subst. cbn [concat] in E. assert (Hne : r <> []) by (intros ->; cbn in L1; lia).
    apply app_eq_app in E. destruct E as (l & [(E1 & E2)|(E1 & E2)]).
    + destruct l as [|c l].
      * rewrite app_nil_r in E1. cbn [app] in E2. subst a. exists 1, []. split; [|auto]. cbn [firstn]. rewrite app_nil_r.
        assert (X : records_of [r] line).
        { apply strict_records; [constructor; auto|]. exists [line]. split; [constructor; auto|symmetry; apply app_nil_r]. }
        apply records_spec. exact X.
      * destruct (line_cut r line a (c :: l) Hne Hr E1 ltac:(discriminate)) as [E0|(j & g & Hj & Eg)].
        -- exists 0, []. auto.
        -- exists 0, [firstn j r ++ [g]]. split; auto. right. exists r, j, g. auto.
    + subst a. destruct (IH L2 l b E2) as (k & last & Ek & Hlast). exists (S k), last. split; [|exact Hlast]. cbn [firstn app].
      rewrite <- Ek. destruct Hr as (ts & HT & ->). rewrite <- app_assoc. cbn [app].
      assert (X : records_of (r :: read_records StartRecord [] [] l) (comma_separated ts ++ ascii_of_nat 10 :: l)).
      { apply records_line; [|left; reflexivity|apply records_spec; reflexivity]. split.
        - destruct HT as [|f t r ts Hf [|f' t' r' ts' Hf' HT]]; [cbn in L1; lia..|]. apply separated_nonempty.
        - exists ts. split; auto. split; auto. clear -HT. induction HT; constructor; auto. now apply strict_field_text. }
      apply records_spec in X. exact X.
Qed.

(** ** rows *)
Lemma firstn_length_lt {A} n (l : list A) : n < List.length l -> List.length (firstn n l) = n.
Proof. intro H. apply firstn_length_le. lia. Qed.
Lemma firstn_removelast {A} (l : list A) n : S n = List.length l -> firstn n l = removelast l.
Proof. intro H. rewrite removelast_firstn_len. f_equal. lia. Qed.
Lemma Forall2_of_map {A B} (g : B -> A) (R : A -> B -> Prop) rows : (forall b, In b rows -> R (g b) b) -> Forall2 R (map g rows) rows.
Proof. induction rows as [|b rows IH]; intro H; cbn [map]; constructor; [apply H; left; auto|apply IH; intros; apply H; right; auto]. Qed.
Section Written.
Context {A : Type} (row_in : list (list ascii) -> list (list ascii) -> A -> Prop) (header : list string) (record_of : A -> list (list ascii)).
Context (Hh : 2 <= List.length header) (Hl : forall a, List.length (record_of a) = List.length header).
Context (Hu : forall r a a', List.length r = List.length header -> row_in (map bytes header) r a -> row_in (map bytes header) r a' -> a = a').
Lemma written_cut rows s t rows' : Forall (fun a => row_in (map bytes header) (record_of a) a) rows ->
  write_csv header (map record_of rows) = s ++ t -> says_rows row_in s rows' ->
  exists k, rows' = firstn k rows \/ exists a a' g, nth_error rows k = Some a /\ rows' = firstn k rows ++ [a'] /\ row_in (map bytes header) (removelast (record_of a) ++ [g]) a'.
Proof using Hh Hl Hu.
  intros HF Ew Hs. destruct rows as [|a0 rows0].
  { exists 0. left. cbn [map write_csv] in Ew. symmetry in Ew. apply app_eq_nil in Ew. destruct Ew as [-> _]. destruct Hs as [(_ & ->)|(hd & rs & R & _)]; auto.
    apply records_spec in R. discriminate. }
  set (rows := a0 :: rows0) in *. assert (Hm : map record_of rows <> []) by discriminate.
  assert (Hc := write_csv_strict header (map record_of rows) Hm). rewrite Ew in Hc.
  assert (Hlen : Forall (fun r => 2 <= List.length r) (map bytes header :: map record_of rows)).
  { constructor; [rewrite map_length; auto|]. apply Forall_forall. intros r Hr. apply in_map_iff in Hr. destruct Hr as (b & <- & _). rewrite Hl. auto. }
  destruct (strict_cut _ _ Hlen Hc s t eq_refl) as (k & last & Er & Hlast). destruct Hs as [(R & ->)|(hd & rs & R & F)]; [exists 0; auto|].
  apply records_spec in R. rewrite R in Er. rewrite Forall_forall in HF.
  assert (Found : forall rs rows', Forall2 (fun r a => List.length r = List.length (map bytes header) /\ row_in (map bytes header) r a) rs rows' -> forall j, rs = firstn j (map record_of rows) -> rows' = firstn j rows).
  { intros rs1 rows1 F1 j E1. rewrite firstn_map in E1. subst rs1. eapply Forall2_function; [exact F1| |].
    - intros r a a' [_ H1] [L H2]. rewrite map_length in L. eauto.
    - apply Forall2_of_map. intros b Hb. rewrite map_length, Hl. split; auto. apply HF. rewrite <- (firstn_skipn j rows). apply in_app_iff. auto. }
  destruct k as [|k].
  - cbn [firstn app] in Er. destruct Hlast as [->|(r & j & g & _ & _ & ->)]; [discriminate|]. injection Er as _ ->. inversion F; subst. exists 0. auto.
  - cbn [firstn app] in Er. injection Er as -> ->. destruct Hlast as [->|(r & j & g & Hr & Hj & ->)].
    + rewrite app_nil_r in F. exists k. left. eapply Found; eauto.
    + cbn [nth_error] in Hr. apply Forall2_app_inv_l in F. destruct F as (l1 & l2 & F1 & F2 & ->). inversion F2 as [|? a' ? ? [L Ha] F3]; subst. inversion F3; subst. clear F2 F3.
      rewrite nth_error_map in Hr. destruct (nth_error rows k) as [a|] eqn:Ea; [|discriminate]. injection Hr as <-. exists k. right. exists a, a', g. split; auto.
      split; [f_equal; eapply Found; eauto|]. rewrite app_length, firstn_length_lt, map_length in L by auto. cbn [List.length] in L.
      rewrite firstn_removelast in Ha; [exact Ha|]. rewrite Hl. lia.
Qed.
End Written.

(** ** the last column *)
Lemma cells_other name header r g last_name : List.length r = List.length header -> header <> [] -> last header "" = last_name -> name <> last_name ->
  cells_of name (combine header (removelast r ++ [g])) = cells_of name (combine header r).
Proof.
  intros L Hn El Hne. assert (Hr : r <> []) by (intros ->; destruct header; [congruence|discriminate L]).
  rewrite (app_removelast_last "" Hn), El. rewrite (app_removelast_last [] Hr) at 2.
  assert (Ll : List.length (removelast header) = List.length (removelast r)) by (rewrite !removelast_firstn_len, !firstn_length; lia).
  assert (X : forall l l' a b, List.length l = List.length l' -> cells_of name (combine (l ++ [last_name]) (l' ++ [a])) = cells_of name (combine (l ++ [last_name]) (l' ++ [b]))).
  { clear - Hne. unfold cells_of. induction l as [|h l IH]; intros [|v l'] a b L; try discriminate L; cbn [app combine filter fst].
    - destruct (String.eqb_spec last_name name); [congruence|]. reflexivity.
    - destruct (String.eqb h name); cbn [map]; [f_equal|]; apply IH; cbn in L; lia. }
  apply X. auto.
Qed.
Section Columns.
Context (parse_float : list ascii -> option f64) (reads_hex skips_mark : bool).
Definition alike (columns columns' : list (string * list ascii)) : Prop := forall name, name <> "analysis_duration_total" -> cells_of name columns' = cells_of name columns.
Lemma required_alike {A} (parse : list ascii -> option A) name C C' : alike C C' -> name <> "analysis_duration_total" -> required_cell parse name C' = required_cell parse name C.
Proof. intros H Hn. unfold required_cell. rewrite (H name Hn). auto. Qed.
Lemma optional_alike {A} (parse : list ascii -> option A) name C C' : alike C C' -> name <> "analysis_duration_total" -> optional_cell parse name C' = optional_cell parse name C.
Proof. intros H Hn. unfold optional_cell. rewrite (H name Hn). auto. Qed.
Lemma group_alike prefix C C' : alike C C' -> In prefix ["orgs_"; "isps_"; "ctries_"] -> group_from_columns parse_float reads_hex prefix C' = group_from_columns parse_float reads_hex prefix C.
Proof.
  intros H Hp. unfold group_from_columns.
  repeat match goal with |- context [optional_cell ?p ?n C'] => rewrite (optional_alike p n C C' H) by (destruct Hp as [<-|[<-|[<-|[]]]]; discriminate) end. reflexivity.
Qed.
Lemma output_alike C C' o o' : alike C C' -> output_from_columns parse_float reads_hex C = Some o -> output_from_columns parse_float reads_hex C' = Some o' -> same_but_total o o'.
Proof.
  intros H E E'. unfold output_from_columns in *.
  repeat match type of E' with context [required_cell ?p ?n C'] =>
    match n with "analysis_duration_total" => fail 1 | _ => rewrite (required_alike p n C C' H ltac:(discriminate)) in E' end end.
  rewrite (group_alike "orgs_" C C' H) in E' by (cbn; auto). rewrite (group_alike "isps_" C C' H) in E' by (cbn; auto). rewrite (group_alike "ctries_" C C' H) in E' by (cbn; auto).
  repeat match type of E with
  | match ?e with Some _ => _ | None => None end = _ => let X := fresh "X" in destruct e eqn:X; [|discriminate E]
  end.
  destruct (required_cell parse_float "analysis_duration_total" C'); [|discriminate E']. apply some_eq in E, E'. subst o o'. repeat split.
Qed.
Lemma experiment_alike C C' d d' : alike C C' -> experiment_from_columns parse_float reads_hex C = Some d -> experiment_from_columns parse_float reads_hex C' = Some d' ->
  same_experiment_but_total d d'.
Proof.
  intros H E E'. unfold experiment_from_columns in *.
  repeat match type of E' with context [required_cell ?p ?n C'] =>
    match n with "analysis_duration_total" => fail 1 | _ => rewrite (required_alike p n C C' H ltac:(discriminate)) in E' end end.
  repeat match type of E with
  | match ?e with Some _ => _ | None => None end = _ => let X := fresh "X" in destruct e eqn:X; [|discriminate E]
  end.
  destruct (required_cell parse_float "analysis_duration_total" C'); [|discriminate E']. apply some_eq in E, E'. subst d d'. repeat split.
Qed.
Lemma cut_length {A} (r : list A) g (n : nat) : List.length r = S n -> List.length (removelast r ++ [g]) = S n.
Proof. intro H. rewrite app_length, removelast_firstn_len, firstn_length. cbn [List.length]. lia. Qed.
Lemma no_mark_before (s t u : list ascii) : after_mark skips_mark (s ++ t) (s ++ t) -> after_mark skips_mark s u -> u = s.
Proof.
  unfold after_mark. cbv zeta. set (mark := map ascii_of_nat [239; 187; 191]). intros H [(H1 & H2)|(_ & ->)]; auto. exfalso.
  destruct H as [(_ & H)|(H & _)].
  - apply (f_equal (@List.length ascii)) in H. rewrite !app_length in H. change (List.length mark) with 3 in H. lia.
  - destruct H as [H|H]; [congruence|]. apply (H (u ++ t)). rewrite H2, <- app_assoc. auto.
Qed.
Section Format.
Context (float_text : f64 -> list ascii) (Hf : readable_format float_text parse_float).
Lemma outputs_interrupted rows s t rows' : Forall output_fits rows -> write_outputs float_text rows = s ++ t -> says_outputs parse_float reads_hex skips_mark s rows' ->
  first_rows same_but_total rows rows'.
Proof using Hf.
  intros HF Ew (u & Hm & Hs). assert (M := outputs_mark float_text skips_mark rows). rewrite Ew in M. apply (no_mark_before s t u M) in Hm. subst u.
  assert (W : Forall (fun a => output_in (fun x t => parse_float t = Some x) reads_hex (map bytes output_header) (output_record float_text a) a) rows)
    by (revert HF; apply Forall_impl; intros a Ha; apply output_written; auto).
  assert (L : forall o, List.length (output_record float_text o) = List.length (map bytes output_header)) by reflexivity.
  destruct (written_cut (output_in (fun x t => parse_float t = Some x) reads_hex) output_header (output_record float_text) ltac:(cbn; lia) L) with (rows := rows) (s := s) (t := t) (rows' := rows')
    as (k & [H|(a & a' & g & Ha & E & H)]); auto.
  - intros r a a' Hl H1 H2. rewrite <- (map_length bytes) in Hl. apply output_spec in H1, H2; auto. congruence.
  - exists k. auto.
  - exists k. right. exists a, a'. split; auto. split; auto. rewrite Forall_forall in W. assert (Wa := W a (nth_error_In _ _ Ha)).
    apply output_spec in Wa; [|apply L]. apply output_spec in H; [|apply cut_length; exact (L a)].
    eapply output_alike; [|exact Wa|exact H]. intros name Hn. unfold P_CsvCells.named. rewrite map_bytes_back. apply (cells_other name output_header _ g "analysis_duration_total"); auto. discriminate.
Qed.
Lemma experiments_interrupted rows s t rows' : Forall experiment_fits rows -> write_experiments float_text rows = s ++ t -> says_experiments parse_float reads_hex skips_mark s rows' ->
  first_rows same_experiment_but_total rows rows'.
Proof using Hf.
  intros HF Ew (u & Hm & Hs). assert (M := experiments_mark float_text skips_mark rows). rewrite Ew in M. apply (no_mark_before s t u M) in Hm. subst u.
  assert (W : Forall (fun a => experiment_in (fun x t => parse_float t = Some x) reads_hex (map bytes experiment_header) (experiment_record float_text a) a) rows)
    by (revert HF; apply Forall_impl; intros a Ha; apply experiment_written; auto).
  assert (L : forall o, List.length (experiment_record float_text o) = List.length (map bytes experiment_header)) by reflexivity.
  destruct (written_cut (experiment_in (fun x t => parse_float t = Some x) reads_hex) experiment_header (experiment_record float_text) ltac:(cbn; lia) L) with (rows := rows) (s := s) (t := t) (rows' := rows')
    as (k & [H|(a & a' & g & Ha & E & H)]); auto.
  - intros r a a' Hl H1 H2. rewrite <- (map_length bytes) in Hl. apply experiment_spec in H1, H2; auto. congruence.
  - exists k. auto.
  - exists k. right. exists a, a'. split; auto. split; auto. rewrite Forall_forall in W. assert (Wa := W a (nth_error_In _ _ Ha)).
    apply experiment_spec in Wa; [|apply L]. apply experiment_spec in H; [|apply cut_length; exact (L a)].
    eapply experiment_alike; [|exact Wa|exact H]. intros name Hn. unfold P_CsvCells.named. rewrite map_bytes_back. apply (cells_other name experiment_header _ g "analysis_duration_total"); auto. discriminate.
Qed.
End Format.
End Columns.

(** ** going on after an interruption *)
Lemma first_rows_in {A B} (same : A -> A -> Prop) (g : A -> B) rows rows' : first_rows same rows rows' -> (forall a a', same a a' -> g a = g a') ->
  exists n, map g rows' = map g (firstn n rows).
Proof.
  intros (k & [->|(a & a' & Ha & Hs & ->)]) H; [eauto|]. exists (S k). apply nth_error_split in Ha. destruct Ha as (l1 & l2 & -> & <-).
  assert (X : forall m, firstn (List.length l1 + m) (l1 ++ a :: l2) = l1 ++ firstn m (a :: l2)) by (intro; apply firstn_app_2).
  replace (S (List.length l1)) with (List.length l1 + 1) by lia. rewrite X. rewrite <- (Nat.add_0_r (List.length l1)) at 1. rewrite X. cbn [firstn]. rewrite app_nil_r, !map_app. cbn [map].
  rewrite (H a a' Hs). auto.
Qed.
Lemma In_firstn {A} n (l : list A) a : In a (firstn n l) -> In a l.
Proof. intro H. rewrite <- (firstn_skipn n l). apply in_app_iff. auto. Qed.
Section Resume.
Context (E : ext) (digest : json -> string) (files : path -> option json).
Lemma resume_run clock paths ign inputs old : extract_inputs paths ign = Ok (Some inputs) -> distinct_labels in_label inputs ->
  (forall o, In o old -> exists i, In i inputs /\ bulk_analyze E digest files clock i = Ok o) ->
  bulk_main E digest files clock paths ign (File (Some old)) true = bulk_main E digest files clock paths ign Stdout false.
Proof.
  intros H2 Hd2 Hold. unfold bulk_main. rewrite H2. cbn [bind]. do 2 f_equal. apply write_rows_ext. destruct (outputs_spec old) as [Hm Hin].
  destruct (tasklist_spec inputs (outputs_by_label old) Hm) as (Hs & Ht2 & Ht3). destruct (tasklist_spec inputs [] empty_map) as (Hs' & _ & Ht').
  apply (labels_align task_label task_label); auto. intro L. rewrite (Ht' L) by (intros []).
  destruct (bt_get L (outputs_by_label old)) as [o|] eqn:Eg.
  - apply bt_get_spec in Eg; [|apply sorted_keys_nodup, Hm]. rewrite (Ht2 L o Eg). apply Hin, latest_in in Eg. destruct Eg as [Ho Hol].
    destruct (Hold o Ho) as (i & Hi & Ei). assert (Hl := bulk_analyze_label _ _ _ _ _ _ Ei). rewrite Hol in Hl.
    rewrite (distinct_with_label in_label L inputs i Hd2 Hi (eq_sym Hl)). cbn. constructor; [|constructor]. cbn. auto.
  - apply bt_get_none in Eg. rewrite (Ht3 L Eg). induction (map Analyze (with_label in_label L inputs)); constructor; auto.
Qed.
Lemma resume_any_clock clock1 clock2 clock3 paths1 paths2 ign1 ign2 inputs1 inputs2 rows complete old n :
  extract_inputs paths1 ign1 = Ok (Some inputs1) -> extract_inputs paths2 ign2 = Ok (Some inputs2) ->
  incl inputs1 inputs2 -> distinct_labels in_label inputs2 ->
  bulk_main E digest files clock1 paths1 ign1 (File None) false = Ok (Some (rows, complete)) -> map untimed old = map untimed (firstn n rows) ->
  same_outcome (bulk_main E digest files clock2 paths2 ign2 (File (Some old)) true) (bulk_main E digest files clock3 paths2 ign2 Stdout false).
Proof.
  intros H1 H2 Hi D2 Hr Eo. apply untimed_outcome. rewrite <- !main_untimed. cbn [untimed_target option_map]. rewrite Eo.
  apply resume_run with inputs2; auto. intros o Ho. apply in_map_iff in Ho. destruct Ho as (o' & <- & Ho'). apply In_firstn in Ho'.
  destruct (complete_run E digest files clock1 paths1 ign1 inputs1 (File None) false rows complete H1 Hr) as [_ Hc]. destruct (Hc o' Ho') as [F|(i & Hii & Er)].
  - destruct F as [F _]; discriminate F.
  - exists i. split; auto. rewrite (analyze_untimed E digest files clock1), Er. reflexivity.
Qed.
End Resume.
Lemma but_total_untimed o o' : same_but_total o o' -> untimed o = untimed o'.
Proof.
  intros (S & _). unfold same_results in S. unfold untimed. destruct o, o'. cbn in S.
  repeat match goal with H : _ /\ _ |- _ => destruct H end. subst. reflexivity.
Qed.
Lemma experiment_but_total_untimed d d' : same_experiment_but_total d d' -> untimed_row d = untimed_row d'.
Proof.
  intros ((S & S') & _). unfold experiment_of in S. unfold untimed_row. injection S as S0 S1. destruct d, d'. cbn in S0, S1, S'.
  repeat match goal with H : _ /\ _ |- _ => destruct H end. subst. reflexivity.
Qed.
Lemma untimed_fits o o' : untimed o = untimed o' -> output_fits o -> output_fits o'.
Proof. intros H F. apply untimed_same in H. unfold same_results in H. unfold output_fits in *.
  destruct H as (H1 & H2 & H3 & H4 & H5 & H6 & H7 & H8 & H9 & H10 & H11 & H12 & H13 & H14 & H15 & H16).
  rewrite <- H3, <- H4, <- H5, <- H7, <- H8, <- H10, <- H11, <- H13, <- H14, <- H15. exact F. Qed.
Lemma untimed_experiment_fits o o' : untimed_row o = untimed_row o' -> experiment_fits o -> experiment_fits o'.
Proof.
  intros H F. apply untimed_row_same in H. unfold same_numbers, experiment_of in H. unfold experiment_fits in *. destruct H as (H1 & H2 & H3 & H4 & _). injection H1 as H1 H0.
  rewrite <- H0, <- H1, <- H2, <- H3, <- H4. exact F.
Qed.
Lemma map_fits {A B} (g : A -> B) (P : A -> Prop) l l' : map g l = map g l' -> (forall a b, g a = g b -> P b -> P a) -> Forall P l' -> Forall P l.
Proof.
  revert l'. induction l as [|a l IH]; intros [|b l'] H HP HF; try discriminate; constructor; cbn [map] in H; apply cons_both in H; destruct H as [H1 H2]; inversion HF; subst; eauto.
Qed.
Lemma Forall_firstn {A} (P : A -> Prop) n l : Forall P l -> Forall P (firstn n l).
Proof. intro H. apply Forall_forall. intros a Ha. rewrite Forall_forall in H. apply H. eapply In_firstn; eauto. Qed.
Section Text.
Context (parse_float : list ascii -> option f64) (reads_hex skips_mark : bool) (float_text : f64 -> list ascii) (Hf : readable_format float_text parse_float).
Notation says := (says_outputs parse_float reads_hex skips_mark).
Notation says' := (says_experiments parse_float reads_hex skips_mark).
Notation bulk := (bulk_csv_main float_text parse_float reads_hex skips_mark).
Notation experiments := (experiment_csv_main float_text parse_float reads_hex skips_mark).
Lemma resume_text E digest files clock1 clock2 clock3 paths1 paths2 ign1 ign2 inputs1 inputs2 s t complete :
  extract_inputs paths1 ign1 = Ok (Some inputs1) -> extract_inputs paths2 ign2 = Ok (Some inputs2) -> incl inputs1 inputs2 -> distinct_labels in_label inputs2 ->
  (forall clock i row, In i inputs2 -> bulk_analyze E digest files clock i = Ok row -> output_fits row) ->
  bulk E digest files clock1 paths1 ign1 (To_path None) false = Ok (Some (s ++ t, complete)) ->
  (forall rows, ~ says s rows) /\ bulk E digest files clock2 paths2 ign2 (To_path (Some s)) true = Ok None \/
  same_text_outcome says (bulk E digest files clock2 paths2 ign2 (To_path (Some s)) true) (bulk E digest files clock3 paths2 ign2 To_terminal false).
Proof using Hf.
  intros H1 H2 Hincl D2 Hfit Hr. unfold bulk_csv_main at 1 in Hr.
  destruct (bulk_main E digest files clock1 paths1 ign1 (File None) false) as [[[rows1 c1]|]|] eqn:Eb; try discriminate. cbn [res_map option_map fst snd] in Hr.
  injection Hr as Ew _.
  assert (F1 : Forall output_fits rows1).
  { apply Forall_Forall. intros row Hrow. destruct (complete_run E digest files clock1 paths1 ign1 inputs1 (File None) false rows1 c1 H1 Eb) as [_ Hc].
    destruct (Hc row Hrow) as [[F _]|(i & Hin & Er)]; [discriminate F|]. eapply Hfit; [apply Hincl; exact Hin|exact Er]. }
  destruct (read_outputs parse_float reads_hex skips_mark s) as [old|] eqn:Er.
  2: { left. split; [intros rows Hs; apply reads_says in Hs; congruence|]. unfold bulk_csv_main. rewrite Er, H2. reflexivity. }
  right. assert (Hs := Er). apply reads_says in Hs. assert (Hfr := outputs_interrupted parse_float reads_hex skips_mark float_text Hf rows1 s t old F1 Ew Hs).
  destruct (first_rows_in _ untimed _ _ Hfr but_total_untimed) as (n & En).
  assert (Fo : Forall output_fits old) by (apply (map_fits untimed _ old (firstn n rows1) En); [intros a b Hab; apply untimed_fits; auto|apply Forall_firstn; auto]).
  assert (S := resume_any_clock E digest files clock1 clock2 clock3 paths1 paths2 ign1 ign2 inputs1 inputs2 rows1 c1 old n H1 H2 Hincl D2 Eb En).
  unfold bulk_csv_main. rewrite Er.
  destruct (bulk_main E digest files clock2 paths2 ign2 (File (Some old)) true) as [[[rows2 c2]|]|] eqn:E2;
  destruct (bulk_main E digest files clock3 paths2 ign2 Stdout false) as [[[rows3 c3]|]|] eqn:E3; cbn [same_outcome] in S; try contradiction; cbn [res_map option_map fst snd same_text_outcome]; auto.
  destruct S as [S ->]. split; auto. exists rows2, rows3. split; [|split; [|auto]]; apply (written_says float_text parse_float reads_hex skips_mark Hf); apply Forall_Forall; intros row Hrow.
  - destruct (complete_run E digest files clock2 paths2 ign2 inputs2 (File (Some old)) true rows2 c3 H2 E2) as [_ Hc].
    destruct (Hc row Hrow) as [(_ & old' & Eo & F)|(i & Hin & Ei)]; [|eapply Hfit; eauto]. injection Eo as <-. rewrite Forall_forall in Fo. apply Fo. exact F.
  - destruct (complete_run E digest files clock3 paths2 ign2 inputs2 Stdout false rows3 c3 H2 E3) as [_ Hc].
    destruct (Hc row Hrow) as [[F _]|(i & Hin & Ei)]; [discriminate F|]. eapply Hfit; eauto.
Qed.

(** the performance experiment *)
Lemma experiment_untimed d : experiment_of (untimed_row d) = experiment_of d.
Proof. reflexivity. Qed.
Lemma NoDup_firstn {A} n (l : list A) : NoDup l -> NoDup (firstn n l).
Proof. intro H. rewrite <- (firstn_skipn n l) in H. revert H. generalize (skipn n l). intros m H. clear -H. induction (firstn n l) as [|a k IH]; [constructor|]. inversion H as [|? ? H1 H2]; subst. constructor; [intro Y; apply H1; apply in_app_iff; auto|auto]. Qed.
Lemma resume_experiments E clock max2 runs2 stellar old rows2 : ext_ok E -> (Z.of_nat max2 <= 2 ^ 53)%Z -> NoDup (map experiment_of old) ->
  (forall d, In d old -> requested max2 runs2 stellar (experiment_of d) /\ run_experiment E clock (experiment_of d) stellar = Ok d) ->
  experiment_main E clock max2 runs2 stellar true (OutputFile (Some old)) = Some (rows2, true) ->
  exists rows, experiment_main E clock max2 runs2 stellar false (OutputFile None) = Some (rows, true) /\ Permutation rows2 rows.
Proof.
  intros HE Hmax D1 Hlift E2.
  destruct (main_ok E HE clock max2 runs2 stellar true (OutputFile (Some old)) old Hmax eq_refl) as (r2 & M2 & _ & D2 & I2). rewrite E2 in M2. injection M2 as <-.
  destruct (main_ok E HE clock max2 runs2 stellar false (OutputFile None) [] Hmax eq_refl) as (r3 & M3 & _ & D3 & I3). exists r3. split; auto.
  eapply (rows_perm E clock max2 runs2 stellar old rows2 max2 runs2 r3 []); auto.
  assert (Hnil : forall k d, ~ last_row [] k d) by (intros k d (pre & post & He & _); destruct pre; discriminate).
  intro d. unfold row_for. split.
  - intros [Hl|(H1 & H2 & H3)].
    + right. apply last_row_in in Hl. destruct (Hlift d (proj1 Hl)) as [L1 L2]. split; auto.
    + right. split; auto.
  - intros [Hl|(H1 & H2 & H3)]; [destruct (Hnil _ _ Hl)|].
    assert (Hdec : (exists d', In d' old /\ experiment_of d' = experiment_of d) \/ (forall d', In d' old -> experiment_of d' <> experiment_of d)).
    { clear. induction old as [|a l IH]; [right; intros d' []|]. assert (De : {experiment_of a = experiment_of d} + {experiment_of a <> experiment_of d}) by (decide equality; apply Nat.eq_dec).
      destruct De as [He|Hne]; [left; exists a; split; [now left|auto]|]. destruct IH as [(d' & A & B)|IH]; [left; exists d'; split; [now right|auto]|].
      right. intros d' [<-|Hd']; auto. }
    destruct Hdec as [(d' & Hd' & He)|Hno]; [left|right; auto]. destruct (Hlift d' Hd') as [_ L2]. rewrite He, H3 in L2. injection L2 as <-. now apply nodup_last.
Qed.
Lemma resume_experiments_text E clock1 clock2 clock3 max1 runs1 max2 runs2 stellar s t : ext_ok E ->
  (Z.of_nat max2 <= 2 ^ 53)%Z -> max1 <= max2 -> runs1 <= runs2 ->
  (forall clock k row, requested max2 runs2 stellar k -> run_experiment E clock k stellar = Ok row -> experiment_fits row) ->
  experiments E clock1 max1 runs1 stellar false (To_path None) = Some (s ++ t, true) ->
  (forall rows, ~ says' s rows) /\ experiments E clock2 max2 runs2 stellar true (To_path (Some s)) = None \/
  exists s2 s3 rows2 rows rows', experiments E clock2 max2 runs2 stellar true (To_path (Some s)) = Some (s2, true) /\
    experiments E clock3 max2 runs2 stellar false (To_path None) = Some (s3, true) /\
    says' s2 rows2 /\ says' s3 rows /\ Permutation rows2 rows' /\ Forall2 same_numbers rows' rows.
Proof using Hf.
  intros HE Hz Hm Hr Hfit H1. unfold experiment_csv_main at 1 in H1.
  assert (Hreq : forall k, requested max1 runs1 stellar k -> requested max2 runs2 stellar k) by (intros k (A & B & C); split; [lia|split; [lia|auto]]).
  destruct (experiments_run E HE clock1 max1 runs1 stellar false (OutputFile None) [] ltac:(lia) eq_refl (Forall_nil _)) as (rows1 & M1 & F1).
  { intros k row Hk. apply Hfit. auto. }
  rewrite M1 in H1. cbn [option_map fst snd] in H1. injection H1 as Ew.
  destruct (read_experiments parse_float reads_hex skips_mark s) as [old|] eqn:Er.
  2: { left. split; [intros rows Hs; apply reads_says' in Hs; congruence|]. unfold experiment_csv_main. rewrite Er. reflexivity. }
  right. assert (Hs := Er). apply reads_says' in Hs. assert (Hfr := experiments_interrupted parse_float reads_hex skips_mark float_text Hf rows1 s t old F1 Ew Hs).
  destruct (first_rows_in _ untimed_row _ _ Hfr experiment_but_total_untimed) as (n & En).
  assert (Fo : Forall experiment_fits old) by (apply (map_fits untimed_row _ old (firstn n rows1) En); [intros a b Hab; apply untimed_experiment_fits; auto|apply Forall_firstn; auto]).
  destruct (experiments_run E HE clock2 max2 runs2 stellar true (OutputFile (Some old)) old Hz eq_refl Fo) as (rows2 & M2 & F2); [intros k row; apply Hfit|].
  destruct (experiments_run E HE clock3 max2 runs2 stellar false (OutputFile None) [] Hz eq_refl (Forall_nil _)) as (rows3 & M3 & F3); [intros k row; apply Hfit|].
  assert (U2 := experiment_main_untimed E clock2 max2 runs2 stellar true (OutputFile (Some old))). rewrite M2 in U2. cbn [untimed_destination option_map fst snd] in U2.
  destruct (main_ok E HE clock1 max1 runs1 stellar false (OutputFile None) [] ltac:(lia) eq_refl) as (r1 & M1' & _ & D1 & I1). rewrite M1 in M1'. injection M1' as <-.
  assert (X : exists rows, experiment_main E no_watch max2 runs2 stellar false (OutputFile None) = Some (rows, true) /\ Permutation (map untimed_row rows2) rows).
  { apply (resume_experiments E no_watch max2 runs2 stellar (map untimed_row old)); auto.
    - rewrite map_map. cbn. assert (Y : map experiment_of (map untimed_row old) = map experiment_of (map untimed_row (firstn n rows1))) by (rewrite En; auto).
      rewrite !map_map in Y. cbn in Y. change (NoDup (map experiment_of old)). change (map experiment_of old = map experiment_of (firstn n rows1)) in Y. rewrite Y, <- firstn_map. apply NoDup_firstn. auto.
    - intros d Hd. rewrite En in Hd. apply in_map_iff in Hd. destruct Hd as (d0 & <- & Hd0). apply In_firstn in Hd0. rewrite experiment_untimed. apply I1 in Hd0.
      destruct Hd0 as [(pre & post & Y & _)|(Y1 & _ & Y2)]; [destruct pre; discriminate|]. split; auto. rewrite (run_untimed E clock1), Y2. reflexivity. }
  destruct X as (rows & U3 & P). assert (U4 := experiment_main_untimed E clock3 max2 runs2 stellar false (OutputFile None)). cbn [untimed_destination option_map fst snd] in U4. rewrite U3, M3 in U4.
  cbn [option_map fst snd] in U4. injection U4 as ->.
  destruct (Permutation_map_inv untimed_row rows2 (Permutation_sym P)) as (l & El & Pl).
  exists (write_experiments float_text rows2), (write_experiments float_text rows3), rows2, rows3, l.
  unfold experiment_csv_main. rewrite Er, M2, M3. split; [reflexivity|]. split; [reflexivity|].
  split; [apply written_says'; auto|]. split; [apply written_says'; auto|]. split; [exact Pl|].
  clear -El. revert l El. induction rows3 as [|d rows' IH]; intros [|d' l] El; try discriminate; [constructor|]. cbn [map] in El. apply cons_eq in El. destruct El as [E1 E2].
  constructor; auto. apply untimed_row_same. auto.
Qed.
End Text.
