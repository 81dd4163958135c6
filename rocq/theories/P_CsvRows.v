(** Proofs about CSV texts: rows and writing. *)
From Coq Require Import ZArith Ascii.
From Verif Require Export P_Durations P_CsvCells.
Local Open Scope string_scope.
Local Open Scope list_scope.
Local Open Scope nat_scope.

(** ** writing *)
Lemma write_field_strict f : strict_field f (write_field f).
Proof.
  unfold write_field. destruct (needs_quotes f) eqn:E.
  - apply strict_quoted. clear E. induction f as [|c f IH]; cbn [flat_map app]; [constructor|]. destruct (Ascii.eqb c quote) eqn:E.
    + apply Ascii.eqb_eq in E. subst c. cbn [app]. apply dq_quote. auto.
    + cbn [app]. apply dq_other; auto. apply Ascii.eqb_neq in E. exact E.
  - apply strict_bare. intros c Hc. unfold needs_quotes in E.
    assert (X : Ascii.eqb c delimiter || Ascii.eqb c quote || is_line_break c = false).
    { destruct (Ascii.eqb c delimiter || Ascii.eqb c quote || is_line_break c) eqn:Y; auto. rewrite <- E. symmetry. apply existsb_exists. exists c. auto. }
    apply orb_false_iff in X. destruct X as [X X3]. apply orb_false_iff in X. destruct X as [X1 X2]. apply Ascii.eqb_neq in X1, X2.
    split; [exact X1|]. split; [exact X2|]. intro H. apply line_break_spec in H. congruence.
Qed.
Lemma join_separated l : join [delimiter] l = comma_separated l.
Proof. induction l as [|a [|b l] IH]; auto. cbn [join comma_separated] in *. rewrite IH. reflexivity. Qed.
Lemma write_record_strict r : strict_line r (write_record r).
Proof.
  exists (map write_field r). split.
  - induction r; cbn [map]; constructor; auto. apply write_field_strict.
  - unfold write_record. rewrite join_separated. reflexivity.
Qed.
Lemma write_csv_strict header records : records <> [] -> strict_csv (map bytes header :: records) (write_csv header records).
Proof.
  intro H. unfold write_csv. destruct records as [|r records]; [congruence|]. exists (map write_record (map bytes header :: r :: records)).
  split; [|rewrite flat_map_concat_map; reflexivity]. generalize (map bytes header :: r :: records). intro l. induction l; cbn [map]; constructor; auto. apply write_record_strict.
Qed.
Lemma strict_field_text f t : strict_field f t -> field_text f t.
Proof.
  intro H. destruct H as [f H|f t H].
  - apply field_bare. split.
    + intros c Hc. destruct (H c Hc) as (H1 & _ & H3). auto.
    + intros t' ->. destruct (H the_quote (or_introl eq_refl)) as (_ & X & _). congruence.
  - replace f with (f ++ []) by apply app_nil_r. apply (field_quoted f t []); auto. split; [intros c []|discriminate].
Qed.
Lemma separated_nonempty a b l : comma_separated (a :: b :: l) <> [].
Proof. cbn [comma_separated]. destruct a; discriminate. Qed.
Lemma strict_records rs s : Forall (fun r => 2 <= List.length r) rs -> strict_csv rs s -> records_of rs s.
Proof.
  intros Hr (lines & HF & ->). revert Hr. induction HF as [|r line rs lines (ts & H1 & ->) HF IH]; intro Hr; cbn [concat]; [constructor|].
  inversion Hr as [|? ? Hl Hr']; subst. rewrite <- app_assoc. cbn [app]. apply records_line; [|left; reflexivity|auto]. clear - H1 Hl.
  assert (Lt : List.length r = List.length ts) by (clear Hl; induction H1; cbn; auto). split.
  - destruct ts as [|a [|b ts]]; cbn in Lt; [lia..|]. apply separated_nonempty.
  - exists ts. split; [destruct r; cbn in Hl; [lia|discriminate]|]. split; auto. eapply Forall2_impl; [|exact H1]. apply strict_field_text.
Qed.

Ltac cells :=
  repeat match goal with x := _ : list (string * list ascii) |- _ => unfold x; clear x end;
  cbv [cells_of combine output_header group_header output_record group_record experiment_header experiment_record map filter append app fst snd String.eqb Ascii.eqb Bool.eqb];
  reflexivity.

Section Rows.
Context (float_text : f64 -> list ascii) (parse_float : list ascii -> option f64) (reads_hex skips_mark : bool).
Notation reads_float := (fun x s => parse_float s = Some x).
Notation output_in' := (output_in (fun x s => parse_float s = Some x) reads_hex).
Notation experiment_in' := (experiment_in (fun x s => parse_float s = Some x) reads_hex).

(** ** rows are read as specified *)
Lemma float_spec s x : parse_float s = Some x <-> reads_float x s.
Proof. reflexivity. Qed.
Lemma usize_spec s n : parse_cell_usize reads_hex s = Some n <-> number_cell reads_hex n s.
Proof. apply parse_cell_usize_spec. Qed.

Lemma group_spec header r prefix g : List.length r = List.length header ->
  (group_from_columns parse_float reads_hex prefix (named header r) = Some g <-> group_in reads_float reads_hex header r prefix g).
Proof.
  intro L. unfold group_from_columns, group_in.
  pose proof (fun n => optional_spec _ _ usize_spec header r n) as On. pose proof (fun n => optional_spec _ _ float_spec header r n) as Of.
  split.
  - intro H.
    repeat match type of H with
    | match ?e with Some _ => _ | None => None end = _ => let E := fresh "E" in destruct e eqn:E; [|discriminate H]
    end.
    apply some_eq in H. subst g. cbn [gr_top_tier_size gr_mbs_min gr_mbs_max gr_mbs_mean gr_mss_min gr_mss_max gr_mss_mean gr_mq_min gr_mq_max gr_mq_mean].
    repeat split; first [apply On; assumption | apply Of; assumption].
  - intro H. repeat match goal with X : _ /\ _ |- _ => destruct X end.
    repeat match goal with
    | X : option_in (number_cell reads_hex) _ _ _ _ |- _ => apply On in X; [|exact L]; rewrite X; clear X
    | X : option_in reads_float _ _ _ _ |- _ => apply Of in X; [|exact L]; rewrite X; clear X
    end.
    destruct g. reflexivity.
Qed.
Lemma output_spec header r o : List.length r = List.length header ->
  (output_from_columns parse_float reads_hex (named header r) = Some o <-> output_in' header r o).
Proof.
  intro L. unfold output_from_columns, output_in.
  pose proof (fun n => required_spec _ _ usize_spec header r n) as On. pose proof (fun n => required_spec _ _ float_spec header r n) as Of.
  pose proof (fun n => required_spec _ _ parse_bool_spec header r n) as Ob. pose proof (fun n => required_spec _ _ parse_string_spec header r n) as Os.
  pose proof (fun p => group_spec header r p) as Og.
  split.
  - intro H.
    repeat match type of H with
    | match ?e with Some _ => _ | None => None end = _ => let E := fresh "E" in destruct e eqn:E; [|discriminate H]
    end.
    apply some_eq in H. subst o. repeat split; first [apply Os; assumption | apply Ob; assumption | apply On; assumption | apply Of; assumption | idtac].
    all: match goal with |- option_in _ _ _ (?p ++ _) _ => match goal with X : group_from_columns _ _ p _ = Some _ |- _ => apply Og in X; [|exact L]; apply X end end.
  - intro H. repeat match goal with X : _ /\ _ |- _ => destruct X end.
    repeat match goal with
    | X : value_in (number_cell reads_hex) _ _ _ _ |- _ => apply On in X; [|exact L]; rewrite X; clear X
    | X : value_in flag_cell _ _ _ _ |- _ => apply Ob in X; [|exact L]; rewrite X; clear X
    | X : value_in text_cell _ _ _ _ |- _ => apply Os in X; [|exact L]; rewrite X; clear X
    | X : value_in reads_float _ _ _ _ |- _ => apply Of in X; [|exact L]; rewrite X; clear X
    | X : group_in _ _ _ _ _ _ |- _ => apply Og in X; [|exact L]; rewrite X; clear X
    end.
    destruct o as [? ? ? ? ? ? ? ? ? ? ? ? ? ? ? ? []]. reflexivity.
Qed.
Lemma experiment_spec header r d : List.length r = List.length header ->
  (experiment_from_columns parse_float reads_hex (named header r) = Some d <-> experiment_in' header r d).
Proof.
  intro L. unfold experiment_from_columns, experiment_in.
  pose proof (fun n => required_spec _ _ usize_spec header r n) as On. pose proof (fun n => required_spec _ _ float_spec header r n) as Of.
  split.
  - intro H.
    repeat match type of H with
    | match ?e with Some _ => _ | None => None end = _ => let E := fresh "E" in destruct e eqn:E; [|discriminate H]
    end.
    apply some_eq in H. subst d. repeat split; first [apply On; assumption | apply Of; assumption].
  - intro H. repeat match goal with X : _ /\ _ |- _ => destruct X end.
    repeat match goal with
    | X : value_in (number_cell reads_hex) _ _ _ _ |- _ => apply On in X; [|exact L]; rewrite X; clear X
    | X : value_in reads_float _ _ _ _ |- _ => apply Of in X; [|exact L]; rewrite X; clear X
    end.
    destruct d as [? ? ? ? ? ? ? ? []]. reflexivity.
Qed.
Lemma read_outputs_spec s rows :
  read_outputs parse_float reads_hex skips_mark s = Some rows <-> exists s', after_mark skips_mark s s' /\ says_rows output_in' s' rows.
Proof. apply read_csv_spec. apply output_spec. Qed.
Lemma read_experiments_spec s rows :
  read_experiments parse_float reads_hex skips_mark s = Some rows <-> exists s', after_mark skips_mark s s' /\ says_rows experiment_in' s' rows.
Proof. apply read_csv_spec. apply experiment_spec. Qed.

(** ** rows are written as specified *)
Context (Hf : readable_format float_text parse_float).
Lemma nat_text_cell n : fits n -> nat_text n <> [] /\ parse_cell_usize reads_hex (nat_text n) = Some n.
Proof using.
  intro H. assert (X : digits_of (nat_text n) (N.of_nat n)).
  { assert (Y := print_N_spec (N.of_nat n)). apply integer_of_spec in Y. apply digits_of_spec. destruct Y as (Y1 & Y2 & Y3 & _). auto. }
  split.
  - apply digits_of_spec in X. apply X.
  - apply usize_spec. split; auto. exists [], (nat_text n). split; [left; auto|]. left. auto.
Qed.
Lemma float_cell x : float_text x <> [] /\ parse_float (float_text x) = Some x.
Proof using Hf. apply Hf. Qed.
Lemma required_written {A} (parse : list ascii -> option A) name columns v a : cells_of name columns = [v] -> parse v = Some a ->
  required_cell parse name columns = Some a.
Proof using. unfold required_cell. intros -> H. auto. Qed.
Lemma optional_written {A} (parse : list ascii -> option A) (text_of : A -> list ascii) name columns o : cells_of name columns = [text_or_empty text_of o] ->
  match o with Some a => text_of a <> [] /\ parse (text_of a) = Some a | None => True end ->
  optional_cell parse name columns = Some o.
Proof using.
  unfold optional_cell. intros -> H. destruct o as [a|]; cbn [text_or_empty]; auto. destruct H as [H1 H2]. destruct (text_of a); [congruence|]. rewrite H2. auto.
Qed.
Lemma optional_nat name columns o : cells_of name columns = [text_or_empty nat_text o] -> option_fits o ->
  optional_cell (parse_cell_usize reads_hex) name columns = Some o.
Proof using. intros H Ho. eapply optional_written; [exact H|]. destruct o as [n|]; auto. apply nat_text_cell. exact Ho. Qed.
Lemma optional_float name columns o : cells_of name columns = [text_or_empty float_text o] -> optional_cell parse_float name columns = Some o.
Proof using Hf. intros H. eapply optional_written; [exact H|]. destruct o as [n|]; [apply float_cell|exact I]. Qed.
Lemma required_nat name columns n : cells_of name columns = [nat_text n] -> fits n -> required_cell (parse_cell_usize reads_hex) name columns = Some n.
Proof using. intros H Ho. eapply required_written; [exact H|]. apply nat_text_cell. exact Ho. Qed.
Lemma required_float name columns x : cells_of name columns = [float_text x] -> required_cell parse_float name columns = Some x.
Proof using Hf. intros H. eapply required_written; [exact H|]. apply float_cell. Qed.

Lemma map_bytes_back l : map string_of_list_ascii (map bytes l) = l.
Proof using. rewrite map_map. rewrite <- (map_id l) at 2. apply map_ext. apply sola_bytes. Qed.
Lemma group_written prefix columns g : group_fits g ->
  (forall name, In name (group_header "") -> cells_of (prefix ++ name) columns = cells_of name (combine (group_header "") (group_record float_text g))) ->
  group_from_columns parse_float reads_hex prefix columns = Some g.
Proof using Hf.
  intros Hg Hv. destruct Hg as (G1 & G2 & G3 & G4 & G5 & G6 & G7).
  assert (Hi : forall name, existsb (String.eqb name) (group_header "") = true -> In name (group_header "")).
  { intros name H. apply existsb_exists in H. destruct H as (x & H1 & H2). apply String.eqb_eq in H2. subst x. auto. }
  assert (Hn : forall name o, existsb (String.eqb name) (group_header "") = true -> cells_of name (combine (group_header "") (group_record float_text g)) = [text_or_empty nat_text o] ->
    option_fits o -> optional_cell (parse_cell_usize reads_hex) (prefix ++ name) columns = Some o).
  { intros name o H1 H2 H3. apply optional_nat; auto. rewrite Hv; auto. }
  assert (Hx : forall name o, existsb (String.eqb name) (group_header "") = true -> cells_of name (combine (group_header "") (group_record float_text g)) = [text_or_empty float_text o] ->
    optional_cell parse_float (prefix ++ name) columns = Some o).
  { intros name o H1 H2. apply optional_float; auto. rewrite Hv; auto. }
  unfold group_from_columns.
  rewrite (Hn "top_tier_size" (gr_top_tier_size g) eq_refl ltac:(cells) G1), (Hn "mbs_min" (gr_mbs_min g) eq_refl ltac:(cells) G2), (Hn "mbs_max" (gr_mbs_max g) eq_refl ltac:(cells) G3),
    (Hn "mss_min" (gr_mss_min g) eq_refl ltac:(cells) G4), (Hn "mss_max" (gr_mss_max g) eq_refl ltac:(cells) G5),
    (Hn "mq_min" (gr_mq_min g) eq_refl ltac:(cells) G6), (Hn "mq_max" (gr_mq_max g) eq_refl ltac:(cells) G7),
    (Hx "mbs_mean" (gr_mbs_mean g) eq_refl ltac:(cells)), (Hx "mss_mean" (gr_mss_mean g) eq_refl ltac:(cells)), (Hx "mq_mean" (gr_mq_mean g) eq_refl ltac:(cells)).
  destruct g; reflexivity.
Qed.
Lemma output_written o : output_fits o -> output_in' (map bytes output_header) (output_record float_text o) o.
Proof using Hf.
  intro H. apply output_spec; [reflexivity|]. unfold named. rewrite map_bytes_back. destruct H as (H1 & H2 & H3 & H4 & H5 & H6 & H7 & Ho & Hi & Hc).
  set (columns := combine output_header (output_record float_text o)).
  assert (Hn : forall name n, cells_of name columns = [nat_text n] -> fits n -> required_cell (parse_cell_usize reads_hex) name columns = Some n)
    by (intros; apply required_nat; auto).
  assert (Hx : forall name x, cells_of name columns = [float_text x] -> required_cell parse_float name columns = Some x)
    by (intros; apply required_float; auto).
  assert (Hs : forall name t, cells_of name columns = [bytes t] -> required_cell parse_string name columns = Some t).
  { intros name t Ht. apply (required_written _ _ _ (bytes t)); auto. apply parse_string_spec. reflexivity. }
  assert (Hb : forall name b, cells_of name columns = [bytes (if b : bool then "true" else "false")] -> required_cell parse_bool name columns = Some b).
  { intros name b Ht. apply (required_written _ _ _ (bytes (if b then "true" else "false"))); auto. apply parse_bool_spec. reflexivity. }
  unfold output_from_columns.
  rewrite (Hs "label" (out_label o) ltac:(cells)), (Hs "standard_form_hash" (out_standard_form_hash o) ltac:(cells)),
    (Hb "has_quorum_intersection" (out_has_quorum_intersection o) ltac:(cells)).
  rewrite (Hn "top_tier_size" (out_top_tier_size o) ltac:(cells) H1), (Hn "mbs_min" (out_mbs_min o) ltac:(cells) H2), (Hn "mbs_max" (out_mbs_max o) ltac:(cells) H3), (Hn "mss_min" (out_mss_min o) ltac:(cells) H4),
    (Hn "mss_max" (out_mss_max o) ltac:(cells) H5), (Hn "mq_min" (out_mq_min o) ltac:(cells) H6), (Hn "mq_max" (out_mq_max o) ltac:(cells) H7).
  rewrite (Hx "mbs_mean" (out_mbs_mean o) ltac:(cells)), (Hx "mss_mean" (out_mss_mean o) ltac:(cells)), (Hx "mq_mean" (out_mq_mean o) ltac:(cells)),
    (Hx "analysis_duration_mq" (du_mq (out_durations o)) ltac:(cells)), (Hx "analysis_duration_mbs" (du_mbs (out_durations o)) ltac:(cells)),
    (Hx "analysis_duration_mss" (du_mss (out_durations o)) ltac:(cells)), (Hx "analysis_duration_total" (du_total (out_durations o)) ltac:(cells)).
  rewrite (group_written "orgs_" columns (out_orgs o) Ho), (group_written "isps_" columns (out_isps o) Hi), (group_written "ctries_" columns (out_ctries o) Hc).
  2,3,4: intros name Hname; cbv [group_header map append In] in Hname; repeat (destruct Hname as [<-|Hname]; [cells|]); destruct Hname.
  destruct o as [? ? ? ? ? ? ? ? ? ? ? ? ? ? ? ? []]; reflexivity.
Qed.
Lemma experiment_written d : experiment_fits d -> experiment_in' (map bytes experiment_header) (experiment_record float_text d) d.
Proof using Hf.
  intro H. apply experiment_spec; [reflexivity|]. unfold named. rewrite map_bytes_back. destruct H as (H1 & H2 & H3 & H4 & H5).
  set (columns := combine experiment_header (experiment_record float_text d)).
  assert (Hn : forall name n, cells_of name columns = [nat_text n] -> fits n -> required_cell (parse_cell_usize reads_hex) name columns = Some n)
    by (intros; apply required_nat; auto).
  assert (Hx : forall name x, cells_of name columns = [float_text x] -> required_cell parse_float name columns = Some x)
    by (intros; apply required_float; auto).
  unfold experiment_from_columns.
  rewrite (Hn "top_tier_size" (me_top_tier_size d) ltac:(cells) H1), (Hn "run" (me_run d) ltac:(cells) H2), (Hn "mq_number" (me_mq_number d) ltac:(cells) H3), (Hn "mbs_number" (me_mbs_number d) ltac:(cells) H4),
    (Hn "mss_number" (me_mss_number d) ltac:(cells) H5).
  rewrite (Hx "mq_mean" (me_mq_mean d) ltac:(cells)), (Hx "mbs_mean" (me_mbs_mean d) ltac:(cells)), (Hx "mss_mean" (me_mss_mean d) ltac:(cells)),
    (Hx "analysis_duration_mq" (ed_mq (me_durations d)) ltac:(cells)), (Hx "analysis_duration_mbs" (ed_mbs (me_durations d)) ltac:(cells)),
    (Hx "analysis_duration_mss" (ed_mss (me_durations d)) ltac:(cells)), (Hx "analysis_duration_hqi_after_mq" (ed_hqi_after_mq (me_durations d)) ltac:(cells)),
    (Hx "analysis_duration_hqi_alt_check" (ed_hqi_alt_check (me_durations d)) ltac:(cells)), (Hx "analysis_duration_total" (ed_total (me_durations d)) ltac:(cells)).
  destruct d as [? ? ? ? ? ? ? ? []]; reflexivity.
Qed.
Lemma written_rows {A} (header : list string) (record_of : A -> record) row_in rows : 2 <= List.length header ->
  (forall a, List.length (record_of a) = List.length header) ->
  Forall (fun a => row_in (map bytes header) (record_of a) a) rows -> says_rows row_in (write_csv header (map record_of rows)) rows.
Proof using.
  intros Hh Hl HF. destruct rows as [|a rows]; [left; split; [constructor|auto]|]. right. exists (map bytes header), (map record_of (a :: rows)). split.
  - apply strict_records; [|apply write_csv_strict; discriminate]. constructor; [rewrite map_length; auto|]. apply Forall_forall. intros r Hr.
    apply in_map_iff in Hr. destruct Hr as (b & <- & _). rewrite Hl. auto.
  - induction HF as [|b l Hb HF IH]; cbn [map]; constructor; auto. rewrite map_length, Hl. auto.
Qed.
Lemma written_outputs rows : Forall output_fits rows -> says_rows output_in' (write_outputs float_text rows) rows.
Proof using Hf.
  intro H. apply written_rows; [cbn; lia|reflexivity|]. revert H. apply Forall_impl. apply output_written.
Qed.
Lemma written_experiments rows : Forall experiment_fits rows -> says_rows experiment_in' (write_experiments float_text rows) rows.
Proof using Hf.
  intro H. apply written_rows; [cbn; lia|reflexivity|]. revert H. apply Forall_impl. apply experiment_written.
Qed.
(** the text does not begin with a byte order mark *)
Lemma written_mark header records : (forall c, In c (bytes (hd "" header)) -> c <> ascii_of_nat 239 /\ c <> the_quote) -> 2 <= List.length header -> hd "" header <> "" ->
  after_mark skips_mark (write_csv header records) (write_csv header records).
Proof using.
  intros Hc Hl Hn. right. split; auto. right. intro t. destruct records as [|r records]; [discriminate|]. unfold write_csv. destruct header as [|h [|h' header]]; cbn in Hl; [lia..|].
  cbn [hd] in *. cbn [map flat_map]. unfold write_record. cbn [map join]. unfold write_field at 1. destruct (needs_quotes (bytes h)).
  - cbn [app]. discriminate.
  - destruct (bytes h) as [|c b] eqn:E.
    + assert (X : h = "") by (rewrite <- (sola_bytes h), E; reflexivity). contradiction.
    + destruct (Hc c (or_introl eq_refl)) as [X _]. intro Y. cbn [app map] in Y. apply cons_both in Y. destruct Y as [Y _]. contradiction.
Qed.
Lemma outputs_mark rows : after_mark skips_mark (write_outputs float_text rows) (write_outputs float_text rows).
Proof using.
  apply written_mark; [|cbn; lia|discriminate]. intros c H. cbn in H. repeat (destruct H as [<-|H]; [split; discriminate|]). destruct H.
Qed.
Lemma experiments_mark rows : after_mark skips_mark (write_experiments float_text rows) (write_experiments float_text rows).
Proof using.
  apply written_mark; [|cbn; lia|discriminate]. intros c H. cbn in H. repeat (destruct H as [<-|H]; [split; discriminate|]). destruct H.
Qed.
Lemma outputs_back rows : Forall output_fits rows -> read_outputs parse_float reads_hex skips_mark (write_outputs float_text rows) = Some rows.
Proof using Hf. intro H. apply read_outputs_spec. exists (write_outputs float_text rows). split; [apply outputs_mark|apply written_outputs; auto]. Qed.
Lemma experiments_back rows : Forall experiment_fits rows -> read_experiments parse_float reads_hex skips_mark (write_experiments float_text rows) = Some rows.
Proof using Hf. intro H. apply read_experiments_spec. exists (write_experiments float_text rows). split; [apply experiments_mark|apply written_experiments; auto]. Qed.
End Rows.
