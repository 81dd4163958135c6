(** Proofs about the files of the bulk programs, with the actual texts of floating point numbers. *)
From Coq Require Import ZArith Ascii Lia.
From Flocq Require Import IEEE754.BinarySingleNaN.
From Verif Require Import P_CsvRuns P_CsvCut P_FloatRound P_FloatParse P_CsvRows P_CsvCells.
From Verif Require Export Spec_CsvFile.
From Verif Require Import M_CliText.
Local Open Scope string_scope.
Local Open Scope list_scope.
Local Open Scope nat_scope.

Lemma value_in_same {A} (P Q : A -> list ascii -> Prop) : (forall a t, P a t <-> Q a t) -> forall header r name a, value_in P header r name a <-> value_in Q header r name a.
Proof. intros H header r name a. unfold value_in. split; intros (s & H1 & H2); exists s; (split; [auto|apply H; auto]). Qed.
Lemma option_in_same {A} (P Q : A -> list ascii -> Prop) : (forall a t, P a t <-> Q a t) -> forall header r name o, option_in P header r name o <-> option_in Q header r name o.
Proof.
  intros H header r name [a|]; cbn [option_in]; [|reflexivity]. split; intros (s & H1 & H2 & H3); exists s; (split; [auto|split; [auto|apply H; auto]]).
Qed.
Lemma output_in_same (P Q : f64 -> list ascii -> Prop) reads_hex header r o : (forall a t, P a t <-> Q a t) -> (output_in P reads_hex header r o <-> output_in Q reads_hex header r o).
Proof.
  intro H. unfold output_in, group_in. assert (V := value_in_same P Q H header r). assert (O := option_in_same P Q H header r).
  repeat match goal with |- context [value_in P header r ?n ?a] => rewrite (V n a) | |- context [option_in P header r ?n ?a] => rewrite (O n a) end. reflexivity.
Qed.
Lemma experiment_in_same (P Q : f64 -> list ascii -> Prop) reads_hex header r o : (forall a t, P a t <-> Q a t) -> (experiment_in P reads_hex header r o <-> experiment_in Q reads_hex header r o).
Proof.
  intro H. unfold experiment_in. assert (V := value_in_same P Q H header r).
  repeat match goal with |- context [value_in P header r ?n ?a] => rewrite (V n a) end. reflexivity.
Qed.
Lemma Forall2_same {A B} (R S : A -> B -> Prop) l m : (forall a b, R a b -> S a b) -> Forall2 R l m -> Forall2 S l m.
Proof. intros H HF. induction HF; constructor; auto. Qed.
Lemma says_rows_same {A} (R S : list (list ascii) -> list (list ascii) -> A -> Prop) s rows : (forall h r a, R h r a <-> S h r a) -> (says_rows R s rows <-> says_rows S s rows).
Proof.
  intro H. unfold says_rows. split; (intros [X|(header & records & X & F)]; [left; exact X|right; exists header, records; split; [exact X|]]);
    (eapply Forall2_same; [|exact F]); cbv beta; intros r a [L X']; (split; [exact L|apply H; exact X']).
Qed.
Lemma parse_cell x t : parse_f64 t = Some x <-> double_cell x t.
Proof. apply parse_spec. Qed.
Section Files.
Context (reads_hex skips_mark : bool).
Notation says := (says_outputs parse_f64 reads_hex skips_mark).
Notation says' := (says_experiments parse_f64 reads_hex skips_mark).
Notation file := (outputs_file reads_hex skips_mark).
Notation file' := (experiments_file reads_hex skips_mark).
Notation bulk := (bulk_csv_main ryu_text parse_f64 reads_hex skips_mark).
Notation experiments := (experiment_csv_main ryu_text parse_f64 reads_hex skips_mark).
Lemma file_says s rows : says s rows <-> file s rows.
Proof.
  unfold says_outputs, outputs_file. split; intros (u & M & H); exists u; (split; [exact M|]); revert H; apply says_rows_same; intros h r a;
    apply output_in_same; intros x t; [symmetry|]; apply parse_cell.
Qed.
Lemma file_says' s rows : says' s rows <-> file' s rows.
Proof.
  unfold says_experiments, experiments_file. split; intros (u & M & H); exists u; (split; [exact M|]); revert H; apply says_rows_same; intros h r a;
    apply experiment_in_same; intros x t; [symmetry|]; apply parse_cell.
Qed.
Lemma outcome_says r r' : same_text_outcome says r r' <-> same_text_outcome file r r'.
Proof.
  unfold same_text_outcome. destruct r as [[[s c]|]|], r' as [[[s' c']|]|]; try reflexivity.
  split; (intros (H & rows & rows' & H1 & H2 & H3); split; [exact H|]; exists rows, rows'; split; [apply file_says; exact H1|]; split; [apply file_says; exact H2|exact H3]).
Qed.

Lemma read_file s rows : read_outputs parse_f64 reads_hex skips_mark s = Some rows <-> file s rows.
Proof. rewrite reads_says. apply file_says. Qed.
Lemma read_file' s rows : read_experiments parse_f64 reads_hex skips_mark s = Some rows <-> file' s rows.
Proof. rewrite reads_says'. apply file_says'. Qed.
Lemma written_file rows : Forall output_fits rows -> file (write_outputs ryu_text rows) rows.
Proof. intro H. apply file_says. apply written_says; auto. apply ryu_readable. Qed.
Lemma written_file' rows : Forall experiment_fits rows -> file' (write_experiments ryu_text rows) rows.
Proof. intro H. apply file_says'. apply written_says'; auto. apply ryu_readable. Qed.
Lemma refused_file E digest files clock paths ignored s update : update = false \/ (forall rows, ~ file s rows) ->
  bulk E digest files clock paths ignored (To_path (Some s)) update = Panic \/ bulk E digest files clock paths ignored (To_path (Some s)) update = Ok None.
Proof. intros [H|H]; apply refused; auto. right. intros rows Hr. apply (H rows), file_says. auto. Qed.
Lemma refused_file' E clock max runs stellar s update : update = false \/ (forall rows, ~ file' s rows) ->
  experiments E clock max runs stellar update (To_path (Some s)) = None.
Proof. intros [H|H]; apply refused'; auto. right. intros rows Hr. apply (H rows), file_says'. auto. Qed.
Lemma fresh_file E digest files clock paths ignored inputs output : extract_inputs paths ignored = Ok (Some inputs) ->
  (forall i, In i inputs -> exists row, bulk_analyze E digest files clock i = Ok row /\ output_fits row) -> output = To_terminal \/ output = To_path None ->
  exists s rows, bulk E digest files clock paths ignored output false = Ok (Some (s, true)) /\ file s rows /\ by_label out_label rows /\
  forall L, Forall2 (fun i row => bulk_analyze E digest files clock i = Ok row) (with_label in_label L inputs) (with_label out_label L rows).
Proof.
  intros H1 H2 H3. destruct (fresh_text ryu_text parse_f64 reads_hex skips_mark ryu_readable E digest files clock paths ignored inputs output H1 H2 H3) as (s & rows & A & B & C & D).
  exists s, rows. split; auto. split; [apply file_says; auto|auto].
Qed.
Lemma update_file E digest files clock paths ignored inputs s old : extract_inputs paths ignored = Ok (Some inputs) -> file s old -> distinct_labels out_label old ->
  (forall i, In i inputs -> (forall o, In o old -> out_label o <> in_label i) -> exists row, bulk_analyze E digest files clock i = Ok row /\ output_fits row) ->
  Forall output_fits old ->
  exists s' rows, bulk E digest files clock paths ignored (To_path (Some s)) true = Ok (Some (s', true)) /\ file s' rows /\ by_label out_label rows /\
  (forall o, In o old -> with_label out_label (out_label o) rows = [o]) /\
  (forall L, (forall o, In o old -> out_label o <> L) ->
     Forall2 (fun i row => bulk_analyze E digest files clock i = Ok row) (with_label in_label L inputs) (with_label out_label L rows)).
Proof.
  intros H1 H2 H3 H4 H5. apply file_says in H2.
  destruct (update_text ryu_text parse_f64 reads_hex skips_mark ryu_readable E digest files clock paths ignored inputs s old H1 H2 H3 H4 H5) as (s' & rows & A & B & C & D & F).
  exists s', rows. split; auto. split; [apply file_says; auto|auto].
Qed.
Lemma resume_file E digest files clock1 clock2 clock3 paths1 paths2 ign1 ign2 inputs1 inputs2 s t complete :
  extract_inputs paths1 ign1 = Ok (Some inputs1) -> extract_inputs paths2 ign2 = Ok (Some inputs2) -> incl inputs1 inputs2 -> distinct_labels in_label inputs2 ->
  (forall clock i row, In i inputs2 -> bulk_analyze E digest files clock i = Ok row -> output_fits row) ->
  bulk E digest files clock1 paths1 ign1 (To_path None) false = Ok (Some (s ++ t, complete)) ->
  (forall rows, ~ file s rows) /\ bulk E digest files clock2 paths2 ign2 (To_path (Some s)) true = Ok None \/
  same_text_outcome file (bulk E digest files clock2 paths2 ign2 (To_path (Some s)) true) (bulk E digest files clock3 paths2 ign2 To_terminal false).
Proof.
  intros H1 H2 H3 H4 H5 H6. destruct (resume_text parse_f64 reads_hex skips_mark ryu_text ryu_readable E digest files clock1 clock2 clock3 paths1 paths2 ign1 ign2 inputs1 inputs2 s t complete H1 H2 H3 H4 H5 H6) as [(A & B)|A].
  - left. split; auto. intros rows Hr. apply (A rows), file_says. auto.
  - right. apply outcome_says. exact A.
Qed.
(** nothing is cut off *)
Lemma incremental_file E digest files clock1 clock2 clock3 paths1 paths2 ign1 ign2 inputs1 inputs2 s complete :
  extract_inputs paths1 ign1 = Ok (Some inputs1) -> extract_inputs paths2 ign2 = Ok (Some inputs2) -> incl inputs1 inputs2 -> distinct_labels in_label inputs2 ->
  (forall clock i row, In i inputs2 -> bulk_analyze E digest files clock i = Ok row -> output_fits row) ->
  bulk E digest files clock1 paths1 ign1 (To_path None) false = Ok (Some (s, complete)) ->
  same_text_outcome file (bulk E digest files clock2 paths2 ign2 (To_path (Some s)) true) (bulk E digest files clock3 paths2 ign2 To_terminal false).
Proof.
  intros H1 H2 H3 H4 H5 H6. rewrite <- (app_nil_r s) in H6.
  destruct (resume_file E digest files clock1 clock2 clock3 paths1 paths2 ign1 ign2 inputs1 inputs2 s [] complete H1 H2 H3 H4 H5 H6) as [(A & _)|A]; auto. exfalso.
  rewrite app_nil_r in H6. unfold bulk_csv_main in H6.
  destruct (bulk_main E digest files clock1 paths1 ign1 (File None) false) as [[[rows1 c1]|]|] eqn:Eb; try discriminate. cbn [res_map option_map fst snd] in H6.
  injection H6 as H6 _. subst s. apply (A rows1). apply written_file. apply Forall_forall. intros row Hrow.
  destruct (P_Bulk.complete_run E digest files clock1 paths1 ign1 inputs1 (File None) false rows1 c1 H1 Eb) as [_ Hc].
  destruct (Hc row Hrow) as [[F _]|(i & Hin & Er)]; [discriminate F|]. eapply H5; [apply H3; exact Hin|exact Er].
Qed.
Lemma experiments_run_file E clock max runs stellar update output old : ext_ok E -> (Z.of_nat max <= 2 ^ 53)%Z ->
  match update, output with
  | true, To_path (Some s) => file' s old
  | false, To_path (Some _) | true, To_path None => False
  | _, _ => old = []
  end -> Forall experiment_fits old ->
  (forall k row, requested max runs stellar k -> run_experiment E clock k stellar = Ok row -> experiment_fits row) ->
  exists s rows, experiments E clock max runs stellar update output = Some (s, true) /\ file' s rows /\ by_size rows /\ NoDup (map experiment_of rows) /\
    (forall d, In d rows -> last_row old (experiment_of d) d \/
       (requested max runs stellar (experiment_of d) /\ (forall d', In d' old -> experiment_of d' <> experiment_of d) /\ measured stellar d)) /\
    (forall k d, last_row old k d -> In d rows) /\
    (forall k, requested max runs stellar k -> exists d, In d rows /\ experiment_of d = k).
Proof.
  intros HE H1 H2 H3 H4.
  destruct (experiments_text ryu_text parse_f64 reads_hex skips_mark ryu_readable E HE clock max runs stellar update output old H1) as (s & rows & A & B & C); auto.
  - destruct update, output as [|[t|]]; auto. apply file_says'. auto.
  - exists s, rows. split; auto. split; [apply file_says'; auto|auto].
Qed.
Lemma resume_experiments_file E clock1 clock2 clock3 max1 runs1 max2 runs2 stellar s t : ext_ok E ->
  (Z.of_nat max2 <= 2 ^ 53)%Z -> max1 <= max2 -> runs1 <= runs2 ->
  (forall clock k row, requested max2 runs2 stellar k -> run_experiment E clock k stellar = Ok row -> experiment_fits row) ->
  experiments E clock1 max1 runs1 stellar false (To_path None) = Some (s ++ t, true) ->
  (forall rows, ~ file' s rows) /\ experiments E clock2 max2 runs2 stellar true (To_path (Some s)) = None \/
  exists s2 s3 rows2 rows rows', experiments E clock2 max2 runs2 stellar true (To_path (Some s)) = Some (s2, true) /\
    experiments E clock3 max2 runs2 stellar false (To_path None) = Some (s3, true) /\
    file' s2 rows2 /\ file' s3 rows /\ Permutation rows2 rows' /\ Forall2 same_numbers rows' rows.
Proof.
  intros HE H1 H2 H3 H4 H5.
  destruct (resume_experiments_text parse_f64 reads_hex skips_mark ryu_text ryu_readable E clock1 clock2 clock3 max1 runs1 max2 runs2 stellar s t HE H1 H2 H3 H4 H5)
    as [(A & B)|(s2 & s3 & rows2 & rows & rows' & A & B & C & D & F)].
  - left. split; auto. intros rows Hr. apply (A rows), file_says'. auto.
  - right. exists s2, s3, rows2, rows, rows'. split; auto. split; auto. split; [apply file_says'; auto|]. split; [apply file_says'; auto|auto].
Qed.
Lemma interrupted_file rows s t rows' : Forall output_fits rows -> write_outputs ryu_text rows = s ++ t -> file s rows' -> first_rows same_but_total rows rows'.
Proof. intros H1 H2 H3. apply file_says in H3. eapply outputs_interrupted; eauto. apply ryu_readable. Qed.
Lemma interrupted_file' rows s t rows' : Forall experiment_fits rows -> write_experiments ryu_text rows = s ++ t -> file' s rows' -> first_rows same_experiment_but_total rows rows'.
Proof. intros H1 H2 H3. apply file_says' in H3. eapply experiments_interrupted; eauto. apply ryu_readable. Qed.
End Files.

(** ** what may go wrong *)
Definition numbers_row (total : f64) : measurement :=
  mk_measurement 4 0 4 6 6 fzero fzero fzero (mk_experiment_durations fzero fzero fzero fzero fzero total).
Lemma numbers_fit x : experiment_fits (numbers_row x).
Proof. repeat split. Qed.
Lemma changed_total : exists rows s t rows' d, Forall experiment_fits rows /\ write_experiments ryu_text rows = s ++ t /\ experiments_file false false s rows' /\
  In d rows' /\ ~ In d rows.
Proof.
  destruct (parse_f64 (bytes "12.5")) as [x|] eqn:Ex; [|discriminate (f_equal (fun o => match o with Some _ => true | None => false end) Ex)].
  assert (A : match parse_f64 (bytes "12.5") with Some y => let w := write_experiments ryu_text [numbers_row y] in
    match read_experiments parse_f64 false false (firstn (List.length w - 3) w) with Some [d] => same_f64 (ed_total (me_durations d)) y = false | _ => False end | None => False end) by (vm_compute; auto).
  rewrite Ex in A. cbv zeta in A. set (w := write_experiments ryu_text [numbers_row x]) in *.
  destruct (read_experiments parse_f64 false false (firstn (List.length w - 3) w)) as [[|d [|]]|] eqn:Er; try contradiction.
  exists [numbers_row x], (firstn (List.length w - 3) w), (skipn (List.length w - 3) w), [d], d. split; [constructor; [apply numbers_fit|constructor]|].
  split; [symmetry; apply firstn_skipn|]. split; [apply read_file'; auto|]. split; [left; auto|]. intros [Hd|[]]. subst d.
  cbn [numbers_row me_durations ed_total] in A. assert (B : same_f64 x x = true) by (apply P_FloatText.same_f64_eq; auto). congruence.
Qed.
Lemma nothing_left : exists rows s t, Forall experiment_fits rows /\ write_experiments ryu_text rows = s ++ t /\ forall rows', ~ experiments_file false false s rows'.
Proof.
  set (rows := [numbers_row fzero; numbers_row fzero]). set (w := write_experiments ryu_text rows). exists rows, (firstn (List.length w - 7) w), (skipn (List.length w - 7) w).
  split; [repeat constructor|]. split; [symmetry; apply firstn_skipn|]. intros rows' H. apply read_file' in H. revert H.
  assert (A : read_experiments parse_f64 false false (firstn (List.length w - 7) w) = None) by (vm_compute; reflexivity). rewrite A. discriminate.
Qed.

Lemma written_strictly (rows : list output_data_point) (measurements : list measurement) :
  (rows <> [] -> strict_csv (map bytes output_header :: map (output_record ryu_text) rows) (write_outputs ryu_text rows)) /\
  (measurements <> [] -> strict_csv (map bytes experiment_header :: map (experiment_record ryu_text) measurements) (write_experiments ryu_text measurements)) /\
  write_outputs ryu_text [] = [] /\ write_experiments ryu_text [] = [].
Proof.
  split; [|split; [|split; reflexivity]]; intro H; apply write_csv_strict; intro H'; apply map_eq_nil in H'; auto.
Qed.
Lemma refused_files reads_hex skips_mark s update :
  (update = false \/ (forall rows, ~ outputs_file reads_hex skips_mark s rows) -> forall E digest files clock paths ignored,
     bulk_csv_main ryu_text parse_f64 reads_hex skips_mark E digest files clock paths ignored (To_path (Some s)) update = Panic \/
     bulk_csv_main ryu_text parse_f64 reads_hex skips_mark E digest files clock paths ignored (To_path (Some s)) update = Ok None) /\
  (update = false \/ (forall rows, ~ experiments_file reads_hex skips_mark s rows) -> forall E clock max runs stellar_like,
     experiment_csv_main ryu_text parse_f64 reads_hex skips_mark E clock max runs stellar_like update (To_path (Some s)) = None).
Proof. split; intro H; intros; [apply refused_file; auto|apply refused_file'; auto]. Qed.
