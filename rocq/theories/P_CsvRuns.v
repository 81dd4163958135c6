(** Proofs about CSV texts: runs of the bulk programs. *)
From Coq Require Import ZArith Ascii Permutation.
From Flocq Require Import IEEE754.BinarySingleNaN.
From Verif Require Export P_CsvRows.
Local Open Scope string_scope.
Local Open Scope list_scope.
Local Open Scope nat_scope.

Lemma Forall_Forall {A} (P : A -> Prop) l : (forall a, In a l -> P a) -> Forall P l.
Proof. intro H. apply Forall_forall. exact H. Qed.

Section Runs.
Context (float_text : f64 -> list ascii) (parse_float : list ascii -> option f64) (reads_hex skips_mark : bool).
Notation says := (says_outputs parse_float reads_hex skips_mark).
Notation says' := (says_experiments parse_float reads_hex skips_mark).
Notation bulk := (bulk_csv_main float_text parse_float reads_hex skips_mark).
Notation experiments := (experiment_csv_main float_text parse_float reads_hex skips_mark).

Lemma reads_says s rows : read_outputs parse_float reads_hex skips_mark s = Some rows <-> says s rows.
Proof. apply read_outputs_spec. Qed.
Lemma reads_says' s rows : read_experiments parse_float reads_hex skips_mark s = Some rows <-> says' s rows.
Proof. apply read_experiments_spec. Qed.
Lemma says_unique s rows rows' : says s rows -> says s rows' -> rows = rows'.
Proof. intros H H'. apply reads_says in H, H'. congruence. Qed.
Lemma says_unique' s rows rows' : says' s rows -> says' s rows' -> rows = rows'.
Proof. intros H H'. apply reads_says' in H, H'. congruence. Qed.

(** a file that cannot be read or that must not be overwritten *)
Lemma refused E digest files clock paths ignored s update : update = false \/ (forall rows, ~ says s rows) ->
  bulk E digest files clock paths ignored (To_path (Some s)) update = Panic \/ bulk E digest files clock paths ignored (To_path (Some s)) update = Ok None.
Proof.
  intro H. unfold bulk_csv_main. destruct update.
  - destruct H as [H|H]; [discriminate|]. destruct (read_outputs parse_float reads_hex skips_mark s) as [rows|] eqn:Er.
    + apply reads_says in Er. destruct (H _ Er).
    + destruct (extract_inputs paths ignored); cbn; auto.
  - unfold bulk_main. destruct (extract_inputs paths ignored) as [[inputs|]|]; cbn; auto.
Qed.
Lemma refused' E clock max runs stellar s update : update = false \/ (forall rows, ~ says' s rows) ->
  experiments E clock max runs stellar update (To_path (Some s)) = None.
Proof.
  intro H. unfold experiment_csv_main. destruct update; [|reflexivity].
  destruct H as [H|H]; [discriminate|]. destruct (read_experiments parse_float reads_hex skips_mark s) as [rows|] eqn:Er; auto.
  apply reads_says' in Er. destruct (H _ Er).
Qed.

Context (Hf : readable_format float_text parse_float).
Lemma written_says rows : Forall output_fits rows -> says (write_outputs float_text rows) rows.
Proof using Hf. intro H. apply reads_says. apply outputs_back; auto. Qed.
Lemma written_says' rows : Forall experiment_fits rows -> says' (write_experiments float_text rows) rows.
Proof using Hf. intro H. apply reads_says'. apply experiments_back; auto. Qed.

Section Bulk.
Context (E : ext) (digest : json -> string) (files : path -> option json).

Lemma fresh_text clock paths ignored inputs output : extract_inputs paths ignored = Ok (Some inputs) ->
  (forall i, In i inputs -> exists row, bulk_analyze E digest files clock i = Ok row /\ output_fits row) -> output = To_terminal \/ output = To_path None ->
  exists s rows, bulk E digest files clock paths ignored output false = Ok (Some (s, true)) /\ says s rows /\ by_label out_label rows /\
  forall L, Forall2 (fun i row => bulk_analyze E digest files clock i = Ok row) (with_label in_label L inputs) (with_label out_label L rows).
Proof using Hf.
  intros Hi Ha Ho.
  assert (X : exists out, (out = Stdout \/ out = File None) /\ bulk E digest files clock paths ignored output false =
    res_map (option_map (fun p => (write_outputs float_text (fst p), snd p))) (bulk_main E digest files clock paths ignored out false)).
  { destruct Ho as [-> | ->]; eexists; (split; [|reflexivity]); auto. }
  destruct X as (out & Hout & Eb).
  destruct (fresh_run E digest files clock paths ignored inputs out) as (rows & H1 & H2 & H3); auto.
  { intros i H. destruct (Ha i H) as (row & Hr & _). eauto. }
  exists (write_outputs float_text rows), rows. rewrite Eb, H1. split; [reflexivity|]. split; [|auto]. apply written_says. apply Forall_Forall. intros row Hr.
  destruct (complete_run E digest files clock paths ignored inputs out false rows true Hi H1) as [_ Hc].
  destruct (Hc row Hr) as [F|(i & Hin & Er)].
  - destruct F as [F _]; discriminate F.
  - destruct (Ha i Hin) as (row' & Er' & Hrow). rewrite Er in Er'. injection Er' as <-. auto.
Qed.
Lemma update_text clock paths ignored inputs s old : extract_inputs paths ignored = Ok (Some inputs) -> says s old -> distinct_labels out_label old ->
  (forall i, In i inputs -> (forall o, In o old -> out_label o <> in_label i) -> exists row, bulk_analyze E digest files clock i = Ok row /\ output_fits row) ->
  Forall output_fits old ->
  exists s' rows, bulk E digest files clock paths ignored (To_path (Some s)) true = Ok (Some (s', true)) /\ says s' rows /\ by_label out_label rows /\
  (forall o, In o old -> with_label out_label (out_label o) rows = [o]) /\
  (forall L, (forall o, In o old -> out_label o <> L) ->
     Forall2 (fun i row => bulk_analyze E digest files clock i = Ok row) (with_label in_label L inputs) (with_label out_label L rows)).
Proof using Hf.
  intros Hi Hs Hd Ha Hold. apply reads_says in Hs.
  destruct (update_run E digest files clock paths ignored inputs old Hi Hd) as (rows & H1 & H2 & H3 & H4).
  { intros i H Hn. destruct (Ha i H Hn) as (row & Hr & _). eauto. }
  exists (write_outputs float_text rows), rows. unfold bulk_csv_main. rewrite Hs, H1. split; [reflexivity|]. split; [|auto]. apply written_says. apply Forall_Forall. intros row Hr.
  destruct (in_dec string_dec (out_label row) (map out_label old)) as [Hin|Hin].
  - apply in_map_iff in Hin. destruct Hin as (o & Eo & Ho). specialize (H3 o Ho). rewrite Eo in H3.
    assert (X : In row (with_label out_label (out_label row) rows)) by (apply filter_In; split; [auto|apply String.eqb_refl]).
    rewrite H3 in X. destruct X as [<-|[]]. rewrite Forall_forall in Hold. auto.
  - assert (Hno : forall o, In o old -> out_label o <> out_label row) by (intros o Ho Eo; apply Hin; rewrite <- Eo; apply in_map; auto).
    specialize (H4 _ Hno). assert (X : In row (with_label out_label (out_label row) rows)) by (apply filter_In; split; [auto|apply String.eqb_refl]).
    destruct (Forall2_in_r _ _ _ row H4 X) as (i & Hii & Er). apply filter_In in Hii. destruct Hii as [Hii El]. apply String.eqb_eq in El.
    destruct (Ha i Hii) as (row' & Er' & Hrow); [intros o Ho; rewrite El; auto|]. rewrite Er in Er'. injection Er' as <-. auto.
Qed.
Lemma incremental_text clock1 clock2 clock3 paths1 paths2 ign1 ign2 inputs1 inputs2 s1 :
  extract_inputs paths1 ign1 = Ok (Some inputs1) -> extract_inputs paths2 ign2 = Ok (Some inputs2) ->
  incl inputs1 inputs2 -> distinct_labels in_label inputs1 -> distinct_labels in_label inputs2 ->
  (forall clock i row, In i inputs2 -> bulk_analyze E digest files clock i = Ok row -> output_fits row) ->
  bulk E digest files clock1 paths1 ign1 (To_path None) false = Ok (Some (s1, true)) ->
  same_text_outcome says (bulk E digest files clock2 paths2 ign2 (To_path (Some s1)) true) (bulk E digest files clock3 paths2 ign2 To_terminal false).
Proof using Hf.
  intros H1 H2 Hincl D1 D2 Hfit Hr. unfold bulk_csv_main at 1 in Hr.
  destruct (bulk_main E digest files clock1 paths1 ign1 (File None) false) as [[[rows1 c1]|]|] eqn:Eb; try discriminate. cbn [res_map option_map fst snd] in Hr.
  injection Hr as <- ->.
  assert (F1 : Forall output_fits rows1).
  { apply Forall_Forall. intros row Hrow. destruct (complete_run E digest files clock1 paths1 ign1 inputs1 (File None) false rows1 true H1 Eb) as [_ Hc].
    destruct (Hc row Hrow) as [[F _]|(i & Hin & Er)]; [discriminate F|]. eapply Hfit; [apply Hincl; exact Hin|exact Er]. }
  assert (S := incremental_any_clock E digest files clock1 clock2 clock3 paths1 paths2 ign1 ign2 inputs1 inputs2 rows1 H1 H2 Hincl D1 D2 Eb).
  assert (Er := outputs_back float_text parse_float reads_hex skips_mark Hf rows1 F1). unfold bulk_csv_main. rewrite Er.
  destruct (bulk_main E digest files clock2 paths2 ign2 (File (Some rows1)) true) as [[[rows2 c2]|]|] eqn:E2;
  destruct (bulk_main E digest files clock3 paths2 ign2 Stdout false) as [[[rows3 c3]|]|] eqn:E3; cbn [same_outcome] in S; try contradiction; cbn [res_map option_map fst snd same_text_outcome]; auto.
  destruct S as [S ->]. split; auto. exists rows2, rows3. split; [|split; [|auto]]; apply written_says; apply Forall_Forall; intros row Hrow.
  - destruct (complete_run E digest files clock2 paths2 ign2 inputs2 (File (Some rows1)) true rows2 c3 H2 E2) as [_ Hc].
    destruct (Hc row Hrow) as [(_ & old & Eo & F)|(i & Hin & Ei)]; [|eapply Hfit; eauto]. injection Eo as <-. rewrite Forall_forall in F1. apply F1. exact F.
  - destruct (complete_run E digest files clock3 paths2 ign2 inputs2 Stdout false rows3 c3 H2 E3) as [_ Hc].
    destruct (Hc row Hrow) as [[F _]|(i & Hin & Ei)]; [discriminate F|]. eapply Hfit; eauto.
Qed.
End Bulk.

Section Experiments.
Context (E : ext) (HE : ext_ok E).
Lemma experiments_run clock max runs stellar update output old : (Z.of_nat max <= 2 ^ 53)%Z -> rows_found update output old ->
  Forall experiment_fits old -> (forall k row, requested max runs stellar k -> run_experiment E clock k stellar = Ok row -> experiment_fits row) ->
  exists rows, experiment_main E clock max runs stellar update output = Some (rows, true) /\ Forall experiment_fits rows.
Proof using HE.
  intros Hmax Ho Fo Hfit. destruct (main_ok E HE clock max runs stellar update output old Hmax Ho) as (rows & Hm & _ & _ & Hi). exists rows. split; auto.
  apply Forall_Forall. intros d Hd. apply Hi in Hd. destruct Hd as [Hd|(H1 & H2 & H3)].
  - rewrite Forall_forall in Fo. apply Fo. apply (last_row_in _ _ _ Hd).
  - eapply Hfit; eauto.
Qed.
Lemma experiments_text clock max runs stellar update output old : (Z.of_nat max <= 2 ^ 53)%Z ->
  match update, output with
  | true, To_path (Some s) => says' s old
  | false, To_path (Some _) | true, To_path None => False
  | _, _ => old = []
  end -> Forall experiment_fits old ->
  (forall k row, requested max runs stellar k -> run_experiment E clock k stellar = Ok row -> experiment_fits row) ->
  exists s rows, experiments E clock max runs stellar update output = Some (s, true) /\ says' s rows /\ by_size rows /\ NoDup (map experiment_of rows) /\
    (forall d, In d rows -> last_row old (experiment_of d) d \/
       (requested max runs stellar (experiment_of d) /\ (forall d', In d' old -> experiment_of d' <> experiment_of d) /\ measured stellar d)) /\
    (forall k d, last_row old k d -> In d rows) /\
    (forall k, requested max runs stellar k -> exists d, In d rows /\ experiment_of d = k).
Proof using HE Hf.
  intros Hmax Ho Fo Hfit.
  assert (X : exists destination, rows_found update destination old /\ experiments E clock max runs stellar update output =
    option_map (fun p => (write_experiments float_text (fst p), snd p)) (experiment_main E clock max runs stellar update destination)).
  { destruct update, output as [|[t|]]; try contradiction.
    - exists Terminal. split; auto.
    - exists (OutputFile (Some old)). split; [reflexivity|]. unfold experiment_csv_main. apply reads_says' in Ho. rewrite Ho. reflexivity.
    - exists Terminal. split; auto.
    - exists (OutputFile None). split; auto. }
  destruct X as (destination & Hd & ->).
  destruct (main_rows E clock max runs stellar update destination old HE Hmax Hd) as (rows & Hm & Hrest).
  destruct (experiments_run clock max runs stellar update destination old Hmax Hd Fo Hfit) as (rows' & Hm' & Fr). rewrite Hm in Hm'. injection Hm' as <-.
  exists (write_experiments float_text rows), rows. rewrite Hm. split; [reflexivity|]. split; [apply written_says'; auto|exact Hrest].
Qed.
Lemma experiments_incremental clock1 clock2 clock3 max1 runs1 max2 runs2 stellar s1 :
  (Z.of_nat max2 <= 2 ^ 53)%Z -> max1 <= max2 -> runs1 <= runs2 ->
  (forall clock k row, requested max2 runs2 stellar k -> run_experiment E clock k stellar = Ok row -> experiment_fits row) ->
  experiments E clock1 max1 runs1 stellar false (To_path None) = Some (s1, true) ->
  exists s2 s rows2 rows rows', experiments E clock2 max2 runs2 stellar true (To_path (Some s1)) = Some (s2, true) /\
    experiments E clock3 max2 runs2 stellar false (To_path None) = Some (s, true) /\
    says' s2 rows2 /\ says' s rows /\ Permutation rows2 rows' /\ Forall2 same_numbers rows' rows.
Proof using HE Hf.
  intros Hz Hm Hr Hfit H1. unfold experiment_csv_main at 1 in H1.
  assert (Hreq : forall k, requested max1 runs1 stellar k -> requested max2 runs2 stellar k) by (intros k (A & B & C); split; [lia|split; [lia|auto]]).
  destruct (experiments_run clock1 max1 runs1 stellar false (OutputFile None) [] ltac:(lia) eq_refl (Forall_nil _)) as (rows1 & M1 & F1).
  { intros k row Hk. apply Hfit. auto. }
  rewrite M1 in H1. cbn [option_map fst snd] in H1. injection H1 as <-.
  destruct (experiments_run clock2 max2 runs2 stellar true (OutputFile (Some rows1)) rows1 Hz eq_refl F1) as (rows2 & M2 & F2); [intros k row; apply Hfit|].
  destruct (incremental_any_watch E HE clock1 clock2 clock3 max1 runs1 max2 runs2 stellar rows1 rows2 Hz Hm Hr M1 M2) as (rows & rows' & M3 & P & S).
  destruct (experiments_run clock3 max2 runs2 stellar false (OutputFile None) [] Hz eq_refl (Forall_nil _)) as (rows3 & M3' & F3); [intros k row; apply Hfit|].
  rewrite M3 in M3'. injection M3' as <-.
  exists (write_experiments float_text rows2), (write_experiments float_text rows), rows2, rows, rows'.
  unfold experiment_csv_main. rewrite experiments_back by auto. rewrite M2, M3. split; [reflexivity|]. split; [reflexivity|].
  split; [apply written_says'; auto|]. split; [apply written_says'; auto|auto].
Qed.
End Experiments.
End Runs.

(** ** interrupted runs *)
Lemma records_cut a b : forall state field fields, exists k last, List.length last <= 1 /\
  read_records state field fields a = firstn k (read_records state field fields (a ++ b)) ++ last.
Proof.
  induction a as [|c a IH]; intros state field fields.
  - cbn [app read_records]. exists 0. destruct state; eexists; (split; [|reflexivity]); cbn; lia.
  - assert (Hend : forall r, exists k last, List.length last <= 1 /\ r :: read_records StartRecord [] [] a = firstn k (r :: read_records StartRecord [] [] (a ++ b)) ++ last).
    { intro r. destruct (IH StartRecord [] []) as (k & last & H1 & H2). exists (S k), last. split; auto. rewrite H2. reflexivity. }
    cbn [app read_records]. cbv zeta. destruct state; repeat (match goal with |- context [if ?x then _ else _] => destruct x end); auto.
Qed.
Lemma Forall2_app_left {A B} (R : A -> B -> Prop) l l' m : Forall2 R (l ++ l') m -> exists n n', m = n ++ n' /\ Forall2 R l n /\ Forall2 R l' n'.
Proof. intro H. apply Forall2_app_inv_l in H. destruct H as (n & n' & H1 & H2 & ->). exists n, n'. auto. Qed.
Lemma Forall2_cut {A B} (R : A -> B -> Prop) k : forall l m, Forall2 R l m -> Forall2 R (firstn k l) (firstn k m).
Proof. induction k as [|k IH]; intros l m H; cbn [firstn]; [constructor|]. destruct H; constructor; auto. Qed.
Lemma Forall2_function {A B} (R : A -> B -> Prop) l m : Forall2 R l m -> forall m', (forall a b b', R a b -> R a b' -> b = b') -> Forall2 R l m' -> m = m'.
Proof.
  induction 1 as [|a b l m H HF IH]; intros m' Hu H'; inversion H'; subst; auto. f_equal; eauto.
Qed.
Lemma Forall2_same_length {A B} (R : A -> B -> Prop) l m : Forall2 R l m -> List.length l = List.length m.
Proof. induction 1; cbn; auto. Qed.
Section Cut.
Context {A : Type} (row_in : list (list ascii) -> list (list ascii) -> A -> Prop).
Context (Hu : forall header r a a', List.length r = List.length header -> row_in header r a -> row_in header r a' -> a = a').
Lemma rows_cut s t rows rows' : says_rows row_in (s ++ t) rows -> says_rows row_in s rows' ->
  exists k last, rows' = firstn k rows ++ last /\ List.length last <= 1.
Proof using Hu.
  intros H H'. destruct H' as [(_ & ->)|(header' & records' & R' & F')]; [exists 0, []; split; auto|].
  apply records_spec in R'. destruct (records_cut s t StartRecord [] []) as (k & last & Hl & Ek). rewrite R' in Ek.
  destruct k as [|k].
  - cbn [firstn app] in Ek. subst last. cbn in Hl. destruct records' as [|r records']; cbn in Hl; [|lia]. inversion F'; subst. exists 0, []. split; auto.
  - destruct H as [(R & ->)|(header & records & R & F)]; apply records_spec in R; rewrite R in Ek.
    + cbn [firstn app] in Ek. subst last. cbn in Hl. destruct records' as [|r records']; cbn in Hl; [|lia]. inversion F'; subst. exists 0, []. split; auto.
    + cbn [firstn app] in Ek. injection Ek as -> ->. apply Forall2_app_left in F'. destruct F' as (n & n' & -> & F1 & F2).
      exists k, n'. rewrite <- (Forall2_same_length _ _ _ F2). split; auto. f_equal.
      apply (Forall2_function _ _ _ F1); [|apply Forall2_cut; exact F]. intros r a b (La & Ha) (Lb & Hb). eauto.
Qed.
Lemma marks_cut skips s t : forall u v rows rows', after_mark skips (s ++ t) u -> after_mark skips s v -> says_rows row_in u rows -> says_rows row_in v rows' ->
  exists k last, rows' = firstn k rows ++ last /\ List.length last <= 1.
Proof using Hu.
  intros u v rows rows' Au Av Su Sv. unfold after_mark in Au, Av. cbv zeta in Au, Av. set (mark := map ascii_of_nat [239; 187; 191]) in *.
  destruct Av as [(Hs & ->)|(Hv & ->)].
  - destruct Au as [(_ & Eu)|([Hc|Hc] & _)]; [|congruence|].
    + rewrite <- app_assoc in Eu. apply app_inv_head in Eu. subst u. eapply rows_cut; eauto.
    + destruct (Hc (v ++ t)). rewrite app_assoc. reflexivity.
  - destruct Au as [(Hs & Eu)|(_ & ->)]; [|eapply rows_cut; eauto].
    destruct Hv as [Hv|Hv]; [congruence|].
    assert (X : rows' = []).
    { assert (Hread : exists r, read_records StartRecord [] [] s = [] \/ read_records StartRecord [] [] s = [r]).
      { cbn [mark map app] in Eu. destruct s as [|a [|b [|c s]]]; cbn [app] in Eu.
        - exists []. left. reflexivity.
        - injection Eu as -> _. eexists. right. reflexivity.
        - injection Eu as -> -> _. eexists. right. reflexivity.
        - injection Eu as -> -> -> _. destruct (Hv s). reflexivity. }
      destruct Hread as (r & Hread). destruct Sv as [(_ & ->)|(header & records & R & F)]; auto. apply records_spec in R. rewrite R in Hread.
      destruct Hread as [Hread|Hread]; [discriminate|]. injection Hread as _ ->. inversion F; auto. }
    subst rows'. exists 0, []. split; auto.
Qed.
End Cut.
Lemma outputs_cut parse_float reads_hex skips_mark s t rows rows' :
  says_outputs parse_float reads_hex skips_mark (s ++ t) rows -> says_outputs parse_float reads_hex skips_mark s rows' ->
  exists k last, rows' = firstn k rows ++ last /\ List.length last <= 1.
Proof.
  intros (u & Au & Su) (v & Av & Sv). eapply marks_cut; eauto. intros header r a a' L Ha Ha'.
  apply output_spec in Ha, Ha'; auto. congruence.
Qed.
Lemma experiments_cut parse_float reads_hex skips_mark s t rows rows' :
  says_experiments parse_float reads_hex skips_mark (s ++ t) rows -> says_experiments parse_float reads_hex skips_mark s rows' ->
  exists k last, rows' = firstn k rows ++ last /\ List.length last <= 1.
Proof.
  intros (u & Au & Su) (v & Av & Sv). eapply marks_cut; eauto. intros header r a a' L Ha Ha'.
  apply experiment_spec in Ha, Ha'; auto. congruence.
Qed.
