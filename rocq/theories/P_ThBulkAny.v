(** Statements of [Th_BulkAny.v]. *)
From Coq Require Import ZArith Reals Ascii.
From Verif Require Export P_BulkAny P_ThCliAny P_Durations.
Local Open Scope string_scope.
Local Open Scope list_scope.
Local Open Scope nat_scope.

Lemma analyzable_row E digest files clock input : ext_ok E -> analyzable files input ->
  exists j f row, files (nodes_path input) = Some j /\ fbas_from_json j = Ok f /\ bulk_analyze E digest files clock input = Ok row /\
    out_label row = in_label input /\ any_node_results f row.
Proof.
  intros HE (j & l & f & H1 & H2 & H3 & H4 & H5 & H6).
  destruct (any_analyzed_row E digest files clock input j l f HE H1 H2 H3 H4 H5 H6) as (row & I & C & s & R1 & R2 & R3 & _). exists j, f, row. auto.
Qed.
Lemma any_fresh_run E digest files clock paths ignored inputs out : ext_ok E ->
  extract_inputs paths ignored = Ok (Some inputs) -> (forall i, In i inputs -> analyzable files i) -> out = Stdout \/ out = File None ->
  exists rows, bulk_main E digest files clock paths ignored out false = Ok (Some (rows, true)) /\ by_label out_label rows /\
  forall L, Forall2 (fun i row => exists j f, files (nodes_path i) = Some j /\ fbas_from_json j = Ok f /\ out_label row = in_label i /\ any_node_results f row)
    (with_label in_label L inputs) (with_label out_label L rows).
Proof.
  intros HE Hi Ha Ho. destruct (fresh_run E digest files clock paths ignored inputs out Hi) as (rows & H1 & H2 & H3); auto.
  { intros i Hin. destruct (analyzable_row E digest files clock i HE (Ha i Hin)) as (j & f & row & _ & _ & H & _). eauto. }
  exists rows. split; auto. split; auto. intro L. specialize (H3 L).
  assert (Hin : forall i, In i (with_label in_label L inputs) -> In i inputs) by (intros i H; unfold with_label in H; apply filter_In in H; apply H).
  induction H3 as [|i row is_ rs Hr HF IH]; constructor.
  - destruct (analyzable_row E digest files clock i HE (Ha i (Hin i (or_introl eq_refl)))) as (j & f & row' & K1 & K2 & K3 & K4 & K5).
    assert (row' = row) by congruence. subst row'. exists j, f. auto.
  - apply IH. intros i' H. apply Hin. now right.
Qed.
Lemma any_complete E digest files clock paths ignored inputs out update rows complete : ext_ok E ->
  extract_inputs paths ignored = Ok (Some inputs) -> (forall i, In i inputs -> analyzable files i) ->
  bulk_main E digest files clock paths ignored out update = Ok (Some (rows, complete)) -> complete = true.
Proof.
  intros HE Hi Ha Hb. apply (proj2 (proj1 (complete_run E digest files clock paths ignored inputs out update rows complete Hi Hb))).
  intros i Hin _. destruct (analyzable_row E digest files clock i HE (Ha i Hin)) as (j & f & row & _ & _ & H & _). eauto.
Qed.
Lemma hollow_analyzable : analyzable hollow_files (mk_input "x" "data/x_nodes.json" None).
Proof.
  exists hollow_json, hollow_raw, hollow_fbas. split; [reflexivity|]. split; [apply hollow_read|]. split; [apply hollow_read|].
  split; [unfold unique_keys; cbn; repeat constructor; cbn; tauto|]. split; [|discriminate].
  intros n s Hn. vm_compute in Hn. destruct Hn as [<-|[]]. intros [H|H]; discriminate.
Qed.
