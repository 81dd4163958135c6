(** Symmetric clusters of shrunken FBASs, in original ids. *)
From Verif Require Export P_Splitting Spec_Analysis.
Local Open Scope list_scope.

(** a quorum set without the validators outside of [K] *)
Fixpoint restrict (K : bset) (q : qset) : qset :=
  let 'QS t vs is_ := q in QS t (filter (fun x => mem x K) vs) (map (restrict K) is_).

Section Restrict.
Variable K : bset.
Let table := elements K.
Let m := shrink_map (sm_new K).

Lemma restrict_slice q s : is_quorum_slice (restrict K q) s = is_quorum_slice q (inter s K).
Proof.
  induction q as [t vs is_ IH] using qset_ind'. apply eq_true_iff_eq. cbn [restrict]. rewrite !is_quorum_slice_matches. unfold matches.
  rewrite filter_map_len. rewrite (filter_ext_in _ _ is_ IH).
  replace (List.length (filter (fun x => mem x s) (filter (fun x => mem x K) vs))) with (List.length (filter (fun x => mem x (inter s K)) vs)); [tauto|].
  clear. induction vs as [|v vs IH]; simpl; auto. rewrite mem_inter. destruct (mem v K); simpl; rewrite ?andb_true_r, ?andb_false_r; auto.
  destruct (mem v s); simpl; auto.
Qed.

Lemma assoc_mem x : (exists i, assoc Nat.eqb x m = Some i) <-> mem x K = true.
Proof.
  destruct (assoc Nat.eqb x m) as [i|] eqn:Ea.
  - assert (Ha := Ea). apply shrink_map_spec in Ha. apply nth_error_In, elements_spec in Ha. split; eauto.
  - apply shrink_map_none in Ea. rewrite Ea. split; [intros (i & H); discriminate|discriminate].
Qed.

Lemma restrict_mentions q i x : nth_error table i = Some x -> (mentions i (qset_shrunken m q) <-> mentions x (restrict K q)).
Proof.
  intro Hx. assert (Ha := proj2 (shrink_map_spec K x i) Hx). fold m in Ha.
  assert (HxK : mem x K = true) by (apply elements_spec; eapply nth_error_In; eauto).
  assert (G : forall q, mentions x (restrict K q) <-> mentions x q).
  { clear q. induction q as [t vs is_ IH] using qset_ind'. cbn [restrict]. rewrite !mentions_inv, filter_In. split.
    - intros [[H _]|(j & Hj & H)]; auto. apply in_map_iff in Hj. destruct Hj as (j0 & <- & Hj0). right. exists j0. split; auto. apply IH; auto.
    - intros [H|(j & Hj & H)]; auto. right. exists (restrict K j). split; [apply in_map; auto|]. apply IH; auto. }
  rewrite G. split.
  - intro H. apply qset_shrunken_mentions in H. destruct H as (y & Hy & E). fold table in E. congruence.
  - intro H. apply (qset_shrunken_mentions_back K q i x); auto.
Qed.

Lemma restrict_range q i : mentions i (qset_shrunken m q) -> exists x, nth_error table i = Some x.
Proof. intro H. apply qset_shrunken_mentions in H. destruct H as (x & _ & E). eauto. Qed.

Lemma list_sum_perm l l' : Permutation l l' -> list_sum l = list_sum l'.
Proof. induction 1; simpl; lia. Qed.

Lemma restrict_times q i x : nth_error table i = Some x -> times_mentioned i (qset_shrunken m q) = times_mentioned x (restrict K q).
Proof.
  intro Hx. assert (Ha := proj2 (shrink_map_spec K x i) Hx). fold m in Ha.
  assert (HxK : mem x K = true) by (apply elements_spec; eapply nth_error_In; eauto).
  induction q as [t vs is_ IH] using qset_ind'. cbn [qset_shrunken restrict times_mentioned]. f_equal.
  - assert (Hp := proj1 (Permutation_count_occ Nat.eq_dec _ _) (sort_by_perm Nat.compare (filter_map (fun old_id => assoc Nat.eqb old_id m) vs))).
    rewrite (Hp i). clear Hp IH. induction vs as [|v vs IHv]; simpl; auto.
    destruct (assoc Nat.eqb v m) as [j|] eqn:Ej.
    + assert (HvK : mem v K = true) by (apply assoc_mem; eauto). rewrite HvK. simpl.
      destruct (Nat.eq_dec j i) as [->|Hne], (Nat.eq_dec v x) as [->|Hne']; auto; exfalso.
      * apply Hne'. apply shrink_map_spec in Ej. fold table in Ej. congruence.
      * apply Hne. congruence.
    + apply shrink_map_none in Ej. rewrite Ej. auto.
  - rewrite map_map. 
    rewrite (list_sum_perm _ _ (Permutation_map _ (sort_by_perm qset_compare _))).
    induction is_ as [|j is_ IHi]; simpl; auto.
    assert (IH1 := IH j (or_introl eq_refl)). assert (IHi' := IHi (fun j Hj => IH j (or_intror Hj))).
    destruct (qset_eqb (qset_shrunken m j) qset_new) eqn:Eq; simpl.
    + apply qset_eqb_eq in Eq. rewrite Eq in IH1. simpl in IH1. lia.
    + lia.
Qed.

Lemma restrict_times_out q z : mem z K = false -> times_mentioned z (restrict K q) = 0.
Proof.
  intro Hz. induction q as [t vs is_ IH] using qset_ind'. cbn [restrict times_mentioned].
  rewrite (proj1 (count_occ_not_In Nat.eq_dec _ z)) by (rewrite filter_In; intros [_ H]; congruence). cbn [Nat.add].
  induction is_ as [|i is_ IHi]; simpl; auto. rewrite (IH i (or_introl eq_refl)), IHi; auto. intros j Hj. apply IH. right; auto.
Qed.
Lemma restrict_no_repetitions q : no_repetitions (restrict K q) -> no_repetitions (qset_shrunken m q).
Proof.
  intros H i. destruct (nth_error table i) as [x|] eqn:E.
  - rewrite (restrict_times q i x E). apply H.
  - destruct (times_mentioned i (qset_shrunken m q)) as [|k] eqn:Et; [lia|]. exfalso.
    assert (Hm : mentions i (qset_shrunken m q)).
    { apply contained_list_spec. apply (count_occ_In Nat.eq_dec). rewrite <- times_mentioned_spec. lia. }
    apply restrict_range in Hm. destruct Hm as (x & Hx). congruence.
Qed.

(** the lengths of the two lists of entries *)
Lemma restrict_vs_length vs : List.length (sort_by Nat.compare (filter_map (fun old_id => assoc Nat.eqb old_id m) vs)) =
  List.length (filter (fun x => mem x K) vs).
Proof.
  rewrite sort_by_length. induction vs as [|v vs IH]; simpl; auto. destruct (assoc Nat.eqb v m) as [i|] eqn:E.
  - assert (Hv : mem v K = true) by (apply assoc_mem; eauto). rewrite Hv. simpl. auto.
  - apply shrink_map_none in E. rewrite E. auto.
Qed.

Lemma restrict_is_length is_ : (forall i, In i is_ -> qset_shrunken m i <> qset_new) ->
  List.length (sort_by qset_compare (filter (fun i => negb (qset_eqb i qset_new)) (map (qset_shrunken m) is_))) =
  List.length (map (restrict K) is_).
Proof.
  intro H. rewrite sort_by_length, map_length, filter_map_len, forallb_filter_id; auto.
  apply forallb_forall. intros i Hi. apply negb_true_iff, not_true_iff_false. intro E. apply qset_eqb_eq in E. eapply H; eauto.
Qed.

Lemma restrict_in_inner is_ j : In j (sort_by qset_compare (filter (fun i => negb (qset_eqb i qset_new)) (map (qset_shrunken m) is_))) ->
  exists i, In i is_ /\ j = qset_shrunken m i.
Proof. intro H. apply sort_by_in, filter_In in H. destruct H as [H _]. apply in_map_iff in H. destruct H as (i & <- & Hi). eauto. Qed.

Lemma sane_not_new q : sane (restrict K q) -> qset_shrunken m q <> qset_new.
Proof. destruct q as [t vs is_]. intros H E. cbn [restrict qset_shrunken] in *. apply sane_inv in H. injection E. intros. lia. Qed.

Lemma restrict_sane q : sane (restrict K q) -> sane (qset_shrunken m q).
Proof.
  induction q as [t vs is_ IH] using qset_ind'. intro H. cbn [restrict qset_shrunken] in *. apply sane_inv in H.
  destruct H as (H1 & H2 & H3).
  assert (H4 : forall i, In i is_ -> sane (restrict K i)) by (intros i Hi; apply H3, in_map; auto). constructor; auto.
  - rewrite restrict_vs_length, restrict_is_length; auto. intros i Hi. apply sane_not_new; auto.
  - intros j Hj. apply restrict_in_inner in Hj. destruct Hj as (i & Hi & ->). auto.
Qed.

Lemma splittable_sane q : splittable q -> sane q.
Proof.
  induction q as [t vs is_ IH] using qset_ind'. intro H. apply splittable_inv in H. destruct H as (H1 & H2 & _ & H3).
  constructor; auto. lia.
Qed.

Lemma rigid_sane q : rigid q -> sane q.
Proof.
  induction q as [t vs is_ IH] using qset_ind'. intro H. apply rigid_inv in H. destruct H as (H1 & H2 & H3).
  constructor; auto. lia.
Qed.

Lemma restrict_splittable q : splittable (restrict K q) -> splittable (qset_shrunken m q).
Proof.
  induction q as [t vs is_ IH] using qset_ind'. intro H. cbn [restrict qset_shrunken] in *. apply splittable_inv in H.
  destruct H as (H1 & H2 & H3 & H4).
  assert (H5 : forall i, In i is_ -> splittable (restrict K i)) by (intros i Hi; apply H4, in_map; auto).
  assert (Hl : List.length (sort_by qset_compare (filter (fun i => negb (qset_eqb i qset_new)) (map (qset_shrunken m) is_))) = List.length (map (restrict K) is_)).
  { apply restrict_is_length. intros i Hi. apply sane_not_new, splittable_sane; auto. }
  constructor; rewrite ?restrict_vs_length, ?Hl; auto.
  - destruct H3 as [H3|H3]; auto. right. intro E. rewrite E in Hl. destruct (map (restrict K) is_); [congruence|discriminate].
  - intros j Hj. apply restrict_in_inner in Hj. destruct Hj as (i & Hi & ->). auto.
Qed.

Lemma restrict_rigid q : rigid (restrict K q) -> rigid (qset_shrunken m q).
Proof.
  induction q as [t vs is_ IH] using qset_ind'. intro H. cbn [restrict qset_shrunken] in *. apply rigid_inv in H.
  destruct H as (H1 & H2 & H4).
  assert (H5 : forall i, In i is_ -> rigid (restrict K i)) by (intros i Hi; apply H4, in_map; auto).
  assert (Hl : List.length (sort_by qset_compare (filter (fun i => negb (qset_eqb i qset_new)) (map (qset_shrunken m) is_))) = List.length (map (restrict K) is_)).
  { apply restrict_is_length. intros i Hi. apply sane_not_new, rigid_sane; auto. }
  constructor; rewrite ?restrict_vs_length, ?Hl; auto.
  intros j Hj. apply restrict_in_inner in Hj. destruct Hj as (i & Hi & ->). auto.
Qed.

(** slices with arbitrary predicates, via finite sets *)
Lemma slice_local_pred (P P' : nat -> Prop) q : (forall x, mentions x q -> P x -> P' x) -> slice P q -> slice P' q.
Proof.
  intros H Hs. revert H. induction Hs as [t vs is_ vs' is' Ht Hvs His Hv Hi IH Hl]. intros H.
  apply (slice_intro P' t vs is_ vs' is'); auto.
  - intros v Hin. apply H; auto. left. apply (subseq_in _ _ Hvs); auto.
  - intros i Hin. apply IH; auto. intros x Hx. apply H. eright; eauto. apply (subseq_in _ _ His); auto.
Qed.

Lemma slice_finite (P : nat -> Prop) q : slice P q -> exists s, (forall x, mem x s = true -> P x /\ mentions x q) /\ is_quorum_slice q s = true.
Proof.
  intro Hs. induction Hs as [t vs is_ vs' is' Ht Hvs His Hv Hi IH Hl].
  assert (G : exists s, (forall x, mem x s = true -> P x /\ mentions x (QS t vs is_)) /\
     forall i, In i is' -> is_quorum_slice i s = true).
  { assert (Hsub : incl is' is_) by (intros i Hin; apply (subseq_in _ _ His); auto). clear His Hl Hi. induction is' as [|i is' IHi].
    - exists bempty. split; [intros x Hx; rewrite mem_empty in Hx; discriminate|intros i []].
    - destruct (IH i (or_introl eq_refl)) as (s1 & A1 & B1).
      destruct IHi as (s2 & A2 & B2); [intros; apply IH; right; auto|intros j Hj; apply Hsub; right; auto|].
      exists (union s1 s2). split.
      + intros x Hx. rewrite mem_union, orb_true_iff in Hx. destruct Hx as [Hx|Hx]; auto.
        destruct (A1 x Hx). split; auto. eright; eauto. apply Hsub. left; auto.
      + intros j [<-|Hj]; [eapply is_quorum_slice_mono; [apply union_incl_l|]; auto|eapply is_quorum_slice_mono; [apply union_incl_r|]; auto]. }
  destruct G as (s & A & B). exists (union (of_list vs') s). split.
  - intros x Hx. rewrite mem_union, orb_true_iff, mem_of_list in Hx. destruct Hx as [Hx|Hx]; auto. split; auto.
    left. apply (subseq_in _ _ Hvs); auto.
  - apply is_quorum_slice_iff. apply (slice_intro _ t vs is_ vs' is'); auto.
    + intros v Hin. rewrite mem_union, orb_true_iff, mem_of_list. auto.
    + intros i Hin. apply is_quorum_slice_iff. eapply is_quorum_slice_mono; [apply union_incl_r|]. auto.
Qed.

End Restrict.
