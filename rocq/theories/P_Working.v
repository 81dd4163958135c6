(** Symmetric clusters of the shrunken FBAS and of the original one. *)
From Verif Require Export P_Restrict.
Local Open Scope list_scope.

Lemma vacant_spec q : vacant q = true <-> q = qset_new.
Proof.
  destruct q as [t vs is_]. unfold vacant, qset_new. rewrite !andb_true_iff, !Nat.eqb_eq. split.
  - intros [[-> Hv] Hi]. destruct vs; [|discriminate]. destruct is_; [|discriminate]. auto.
  - intro H. injection H as -> -> ->. auto.
Qed.

Section Working.
Variable K : bset.
Let table := elements K.
Let m := shrink_map (sm_new K).

Definition position (x : nat) : nat := match assoc Nat.eqb x m with Some i => i | None => 0 end.
Fixpoint canon (q : qset) : qset :=
  let 'QS t vs is_ := q in QS t (sort_by Nat.compare (map position vs)) (sort_by qset_compare (map canon is_)).

Fixpoint kept (q : qset) : Prop :=
  let 'QS _ vs is_ := q in (forall x, In x vs -> mem x K = true) /\ fold_right and True (map kept is_).
Lemma kept_inv t vs is_ : kept (QS t vs is_) <-> (forall x, In x vs -> mem x K = true) /\ forall i, In i is_ -> kept i.
Proof.
  cbn [kept]. assert (G : fold_right and True (map kept is_) <-> forall i, In i is_ -> kept i).
  { induction is_ as [|i is_ IH]; simpl; [tauto|]. rewrite IH. split; [intros [H1 H2] j [<-|Hj]; auto|intro H; split; auto]. }
  rewrite G. tauto.
Qed.
Lemma pruned_kept q : kept (pruned K q).
Proof.
  induction q as [t vs is_ IH] using qset_ind'. cbn [pruned]. apply kept_inv. split.
  - intros x Hx. apply filter_In in Hx. tauto.
  - intros i Hi. apply filter_In in Hi. destruct Hi as [Hi _]. apply in_map_iff in Hi. destruct Hi as (j & <- & Hj). auto.
Qed.

Lemma position_at x : mem x K = true -> nth_error table (position x) = Some x.
Proof.
  intro H. unfold position. destruct (proj2 (assoc_mem K x) H) as (i & Hi). fold m in Hi. rewrite Hi. apply shrink_map_spec in Hi. auto.
Qed.
Lemma canon_new q : vacant (canon q) = vacant q.
Proof. destruct q as [t vs is_]. cbn [canon vacant]. rewrite !sort_by_length, !map_length. auto. Qed.

Lemma shrunken_canon q : qset_shrunken m q = canon (pruned K q).
Proof.
  induction q as [t vs is_ IH] using qset_ind'. cbn [qset_shrunken pruned canon]. f_equal.
  - f_equal. clear IH. induction vs as [|v vs IH]; simpl; auto. destruct (assoc Nat.eqb v m) as [i|] eqn:E.
    + assert (Hv : mem v K = true) by (apply assoc_mem; eauto). rewrite Hv. simpl. unfold position at 1. rewrite E, IH. auto.
    + apply shrink_map_none in E. rewrite E. auto.
  - f_equal. induction is_ as [|i is_ IHi]; simpl; auto. rewrite (IH i (or_introl eq_refl)). rewrite IHi by (intros; apply IH; right; auto).
    assert (Eb : qset_eqb (canon (pruned K i)) qset_new = vacant (pruned K i)).
    { apply eq_true_iff_eq. rewrite <- canon_new, vacant_spec. apply qset_eqb_eq. }
    rewrite Eb. destruct (vacant (pruned K i)); auto.
Qed.

Lemma reordered_canon p p' : reordered p p' -> canon p = canon p'.
Proof.
  revert p'. induction p as [t vs is_ IH] using qset_ind'. intros p' H. inversion H as [? ? vs' ? mid is' Hv Hm Hp]; subst. cbn [canon]. f_equal.
  - apply sort_by_perm_eq; [apply nat_cmp_ok|]. apply Permutation_map. auto.
  - apply sort_by_perm_eq; [apply qset_cmp_ok|]. replace (map canon is_) with (map canon mid); [apply Permutation_map; auto|].
    clear - Hm IH. induction Hm as [|i j is_ mid Hij Hm IHm]; simpl; auto. f_equal; [symmetry; apply IH; auto; left; auto|].
    apply IHm. intros; apply IH; auto. right; auto.
Qed.

Lemma position_perm vs vs' : (forall x, In x vs -> mem x K = true) -> (forall x, In x vs' -> mem x K = true) ->
  Permutation (map position vs) (map position vs') -> Permutation vs vs'.
Proof.
  intros H H' P. apply (Permutation_map (fun i => nth i table 0)) in P. rewrite !map_map in P.
  assert (G : forall l, (forall x, In x l -> mem x K = true) -> map (fun x => nth (position x) table 0) l = l).
  { intros l Hl. rewrite <- (map_id l) at 2. apply map_ext_in. intros x Hx. apply nth_error_nth. apply position_at. auto. }
  rewrite !G in P; auto.
Qed.

Lemma sort_perm_back {A} (cmp : A -> A -> comparison) l l' : sort_by cmp l = sort_by cmp l' -> Permutation l l'.
Proof. intro E. etransitivity; [symmetry; apply (sort_by_perm cmp)|]. rewrite E. apply sort_by_perm. Qed.

Lemma canon_reordered p p' : kept p -> kept p' -> canon p = canon p' -> reordered p p'.
Proof.
  revert p'. induction p as [t vs is_ IH] using qset_ind'. intros [t' vs' is'] H H' E. rewrite kept_inv in H, H'. cbn [canon] in E.
  injection E as -> Ev Ei. apply sort_perm_back in Ev, Ei. destruct H as [H1 H2], H' as [H1' H2'].
  apply Permutation_map_inv in Ei. destruct Ei as (mid & Em & Hp).
  apply (reordered_intro t' vs vs' is_ mid is').
  - apply position_perm; auto.
  - assert (H3 : forall i, In i mid -> kept i) by (intros i Hi; apply H2', (Permutation_in _ (Permutation_sym Hp)); auto).
    clear - IH H2 H3 Em. revert mid H3 Em. induction is_ as [|i is_ IHi]; intros [|j mid] H3 Em; try discriminate; constructor; injection Em as E1 E2.
    + apply IH; auto; [left; auto|apply H2; left; auto|apply H3; left; auto].
    + apply IHi; auto; [intros; apply IH; auto; right; auto|intros; apply H2; right; auto|intros; apply H3; right; auto].
  - symmetry. auto.
Qed.

Lemma reordered_times x p p' : reordered p p' -> times_mentioned x p = times_mentioned x p'.
Proof.
  revert p'. induction p as [t vs is_ IH] using qset_ind'. intros p' H. inversion H as [? ? vs' ? mid is' Hv Hm Hp]; subst. cbn [times_mentioned]. f_equal.
  - apply (proj1 (Permutation_count_occ Nat.eq_dec _ _) Hv).
  - rewrite <- (list_sum_perm _ _ (Permutation_map (times_mentioned x) Hp)). f_equal. clear - Hm IH.
    induction Hm as [|i j is_ mid Hij Hm IHm]; simpl; auto. f_equal; [apply IH; auto; left; auto|]. apply IHm. intros; apply IH; auto. right; auto.
Qed.

(** the conditions on clusters *)
Lemma canon_inner is_ j : In j (sort_by qset_compare (map canon is_)) <-> exists i, In i is_ /\ j = canon i.
Proof. rewrite sort_by_in, in_map_iff. split; intros (i & H1 & H2); exists i; auto. Qed.
Lemma canon_sane p : sane (canon p) <-> sane p.
Proof.
  induction p as [t vs is_ IH] using qset_ind'. cbn [canon]. split; intro H; apply sane_inv in H; destruct H as (H1 & H2 & H3).
  - rewrite !sort_by_length, !map_length in H2. constructor; auto. intros i Hi. apply IH; auto. apply H3, canon_inner. eauto.
  - constructor; auto; [rewrite !sort_by_length, !map_length; auto|]. intros j Hj. apply canon_inner in Hj. destruct Hj as (i & Hi & ->). apply IH; auto.
Qed.
Lemma canon_rigid p : rigid (canon p) <-> rigid p.
Proof.
  induction p as [t vs is_ IH] using qset_ind'. cbn [canon]. split; intro H; apply rigid_inv in H; destruct H as (H1 & H2 & H3).
  - rewrite !sort_by_length, !map_length in H1. constructor; auto. intros i Hi. apply IH; auto. apply H3, canon_inner. eauto.
  - constructor; auto; [rewrite !sort_by_length, !map_length; auto|]. intros j Hj. apply canon_inner in Hj. destruct Hj as (i & Hi & ->). apply IH; auto.
Qed.
Lemma canon_splittable p : splittable (canon p) <-> splittable p.
Proof.
  induction p as [t vs is_ IH] using qset_ind'. cbn [canon].
  assert (Hn : sort_by qset_compare (map canon is_) <> [] <-> is_ <> []).
  { destruct is_ as [|i is_]; [simpl; tauto|]. split; [discriminate|]. intros _ E. apply (f_equal (@List.length _)) in E. rewrite sort_by_length in E. discriminate. }
  split; intro H; apply splittable_inv in H; destruct H as (H1 & H2 & H3 & H4).
  - rewrite !sort_by_length, !map_length in H1, H2, H3. rewrite Hn in H3. constructor; auto. intros i Hi. apply IH; auto. apply H4, canon_inner. eauto.
  - constructor; rewrite ?sort_by_length, ?map_length, ?Hn; auto. intros j Hj. apply canon_inner in Hj. destruct Hj as (i & Hi & ->). apply IH; auto.
Qed.

Lemma pruned_times q x : times_mentioned x (pruned K q) = times_mentioned x (restrict K q).
Proof.
  induction q as [t vs is_ IH] using qset_ind'. cbn [pruned restrict times_mentioned]. f_equal. rewrite map_map.
  induction is_ as [|i is_ IHi]; simpl; auto. assert (IH1 := IH i (or_introl eq_refl)). rewrite <- (IHi (fun j Hj => IH j (or_intror Hj))).
  destruct (vacant (pruned K i)) eqn:Eb; simpl; [|lia]. apply vacant_spec in Eb. rewrite Eb in IH1. simpl in IH1. lia.
Qed.
Lemma times_mentions q x : mentions x q <-> 1 <= times_mentioned x q.
Proof.
  rewrite <- contained_list_spec, times_mentioned_spec. split; intro H; [apply (count_occ_In Nat.eq_dec) in H; lia|apply (count_occ_In Nat.eq_dec); lia].
Qed.
Lemma pruned_mentions q x : mentions x (pruned K q) <-> mentions x (restrict K q).
Proof. rewrite !times_mentions, pruned_times. tauto. Qed.
Lemma pruned_no_repetitions q : no_repetitions (qset_shrunken m q) <-> no_repetitions (pruned K q).
Proof.
  split.
  - intros H x. rewrite pruned_times. destruct (mem x K) eqn:Ex.
    + apply elements_spec, In_nth_error in Ex. destruct Ex as (i & Hi). rewrite <- (restrict_times K q i x Hi). apply H.
    + rewrite restrict_times_out; auto.
  - intro H. apply restrict_no_repetitions. intro x. rewrite <- pruned_times. auto.
Qed.
Lemma pruned_slice q s : is_quorum_slice (pruned K q) s = is_quorum_slice (restrict K q) s.
Proof.
  induction q as [t vs is_ IH] using qset_ind'. apply eq_true_iff_eq. cbn [pruned restrict]. rewrite !is_quorum_slice_matches. unfold matches.
  replace (List.length (filter (fun i => is_quorum_slice i s) (filter (fun i => negb (vacant i)) (map (pruned K) is_)))) with
    (List.length (filter (fun i => is_quorum_slice i s) (map (restrict K) is_))); [tauto|].
  induction is_ as [|i is_ IHi]; simpl; auto. assert (IH1 := IH i (or_introl eq_refl)). assert (IH2 := IHi (fun j Hj => IH j (or_intror Hj))).
  destruct (vacant (pruned K i)) eqn:Eb; simpl.
  - apply vacant_spec in Eb. rewrite Eb in IH1. rewrite <- IH1. simpl. auto.
  - rewrite IH1. destruct (is_quorum_slice (restrict K i) s); simpl; auto.
Qed.

Variable f : fbas.
Hypothesis HK : incl_set K (all_nodes f).

Lemma working_iff q' : satisfiable_cluster (shrunken_fbas K f) q' <-> exists q, q' = canon q /\ working_cluster f K q.
Proof.
  split.
  - intros [[(i0 & Hi0) Hall] Hs].
    assert (Hnode : forall i, mentions i q' -> exists x, nth_error table i = Some x /\ mem x K = true /\ node_of f x (qset_of f x) /\
              qset_shrunken m (qset_of f x) = q').
    { intros i Hi. assert (Hn := Hall i Hi). apply node_of_qset_of in Hn. rewrite shrunken_qset in Hn.
      fold table in Hn. fold m in Hn. destruct (nth_error table i) as [x|] eqn:Ex.
      - assert (HxK : mem x K = true) by (apply elements_spec; eapply nth_error_In; eauto).
        exists x. repeat split; auto. apply qset_of_node, mem_all_nodes, HK. auto.
      - subst q'. apply contained_list_spec in Hi. destruct Hi. }
    destruct (Hnode i0 Hi0) as (x0 & E0 & K0 & N0 & Q0). exists (pruned K (qset_of f x0)). split; [rewrite <- shrunken_canon; auto|].
    set (q := qset_of f x0) in *.
    assert (Hup : forall x, mentions x (pruned K q) -> exists i, nth_error table i = Some x /\ mentions i q').
    { intros x Hx. apply pruned_mentions in Hx. assert (HxK : mem x K = true).
      { destruct (mem x K) eqn:Ex; auto. apply times_mentions in Hx. rewrite restrict_times_out in Hx; auto. lia. }
      apply elements_spec in HxK. apply In_nth_error in HxK. destruct HxK as (i & Hi). exists i. split; auto.
      rewrite <- Q0. apply (restrict_mentions K q i x); auto. }
    split; [|split; [|split]].
    + exists x0. apply pruned_mentions, (restrict_mentions K q i0 x0); auto. fold m. rewrite Q0. auto.
    + intros x Hx. destruct (Hup x Hx) as (i & Ei & Hi). destruct (Hnode i Hi) as (y & Ey & Ky & Ny & Qy).
      replace y with x in * by congruence. exists (qset_of f x). split; auto. apply canon_reordered; try apply pruned_kept.
      rewrite <- !shrunken_canon. congruence.
    + exists x0, q. auto.
    + apply slice_finite in Hs. destruct Hs as (s & A & B). rewrite <- Q0, (qset_shrunken_slice K) in B. fold table in B.
      assert (B' : is_quorum_slice (pruned K q) (up table s) = true).
      { rewrite pruned_slice, restrict_slice. replace (inter (up table s) K) with (up table s); auto. apply bset_ext. intro z. apply eq_true_iff_eq.
        rewrite mem_inter, andb_true_iff. split; [|tauto]. intro Hz. split; auto. apply elements_spec. eapply up_range; eauto. }
      apply is_quorum_slice_iff in B'. eapply slice_mono; [|exact B']. intros z Hz. apply mem_up in Hz. destruct Hz as (i & Hi & E).
      apply pruned_mentions, (restrict_mentions K q i z E). fold m. rewrite Q0. apply A; auto.
  - intros (q & -> & (x0 & Hx0) & Hall & (x1 & q1 & Kx1 & Hq1 & ->) & Hs).
    rewrite <- shrunken_canon. split; [split|].
    + assert (HxK : mem x0 K = true).
      { apply pruned_mentions in Hx0. destruct (mem x0 K) eqn:Ex; auto. apply times_mentions in Hx0. rewrite restrict_times_out in Hx0; auto. lia. }
      apply elements_spec, In_nth_error in HxK. destruct HxK as (i & Hi). exists i. apply (restrict_mentions K q1 i x0 Hi). apply pruned_mentions. auto.
    + intros i Hi. destruct (restrict_range K q1 i Hi) as (x & Hx). assert (Hm := proj1 (restrict_mentions K q1 i x Hx) Hi). apply pruned_mentions in Hm.
      destruct (Hall x Hm) as (qx & Nx & Hr). apply reordered_canon in Hr. rewrite <- !shrunken_canon in Hr.
      assert (Hn : node_of (shrunken_fbas K f) i (qset_of (shrunken_fbas K f) i)).
      { apply qset_of_node. rewrite shrunken_nodes, len_elements. apply nth_error_Some. intro Z. unfold table in Hx. rewrite Z in Hx. discriminate. }
      rewrite shrunken_qset in Hn. fold table m in Hn. fold table in Hx. rewrite Hx in Hn. rewrite (node_of_qset_of f x qx Nx), Hr in Hn. auto.
    + apply slice_finite in Hs. destruct Hs as (s & A & B). rewrite pruned_slice, restrict_slice in B.
      rewrite <- (up_down table (inter s K)) in B.
      2: { intros z Hz. rewrite mem_inter, andb_true_iff in Hz. apply elements_spec. tauto. }
      unfold table in B. rewrite <- (qset_shrunken_slice K) in B. fold m in B. apply is_quorum_slice_iff in B. eapply slice_mono; [|exact B].
      intros i Hi. fold table in Hi. apply mem_down in Hi. destruct Hi as (z & Hz & Ei). rewrite mem_inter, andb_true_iff in Hz.
      apply (restrict_mentions K q1 i z Ei). apply pruned_mentions. apply A. tauto.
Qed.

Lemma working_all (P P' : qset -> Prop) : (forall q, P' (canon (pruned K q)) <-> P (pruned K q)) ->
  (forall q', satisfiable_cluster (shrunken_fbas K f) q' -> P' q') <-> forall q, working_cluster f K q -> P q.
Proof.
  intro HP. split.
  - intros H q Hq. assert (Hq' := Hq). destruct Hq as (_ & _ & (x & qx & _ & _ & ->) & _). apply HP. apply H. apply working_iff. eauto.
  - intros H q' Hq'. apply working_iff in Hq'. destruct Hq' as (q & -> & Hq). assert (Hp := H q Hq).
    destruct Hq as (_ & _ & (x & qx & _ & _ & ->) & _). apply HP. auto.
Qed.
End Working.
