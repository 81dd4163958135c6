(** [find_minimal_blocking_sets]. *)
From Verif Require Export P_MinQuorums.
Local Open Scope list_scope.

Lemma no_repetitions_nodup q : no_repetitions q <-> nodup_qset q.
Proof.
  unfold no_repetitions, nodup_qset. rewrite <- contains_duplicates_false, <- not_true_iff_false, contains_duplicates_spec. split.
  - intros H (x & Hx). specialize (H x). lia.
  - intros H x. destruct (le_lt_dec (times_mentioned x q) 1); auto. exfalso. apply H. exists x. lia.
Qed.

(** ** the dual quorum set: satisfied by what makes the original unsatisfiable *)
Fixpoint dual (q : qset) : qset :=
  let 'QS t vs is_ := q in QS (blocking_threshold (QS t vs is_)) vs (map dual is_).

Lemma sane_inv t vs is_ : sane (QS t vs is_) ->
  1 <= t /\ t <= List.length vs + List.length is_ /\ forall i, In i is_ -> sane i.
Proof. inversion 1; subst; auto. Qed.

Lemma to_blocking_sets_dual q : to_blocking_sets q = to_quorum_slices (dual q).
Proof.
  induction q as [t vs is_ IH] using qset_ind'. cbn [to_blocking_sets dual to_quorum_slices]. f_equal. f_equal.
  rewrite map_map. apply map_ext_in. auto.
Qed.

Lemma dual_contained q : contained_nodes_with_duplicates (dual q) = contained_nodes_with_duplicates q.
Proof.
  induction q as [t vs is_ IH] using qset_ind'. cbn [dual contained_nodes_with_duplicates]. f_equal.
  induction is_ as [|i is_ IHi]; simpl; auto. rewrite IH by (left; auto). f_equal. apply IHi. intros; apply IH; right; auto.
Qed.

Lemma dual_mentions q x : mentions x (dual q) <-> mentions x q.
Proof. rewrite <- !contained_list_spec, dual_contained. tauto. Qed.

Lemma dual_nodup q : nodup_qset (dual q) <-> nodup_qset q.
Proof. unfold nodup_qset. rewrite dual_contained. tauto. Qed.

Lemma filter_compl {A} (g h : A -> bool) l : (forall a, In a l -> g a = negb (h a)) ->
  List.length (filter g l) + List.length (filter h l) = List.length l.
Proof.
  induction l as [|a l IH]; intro H; simpl; auto. rewrite (H a) by (left; auto).
  assert (H' : forall b, In b l -> g b = negb (h b)) by (intros; apply H; right; auto). specialize (IH H').
  destruct (h a); simpl; lia.
Qed.

Lemma filter_map_length {A B} (g : B -> bool) (m : A -> B) l :
  List.length (filter g (map m l)) = List.length (filter (fun a => g (m a)) l).
Proof. induction l as [|a l IH]; simpl; auto. destruct (g (m a)); simpl; auto. Qed.

Lemma dual_slice q : sane q -> forall s s', (forall x, mentions x q -> mem x s' = negb (mem x s)) ->
  is_quorum_slice (dual q) s = negb (is_quorum_slice q s').
Proof.
  induction q as [t vs is_ IH] using qset_ind'. intros Hs s s' Hc.
  destruct (sane_inv _ _ _ Hs) as (H1 & H2 & H3).
  apply eq_true_iff_eq. rewrite negb_true_iff, <- not_true_iff_false. cbn [dual].
  rewrite !is_quorum_slice_matches. unfold matches. rewrite filter_map_length.
  assert (Hv := filter_compl (fun x => mem x s') (fun x => mem x s) vs).
  assert (Hi := filter_compl (fun i => is_quorum_slice (dual i) s) (fun i => is_quorum_slice i s') is_).
  rewrite <- Hv, <- Hi in H2.
  2:{ intros i Hin. apply IH; auto. intros x Hx. apply Hc. eright; eauto. }
  2:{ intros x Hx. apply Hc. left; auto. }
  unfold blocking_threshold.
  assert (Hv' : List.length (filter (fun x => mem x s') vs) + List.length (filter (fun x => mem x s) vs) = List.length vs).
  { apply Hv. intros x Hx. apply Hc. left; auto. }
  assert (Hi' : List.length (filter (fun i => is_quorum_slice (dual i) s) is_) + List.length (filter (fun i => is_quorum_slice i s') is_) = List.length is_).
  { apply Hi. intros i Hin. apply IH; auto. intros x Hx. apply Hc. eright; eauto. }
  rewrite (leb_correct t) by lia. lia.
Qed.

(** ** blocking within a cluster *)
Section Cluster.
Variable f : fbas.
Variable c : bset.

Definition cblocking (B : bset) : Prop := incl_set B c /\ contains_quorum (diff c B) f = false.

Lemma cblocking_dec B : cblocking B \/ ~ cblocking B.
Proof.
  unfold cblocking. destruct (subset B c) eqn:Es.
  - apply incl_subset in Es. destruct (contains_quorum (diff c B) f); [right|left]; intuition discriminate.
  - right. intros [H _]. apply incl_subset in H. congruence.
Qed.

Lemma cblocking_mono B B' : incl_set B B' -> incl_set B' c -> cblocking B -> cblocking B'.
Proof.
  intros Hi Hc [_ H]. split; auto. apply not_true_iff_false. intro H'.
  assert (contains_quorum (diff c B) f = true); [|congruence]. eapply contains_quorum_mono; [|exact H'].
  intros x Hx. rewrite mem_diff, andb_true_iff, negb_true_iff in *. destruct Hx as [Hx Hb]. split; auto.
  apply not_true_iff_false. intro. apply not_true_iff_false in Hb. apply Hb. auto.
Qed.

Lemma diff_remove B x : mem x B = true -> mem x c = true -> diff c (remove x B) = insert x (diff c B).
Proof.
  intros H1 H2. apply bset_ext. intro y. rewrite mem_insert, !mem_diff, mem_remove.
  destruct (Nat.eqb_spec y x); subst; simpl; rewrite ?andb_false_r, ?H2, ?andb_true_r; auto.
Qed.

Lemma minimal_for_blocking_loop_iff s ids : (forall x, In x ids -> mem x s = false) -> NoDup ids ->
  (minimal_for_blocking_loop f ids s = true <-> forall x, In x ids -> contains_quorum (insert x s) f = true).
Proof.
  induction ids as [|x ids IH]; intros Hin Hnd; cbn [minimal_for_blocking_loop].
  - split; auto.
  - rewrite remove_insert by (apply Hin; left; auto). unfold is_blocked_set. inversion Hnd; subst.
    destruct (contains_quorum (insert x s) f) eqn:Ec; simpl.
    + rewrite IH; auto; [|intros; apply Hin; right; auto]. split.
      * intros H y [<-|Hy]; auto.
      * intros H y Hy. apply H. right; auto.
    + split; [discriminate|]. intro H. rewrite (H x) in Ec; [discriminate|left; auto].
Qed.

Lemma is_minimal_blocking_iff B : cblocking B ->
  (is_minimal_for_blocking_set_with_precomputed_blocked_set B (diff c B) f = true <-> minimal cblocking B).
Proof.
  intro HB. unfold is_minimal_for_blocking_set_with_precomputed_blocked_set.
  rewrite minimal_for_blocking_loop_iff; [|intros x Hx; apply elements_spec in Hx; rewrite mem_diff, Hx; apply andb_false_r|apply elements_nodup].
  assert (HBc : incl_set B c) by apply HB. split.
  - intro H. split; auto. intros B' HB' Hi. apply incl_antisym; auto. intros x Hx.
    destruct (mem x B') eqn:Ex; auto. exfalso.
    specialize (H x (proj2 (elements_spec x B) Hx)).
    assert (Hr : cblocking (remove x B)).
    { eapply cblocking_mono; [|  |exact HB'].
      - apply incl_remove. auto.
      - intros y Hy. rewrite mem_remove, andb_true_iff in Hy. apply HBc. tauto. }
    destruct Hr as [_ Hr]. rewrite diff_remove in Hr; auto. congruence.
  - intros [_ Hm] x Hx. apply elements_spec in Hx. apply not_false_iff_true. intro Hc.
    assert (E : remove x B = B).
    { apply Hm; [split|].
      - intros y Hy. rewrite mem_remove, andb_true_iff in Hy. apply HBc. tauto.
      - rewrite diff_remove; auto.
      - intros y Hy. rewrite mem_remove, andb_true_iff in Hy. tauto. }
    rewrite <- E, mem_remove, Nat.eqb_refl, andb_false_r in Hx. discriminate.
Qed.

Lemma diff_insert_r s x : diff c (insert x s) = remove x (diff c s).
Proof.
  apply bset_ext. intro y. rewrite mem_remove, !mem_diff, mem_insert. destruct (y =? x); simpl;
    rewrite ?andb_false_r, ?andb_true_r; auto.
Qed.

Lemma blocking_step_spec : forall unprocessed selection found changed,
  NoDup unprocessed -> (forall x, In x unprocessed -> mem x selection = false) ->
  incl_set (union selection (of_list unprocessed)) c ->
  (changed = false -> contains_quorum (diff c selection) f = true) ->
  let remaining := diff c selection in
  let max_remaining := diff c (union selection (of_list unprocessed)) in
  exists new, minimal_blocking_sets_finder_step f unprocessed selection remaining max_remaining found changed
              = (selection, remaining, max_remaining, found ++ new) /\
    NoDup new /\
    forall B, In B new <-> minimal cblocking B /\ incl_set selection B /\ incl_set B (union selection (of_list unprocessed)).
Proof.
  induction unprocessed as [|x l IH]; intros sel found changed Hnd Hdis Hc Hch rem mrem; cbn [minimal_blocking_sets_finder_step];
    assert (Hsc : incl_set sel c) by (intros y Hy; apply Hc; rewrite mem_union, Hy; auto).
  - assert (Ea : union sel (of_list []) = sel).
    { apply bset_ext. intro y. rewrite mem_union, mem_of_nil, orb_false_r. auto. }
    rewrite Ea. destruct (changed && is_blocked_set rem f) eqn:Eq.
    + apply andb_true_iff in Eq. destruct Eq as [_ Eq]. unfold is_blocked_set in Eq. apply negb_true_iff in Eq.
      assert (HB : cblocking sel) by (split; auto).
      destruct (is_minimal_for_blocking_set_with_precomputed_blocked_set sel rem f) eqn:Em.
      * apply (is_minimal_blocking_iff sel HB) in Em. exists [sel]. split; auto.
        split; [constructor; [simpl; tauto|constructor]|]. intro Q. simpl. split.
        -- intros [<-|[]]. split; auto. split; apply incl_refl.
        -- intros (HQ & H1 & H2). left. apply incl_antisym; auto.
      * exists []. rewrite app_nil_r. split; auto. split; [constructor|]. intro Q. split; [intros []|].
        intros (HQ & H1 & H2). assert (E : sel = Q) by (apply incl_antisym; auto). subst Q.
        apply (is_minimal_blocking_iff sel HB) in HQ. fold rem in HQ. congruence.
    + exists []. rewrite app_nil_r. split; auto. split; [constructor|]. intro Q. split; [intros []|].
      intros (HQ & H1 & H2). assert (Q = sel) by (apply incl_antisym; auto). subst Q.
      destruct HQ as [[_ HQ] _]. fold rem in HQ, Hch. unfold is_blocked_set in Eq. rewrite HQ, andb_true_r in Eq.
      rewrite Hch in HQ; [discriminate|auto].
  - inversion Hnd as [|? ? Hx Hnd']; subst.
    assert (Hxs : mem x sel = false) by (apply Hdis; left; auto).
    assert (Hxc : mem x c = true).
    { apply Hc. rewrite mem_union, orb_true_iff, mem_of_list. simpl. auto. }
    destruct (changed && is_blocked_set rem f) eqn:Eq.
    + apply andb_true_iff in Eq. destruct Eq as [_ Eq]. unfold is_blocked_set in Eq. apply negb_true_iff in Eq.
      assert (HB : cblocking sel) by (split; auto).
      destruct (is_minimal_for_blocking_set_with_precomputed_blocked_set sel rem f) eqn:Em.
      * apply (is_minimal_blocking_iff sel HB) in Em. exists [sel]. split; auto.
        split; [constructor; [simpl; tauto|constructor]|]. intro Q. simpl. split.
        -- intros [<-|[]]. split; auto. split; [apply incl_refl|]. intros y Hy. rewrite mem_union, Hy. auto.
        -- intros (HQ & H1 & H2). left. destruct HQ as [HQ Hm]. apply Hm; auto.
      * exists []. rewrite app_nil_r. split; auto. split; [constructor|]. intro Q. split; [intros []|].
        intros (HQ & H1 & H2). assert (E : sel = Q) by (destruct HQ as [HQ Hm]; apply Hm; auto). subst Q.
        apply (is_minimal_blocking_iff sel HB) in HQ. fold rem in HQ. congruence.
    + assert (Hnq : contains_quorum rem f = true).
      { unfold is_blocked_set in Eq. destruct (contains_quorum rem f) eqn:Er; auto. rewrite andb_true_r in Eq.
        fold rem in Hch. rewrite Hch in Er; auto. }
      destruct (IH (insert x sel) found true) as (new1 & E1 & N1 & S1); auto.
      { intros y Hy. rewrite mem_insert. apply orb_false_iff. split; [|apply Hdis; right; auto].
        apply Nat.eqb_neq. intros ->. auto. }
      { rewrite union_cons_l. auto. }
      { discriminate. }
      rewrite union_cons_l in E1, S1. rewrite diff_insert_r in E1. fold rem in E1. fold mrem in E1.
      cbv zeta. rewrite E1. rewrite remove_insert by auto.
      assert (Hrx : mem x rem = true) by (unfold rem; rewrite mem_diff, Hxc, Hxs; auto).
      rewrite insert_remove by auto.
      assert (Hm : insert x mrem = diff c (union sel (of_list l))).
      { unfold mrem. rewrite <- (remove_cons sel x l) by auto. symmetry. apply diff_remove; auto.
        rewrite mem_union, orb_true_iff, mem_of_list. simpl. auto. }
      assert (Hmx : mem x mrem = false).
      { unfold mrem. rewrite mem_diff, mem_union, orb_comm. replace (mem x (of_list (x :: l))) with true; [apply andb_false_r|].
        symmetry. apply mem_of_list. left; auto. }
      assert (Hback : remove x (diff c (union sel (of_list l))) = mrem).
      { rewrite <- Hm. apply remove_insert. auto. }
      rewrite !Hm.
      assert (Hav : forall Q, incl_set Q (union sel (of_list l)) <-> incl_set Q (union sel (of_list (x :: l))) /\ mem x Q = false).
      { intro Q. rewrite <- (remove_cons sel x l) by auto. apply incl_remove. }
      unfold is_blocked_set at 1. destruct (contains_quorum (diff c (union sel (of_list l))) f) eqn:Es; simpl negb; cbv iota.
      * rewrite Hback. exists new1. split; auto. split; auto. intro Q. rewrite S1, incl_insert. split; [tauto|].
        intros (HQ & H1 & H2). split; auto. split; auto. split; auto.
        destruct (mem x Q) eqn:Ex; auto. exfalso.
        destruct HQ as [[_ HQ] _].
        assert (contains_quorum (diff c Q) f = true); [|congruence]. eapply contains_quorum_mono; [|exact Es].
        intros y Hy. rewrite mem_diff, andb_true_iff, negb_true_iff in *. destruct Hy as [Hy Hn]. split; auto.
        apply not_true_iff_false. intro HyQ. apply not_true_iff_false in Hn. apply Hn. apply (proj2 (Hav Q)); auto.
      * destruct (IH sel (found ++ new1) false) as (new2 & E2 & N2 & S2); auto.
        { intros y Hy. apply Hdis. right; auto. }
        { intros y Hy. apply Hc. rewrite mem_union, orb_true_iff, mem_of_list in *. simpl. tauto. }
        fold rem in E2. rewrite E2. cbv iota beta. rewrite Hback. exists (new1 ++ new2). rewrite app_assoc. split; auto. split.
        -- apply NoDup_app_intro; auto. intros Q H1 H2. apply S1 in H1. apply S2 in H2. rewrite Hav in H2.
           rewrite incl_insert in H1. destruct H1 as (_ & (H1 & _) & _). destruct H2 as (_ & _ & _ & H2). congruence.
        -- intro Q. rewrite in_app_iff, S1, S2, Hav, incl_insert. destruct (mem x Q); intuition discriminate.
Qed.

(** symmetric cluster *)
Lemma sym_cblocking_iff q B : contained_nodes q = c -> (forall x, mem x c = true -> qset_of f x = q) -> incl_set B c ->
  (cblocking B <-> is_quorum_slice q (diff c B) = false).
Proof.
  intros Hc Hall Hi. unfold cblocking. assert (Hd : incl_set (diff c B) c).
  { intros x Hx. rewrite mem_diff, andb_true_iff in Hx. tauto. }
  rewrite <- !not_true_iff_false, contains_quorum_iff. split.
  - intros [_ H] Hs. apply H. exists (diff c B). split; [apply incl_refl|]. eapply sym_quorum_iff; eauto.
  - intro H. split; auto. intros (Q & HQi & HQ). apply H.
    apply (sym_quorum_iff f q c Hall Q) in HQ; [|eapply incl_trans; eauto].
    eapply is_quorum_slice_mono; eauto.
Qed.

Lemma to_blocking_sets_iff q B : contained_nodes q = c -> (forall x, mem x c = true -> qset_of f x = q) ->
  sane q -> nodup_qset q -> (In B (to_blocking_sets q) <-> minimal cblocking B).
Proof.
  intros Hc Hall Hs Hn. rewrite to_blocking_sets_dual, (to_quorum_slices_exact (dual q) B) by (apply dual_nodup; auto).
  assert (Hd : forall B, incl_set B c -> (is_quorum_slice (dual q) B = true <-> cblocking B)).
  { clear B. intros B Hi. rewrite (sym_cblocking_iff q B Hc Hall Hi), (dual_slice q Hs B (diff c B)).
    - apply negb_true_iff.
    - intros x Hx. apply contained_nodes_spec in Hx. rewrite Hc in Hx. rewrite mem_diff, Hx. auto. }
  assert (Hin : forall B, slice (fun x => mem x B = true) (dual q) -> (forall B', slice (fun x => mem x B' = true) (dual q) -> incl_set B' B -> B' = B) -> incl_set B c).
  { clear B. intros B H1 H2. rewrite <- (H2 (inter B c)).
    - intros x Hx. rewrite mem_inter, andb_true_iff in Hx. tauto.
    - apply is_quorum_slice_iff. apply is_quorum_slice_iff in H1. rewrite <- H1. apply is_quorum_slice_local.
      intros x Hx. rewrite dual_mentions, <- contained_nodes_spec, Hc in Hx. rewrite mem_inter, Hx, andb_true_r. auto.
    - intros x Hx. rewrite mem_inter, andb_true_iff in Hx. tauto. }
  split.
  - intros [H1 H2]. assert (Hi := Hin B H1 H2). apply is_quorum_slice_iff in H1. split; [apply Hd; auto|].
    intros B' HB' Hi'. apply H2; auto. apply is_quorum_slice_iff. apply Hd; auto. apply HB'.
  - intros [H1 H2]. assert (Hi : incl_set B c) by apply H1. split.
    + apply is_quorum_slice_iff. apply Hd; auto.
    + intros B' HB' Hi'. apply H2; auto. apply Hd; [eapply incl_trans; eauto|]. apply is_quorum_slice_iff; auto.
Qed.
End Cluster.

(** ** all clusters *)
Section Main.
Variable E : ext.
Hypothesis HE : ext_ok E.
Variable f : fbas.
Hypothesis Hwf : wf_fbas f.
(** symmetric clusters have no repeated validators and only thresholds that can be met *)
Hypothesis Hgood : forall q, satisfiable_cluster f q -> no_repetitions q /\ sane q.

Lemma blocking_sets_in_cluster_spec c : In c (consensus_clusters E f) ->
  exists l, blocking_sets_in_cluster E f c = Ok l /\ NoDup l /\ forall B, In B l <-> minimal (cblocking f c) B.
Proof.
  intro Hc. unfold blocking_sets_in_cluster.
  destruct (find_symmetric_cluster_cases E HE f Hwf c Hc) as [[Es _]|(q & Es & Ef & Hq & Hall)]; rewrite Es; simpl.
  - assert (Hcn := cluster_nodes E f c Hc).
    destruct (blocking_step_spec f c (rank_sort E f (elements c)) bempty [] true) as (new & En & Nn & Sn).
    + apply rank_sort_nodup; auto.
    + intros; apply mem_empty.
    + intros x Hx. rewrite mem_union, mem_empty, rank_sort_of_list in Hx; auto.
    + discriminate.
    + assert (E1 : union bempty (of_list (rank_sort E f (elements c))) = c).
      { apply bset_ext. intro x. rewrite mem_union, mem_empty, rank_sort_of_list; auto. }
      assert (E2 : diff c bempty = c).
      { apply bset_ext. intro x. rewrite mem_diff, mem_empty, andb_true_r. auto. }
      assert (E3 : diff c c = bempty).
      { apply bset_ext. intro x. rewrite mem_diff, mem_empty. apply andb_negb_r. }
      rewrite E1, E2, E3 in En. rewrite E1 in Sn. rewrite rank_sort_of_list by auto. rewrite En. exists new.
      split; auto. split; auto. intro B. rewrite Sn. split; [tauto|]. intro H. split; auto. split.
      * intros x Hx. rewrite mem_empty in Hx. discriminate.
      * apply H.
  - assert (Hsc : satisfiable_cluster f q).
    { apply (found_cluster_satisfiable E HE f Hwf c q Hc Ef). }
    destruct (Hgood q Hsc) as [Hrep Hsane]. apply no_repetitions_nodup in Hrep.
    assert (Hcd := Hrep). apply contains_duplicates_false in Hcd. unfold to_minimal_blocking_sets. rewrite Hcd.
    exists (to_blocking_sets q). split; auto. split.
    + rewrite to_blocking_sets_dual. apply to_quorum_slices_nodup. apply dual_nodup; auto.
    + intro B. apply to_blocking_sets_iff; auto.
Qed.

(** [B] blocks all quorums iff it blocks within each cluster *)
Lemma blocking_clusters B : blocking f B <-> forall c, In c (consensus_clusters E f) -> cblocking f c (inter B c).
Proof.
  split.
  - intros HB c Hc. split.
    + intros x Hx. rewrite mem_inter, andb_true_iff in Hx. tauto.
    + apply contains_quorum_false. intros Q HQ Hi. destruct (HB Q HQ) as (x & Hx & HxQ). apply Hi in HxQ.
      rewrite mem_diff, mem_inter, Hx in HxQ. simpl in HxQ. rewrite andb_negb_r in HxQ. discriminate.
  - intros H Q HQ. destruct (minimal_quorum_below f Q HQ) as (m & Hm & Hmm).
    destruct (minimal_quorum_cluster E HE f Hwf m Hmm) as (c & Hc & Hmc).
    destruct (H c Hc) as [_ Hb]. rewrite contains_quorum_false in Hb.
    destruct (disjoint B Q) eqn:Ed; [|apply not_disjoint_meets; auto]. exfalso.
    apply (Hb m); [apply Hmm|]. intros x Hx. rewrite mem_diff, mem_inter, (Hmc x Hx), andb_true_r. simpl.
    rewrite disjoint_iff in Ed. destruct (mem x B) eqn:Ex; auto. exfalso. eauto.
Qed.

(** a choice of one set per cluster *)
Lemma choice_inter clusters p : incl clusters (consensus_clusters E f) -> NoDup clusters ->
  Forall2 (fun B c => incl_set B c) p clusters ->
  Forall2 (fun B c => inter (unions p) c = B) p clusters.
Proof.
  intros Hi Hnd Hp.
  assert (H : forall p0 cl0, (exists p1 cl1, p = p1 ++ p0 /\ clusters = cl1 ++ cl0 /\ Forall2 (fun B c => incl_set B c) p1 cl1) ->
            Forall2 (fun B c => incl_set B c) p0 cl0 -> Forall2 (fun B c => inter (unions p) c = B) p0 cl0).
  { intros p0 cl0 Hex Hp0. revert Hex. induction Hp0 as [|B c p0 cl0 HB Hp0 IH]; intros (p1 & cl1 & E1 & E2 & H1); constructor.
    - apply bset_ext. intro x. apply eq_true_iff_eq. rewrite mem_inter, andb_true_iff, mem_unions. split.
      + intros [(B' & HB' & Hx) Hxc].
        destruct (Forall2_pair_l _ _ _ B' Hp HB') as (c' & Hpair & Hc' & HBc').
        assert (c' = c).
        { apply (clusters_disjoint E HE f Hwf c' c x); auto. apply Hi. rewrite E2, in_app_iff. simpl; auto. }
        subst c'. replace B with B'; auto. apply (combine_fun p clusters B' B c); auto.
        rewrite E1, E2. clear - H1. induction H1; simpl; auto.
      + intro Hx. split; auto. exists B. split; auto. rewrite E1, in_app_iff. simpl; auto.
    - apply IH. exists (p1 ++ [B]), (cl1 ++ [c]). rewrite <- !app_assoc. repeat split; auto. apply Forall2_app; auto. }
  apply (H p clusters); auto. exists [], []. repeat split; auto.
Qed.

Lemma find_minimal_blocking_sets_spec : (exists Q, quorum f Q) ->
  exists l, find_minimal_blocking_sets E f = Ok l /\ StronglySorted before l /\
    forall B, In B l <-> minimal_blocking f B.
Proof.
  intro Hex. unfold find_minimal_blocking_sets, find_minimal_sets, find_sets, minimal_blocking_sets_finder.
  assert (Hne : consensus_clusters E f <> []).
  { rewrite (clusters_none E HE f Hwf). intro H. destruct Hex as (Q & HQ). eapply H; eauto. }
  assert (Hmap : forall cl, incl cl (consensus_clusters E f) -> exists per, mapM (blocking_sets_in_cluster E f) cl = Ok per /\
       Forall2 (fun l c => NoDup l /\ forall B, In B l <-> minimal (cblocking f c) B) per cl).
  { induction cl as [|c cl IH]; intro Hi; simpl.
    - exists []. split; auto.
    - destruct (blocking_sets_in_cluster_spec c) as (l & El & Nl & Sl); [apply Hi; left; auto|].
      destruct IH as (per & Ep & Hp); [intros d Hd; apply Hi; right; auto|].
      rewrite El. simpl. rewrite Ep. simpl. exists (l :: per). split; auto. }
  destruct (Hmap (consensus_clusters E f)) as (per & Ep & Hper); [intros c Hc; auto|].
  rewrite Ep. simpl. eexists. split; [reflexivity|].
  assert (Hin : forall B, In B (map unions (multi_cartesian_product per)) <->
            exists p, B = unions p /\ Forall2 (fun B c => minimal (cblocking f c) B) p (consensus_clusters E f)).
  { intro B. rewrite in_map_iff. split.
    - intros (p & <- & Hp). exists p. split; auto. apply mcp_spec in Hp. destruct Hp as [_ Hp].
      clear - Hp Hper. revert p Hp. induction Hper as [|l c per cl [_ Hl] Hper IH]; intros p Hp; inversion Hp; subst; constructor; auto.
      apply Hl; auto.
    - intros (p & -> & Hp). exists p. split; auto. apply mcp_spec. split.
      + intros ->. inversion Hper; subst. apply Hne; auto.
      + clear - Hp Hper. revert p Hp. induction Hper as [|l c per cl [_ Hl] Hper IH]; intros p Hp; inversion Hp; subst; constructor; auto.
        apply Hl; auto. }
  assert (Hcl : forall p, Forall2 (fun B c => minimal (cblocking f c) B) p (consensus_clusters E f) ->
            Forall2 (fun B c => incl_set B c) p (consensus_clusters E f)).
  { intros p. apply Forall2_impl. intros B c [[H _] _]. auto. }
  assert (Hself : incl (consensus_clusters E f) (consensus_clusters E f)) by (intros c Hc; auto).
  assert (Hndc := clusters_nodup E HE f Hwf).
  split.
  - apply sort_sets_strict. apply NoDup_map_inj.
    + (* choices are distinct lists *)
      assert (Hpn : forall per, Forall (@NoDup bset) per -> NoDup (product per)).
      { clear. induction per as [|l per IH]; intro H; simpl; [constructor; auto; constructor|]. inversion H; subst.
        apply NoDup_flat_map; auto.
        - intros a _. apply NoDup_map_inj; auto. congruence.
        - intros a b x _ _ Ha Hb. apply in_map_iff in Ha, Hb. destruct Ha as (? & <- & _). destruct Hb as (? & Eb & _). congruence. }
      unfold multi_cartesian_product. destruct per; [constructor|]. apply Hpn.
      clear - Hper. induction Hper; constructor; tauto.
    + intros p p' Hp Hp' Eu.
      assert (G : forall p, In p (multi_cartesian_product per) -> Forall2 (fun B c => minimal (cblocking f c) B) p (consensus_clusters E f)).
      { intros r Hr. apply mcp_spec in Hr. destruct Hr as [_ Hr].
        clear - Hr Hper. revert r Hr. induction Hper as [|l c per cl [_ Hl] Hper IH]; intros p Hp; inversion Hp; subst; constructor; auto.
        apply Hl; auto. }
      assert (I1 := choice_inter _ p Hself Hndc (Hcl p (G p Hp))).
      assert (I2 := choice_inter _ p' Hself Hndc (Hcl p' (G p' Hp'))).
      rewrite Eu in I1. revert I1 I2. clear. generalize (unions p').
      intros u I1 I2. revert p I1. induction I2 as [|B c p' cl HB I2 IH]; intros p I1; inversion I1; subst; auto. f_equal. auto.
  - intro B. rewrite sort_sets_in, Hin. split.
    + intros (p & -> & Hp). assert (I := choice_inter _ p Hself Hndc (Hcl p Hp)).
      assert (Hb : forall c, In c (consensus_clusters E f) -> minimal (cblocking f c) (inter (unions p) c)).
      { intros c Hc. destruct (Forall2_pair_r _ _ _ c I Hc) as (B & Hpair & HB & EB). rewrite EB.
        destruct (Forall2_pair_r _ _ _ c Hp Hc) as (B' & Hpair' & _ & HB').
        replace B with B'; auto. apply (combine_fun p (consensus_clusters E f) B' B c); auto. }
      split.
      * apply blocking_clusters. intros c Hc. apply Hb; auto.
      * intros B' HB' Hi. apply incl_antisym; auto. intros x Hx.
        assert (Hxc : exists c, In c (consensus_clusters E f) /\ mem x c = true).
        { apply mem_unions in Hx. destruct Hx as (B & HB & Hx). destruct (Forall2_in_l _ _ _ B (Hcl p Hp) HB) as (c & Hc & HBc).
          exists c. split; auto. }
        destruct Hxc as (c & Hc & Hxc).
        assert (E' : inter B' c = inter (unions p) c).
        { apply (Hb c Hc); [apply blocking_clusters; auto|]. intros y Hy. rewrite mem_inter, andb_true_iff in *. split; [apply Hi|]; tauto. }
        assert (Hm : mem x (inter B' c) = true) by (rewrite E', mem_inter, Hx, Hxc; auto).
        rewrite mem_inter, andb_true_iff in Hm. tauto.
    + intros [HB Hm]. exists (map (inter B) (consensus_clusters E f)).
      assert (Hu : incl_set (unions (map (inter B) (consensus_clusters E f))) B).
      { intros x Hx. apply mem_unions in Hx. destruct Hx as (s & Hs & Hx). apply in_map_iff in Hs.
        destruct Hs as (c & <- & _). rewrite mem_inter, andb_true_iff in Hx. tauto. }
      assert (Hbc := proj1 (blocking_clusters B) HB).
      assert (Eu : unions (map (inter B) (consensus_clusters E f)) = B).
      { apply Hm; auto. apply blocking_clusters. intros c Hc. eapply cblocking_mono; [| |apply (Hbc c Hc)].
        - intros x Hx. rewrite mem_inter, andb_true_iff. split.
          + apply mem_unions. exists (inter B c). split; auto. apply in_map; auto.
          + rewrite mem_inter, andb_true_iff in Hx. tauto.
        - intros x Hx. rewrite mem_inter, andb_true_iff in Hx. tauto. }
      split; auto. apply Forall2_map_l.
      assert (Hmin : forall c, In c (consensus_clusters E f) -> minimal (cblocking f c) (inter B c)).
      { intros c Hc. split; auto. intros S' HS' Hi.
        (* replace the part of B in c by S' *)
        set (B' := union S' (diff B c)).
        assert (HB' : blocking f B').
        { apply blocking_clusters. intros d Hd. destruct (bset_eq_dec c d) as [<-|Hcd].
          - replace (inter B' c) with S'; auto. apply bset_ext. intro x. unfold B'. rewrite mem_inter, mem_union, mem_diff.
            destruct HS' as [HS' _]. specialize (HS' x). destruct (mem x S'), (mem x c), (mem x B); simpl; auto; symmetry; auto.
          - eapply cblocking_mono; [| |apply (Hbc d Hd)].
            + intros x Hx. rewrite mem_inter, andb_true_iff in *. destruct Hx as [Hx Hxd]. split; auto. unfold B'.
              rewrite mem_union, mem_diff, Hx. destruct (mem x c) eqn:Exc; [|apply orb_true_r].
              exfalso. apply Hcd. eapply clusters_disjoint; eauto.
            + intros x Hx. rewrite mem_inter, andb_true_iff in Hx. tauto. }
        assert (HiB : incl_set B' B).
        { intros x Hx. unfold B' in Hx. rewrite mem_union, mem_diff, orb_true_iff, andb_true_iff in Hx. destruct Hx as [Hx|[Hx _]]; auto.
          apply Hi in Hx. rewrite mem_inter, andb_true_iff in Hx. tauto. }
        assert (EB := Hm B' HB' HiB). apply incl_antisym; auto. intros x Hx. rewrite mem_inter, andb_true_iff in Hx.
        destruct Hx as [Hx Hxc]. rewrite <- EB in Hx. unfold B' in Hx. rewrite mem_union, mem_diff, Hxc, andb_false_r, orb_false_r in Hx. auto. }
      clear - Hmin. induction (consensus_clusters E f) as [|c cl IH]; constructor.
      * apply Hmin; left; auto.
      * apply IH. intros; apply Hmin; right; auto.
Qed.
End Main.
