(** [find_minimal_quorums] is exact. *)
From Verif Require Export P_Sets.
Local Open Scope list_scope.

Lemma insert_remove x s : mem x s = true -> insert x (remove x s) = s.
Proof.
  intro H. apply bset_ext. intro y. rewrite mem_insert, mem_remove. destruct (Nat.eqb_spec y x); subst; simpl.
  - auto. - apply andb_true_r.
Qed.

Lemma remove_insert x s : mem x s = false -> remove x (insert x s) = s.
Proof.
  intro H. apply bset_ext. intro y. rewrite mem_remove, mem_insert. destruct (Nat.eqb_spec y x); subst; simpl.
  - rewrite H. auto. - apply andb_true_r.
Qed.

Lemma incl_remove x q s : incl_set q (remove x s) <-> incl_set q s /\ mem x q = false.
Proof.
  split.
  - intro H. split.
    + intros y Hy. apply H in Hy. rewrite mem_remove, andb_true_iff in Hy. tauto.
    + apply not_true_iff_false. intro Hx. apply H in Hx. rewrite mem_remove, Nat.eqb_refl, andb_false_r in Hx. discriminate.
  - intros [H Hx] y Hy. rewrite mem_remove, andb_true_iff. split; auto. apply negb_true_iff, Nat.eqb_neq.
    intros ->. congruence.
Qed.

Lemma incl_insert x q s : incl_set (insert x s) q <-> mem x q = true /\ incl_set s q.
Proof.
  split.
  - intro H. split; [|intros y Hy]; apply H; rewrite mem_insert; [rewrite Nat.eqb_refl|rewrite Hy, orb_true_r]; auto.
  - intros [Hx H] y Hy. rewrite mem_insert, orb_true_iff, Nat.eqb_eq in Hy. destruct Hy; subst; auto.
Qed.

Lemma minimal_for_quorum_loop_iff f s ids : (forall x, In x ids -> mem x s = true) ->
  (minimal_for_quorum_loop f ids s = true <-> forall x, In x ids -> contains_quorum (remove x s) f = false).
Proof.
  induction ids as [|x ids IH]; intro Hin; cbn [minimal_for_quorum_loop].
  - split; auto. intros _ x [].
  - rewrite insert_remove by (apply Hin; left; auto).
    destruct (contains_quorum (remove x s) f) eqn:Ec.
    + split; [discriminate|]. intro H. rewrite (H x) in Ec; [discriminate|left; auto].
    + rewrite IH by (intros; apply Hin; right; auto). split.
      * intros H y [<-|Hy]; auto.
      * intros H y Hy. apply H. right; auto.
Qed.

Lemma is_minimal_for_quorum_iff f Q : quorum f Q -> (is_minimal_for_quorum Q f = true <-> minimal_quorum f Q).
Proof.
  intro HQ. unfold is_minimal_for_quorum. rewrite minimal_for_quorum_loop_iff by (intro; apply elements_spec). split.
  - intro H. split; auto. intros S' HS' Hi. apply incl_antisym; auto. intros x Hx.
    assert (Hc := H x (proj2 (elements_spec x Q) Hx)). rewrite contains_quorum_false in Hc.
    destruct (mem x S') eqn:Ex; auto. exfalso. apply (Hc S' HS'). apply incl_remove. auto.
  - intros [_ Hm] x Hx. apply elements_spec in Hx. apply contains_quorum_false. intros q Hq Hi.
    apply incl_remove in Hi. destruct Hi as [Hi Hqx]. rewrite (Hm q Hq Hi) in Hqx. congruence.
Qed.

(** The search: [available] is the selection plus the unprocessed nodes. *)
Lemma selection_satisfiable_iff f s a : selection_satisfiable s a f = true <-> forall x, mem x s = true -> sat f x a = true.
Proof.
  unfold selection_satisfiable. rewrite forallb_forall. split; intros H x Hx; apply H; apply elements_spec; auto.
Qed.

Lemma no_quorum_unsatisfiable f s a Q : selection_satisfiable s a f = false -> quorum f Q -> incl_set s Q -> incl_set Q a -> False.
Proof.
  intros Hs HQ H1 H2. apply not_true_iff_false in Hs. apply Hs. apply selection_satisfiable_iff. intros x Hx.
  apply quorum_closed in HQ. destruct HQ as [_ Hc]. eapply sat_mono; [exact H2|]. auto.
Qed.

Lemma union_cons_l s x l : union (insert x s) (of_list l) = union s (of_list (x :: l)).
Proof.
  apply bset_ext. intro y. apply eq_true_iff_eq. rewrite !mem_union, !orb_true_iff, mem_insert, orb_true_iff, Nat.eqb_eq, !mem_of_list.
  simpl. intuition.
Qed.

Lemma remove_cons s x l : mem x s = false -> ~ In x l -> remove x (union s (of_list (x :: l))) = union s (of_list l).
Proof.
  intros Hs Hl. apply bset_ext. intro y. rewrite mem_remove, !mem_union. destruct (Nat.eqb_spec y x) as [->|Hne]; simpl.
  - rewrite andb_false_r, Hs. symmetry. simpl. apply not_true_iff_false. rewrite mem_of_list. auto.
  - rewrite andb_true_r. f_equal. apply eq_true_iff_eq. rewrite !mem_of_list. simpl. intuition congruence.
Qed.

Lemma finder_step_spec f : forall unprocessed selection found changed,
  NoDup unprocessed -> (forall x, In x unprocessed -> mem x selection = false) ->
  (changed = false -> ~ quorum f selection) ->
  let available := union selection (of_list unprocessed) in
  exists new, minimal_quorums_finder_step f unprocessed selection available found changed = (selection, available, found ++ new) /\
    NoDup new /\
    forall Q, In Q new <-> minimal_quorum f Q /\ incl_set selection Q /\ incl_set Q available.
Proof.
  induction unprocessed as [|x l IH]; intros sel found changed Hnd Hdis Hch avail; cbn [minimal_quorums_finder_step].
  - assert (Ea : avail = sel).
    { unfold avail. apply bset_ext. intro y. rewrite mem_union, mem_of_nil, orb_false_r. auto. }
    destruct (changed && is_quorum f sel) eqn:Eq.
    + apply andb_true_iff in Eq. destruct Eq as [_ Eq]. apply is_quorum_iff in Eq.
      destruct (is_minimal_for_quorum sel f) eqn:Em.
      * apply (is_minimal_for_quorum_iff f sel Eq) in Em. exists [sel]. split; auto.
        split; [constructor; [simpl; tauto|constructor]|]. intro Q. simpl. split.
        -- intros [<-|[]]. split; auto. split; [apply incl_refl|rewrite Ea; apply incl_refl].
        -- intros (HQ & H1 & H2). left. destruct HQ as [HQ Hm]. apply Hm; auto.
      * exists []. rewrite app_nil_r. split; auto. split; [constructor|]. intro Q. split; [intros []|].
        intros (HQ & H1 & H2). assert (E : sel = Q) by (destruct HQ as [HQ Hm]; apply Hm; auto). subst Q.
        apply (is_minimal_for_quorum_iff f sel Eq) in HQ. congruence.
    + exists []. rewrite app_nil_r. split; auto. split; [constructor|]. intro Q. split; [intros []|].
      intros (HQ & H1 & H2). rewrite Ea in H2. assert (Q = sel) by (apply incl_antisym; auto). subst Q.
      destruct HQ as [HQ _]. apply is_quorum_iff in HQ as HQ'. rewrite HQ', andb_true_r in Eq. apply Hch; auto.
  - inversion Hnd as [|? ? Hx Hnd']; subst.
    assert (Hxs : mem x sel = false) by (apply Hdis; left; auto).
    destruct (changed && is_quorum f sel) eqn:Eq.
    + apply andb_true_iff in Eq. destruct Eq as [_ Eq]. apply is_quorum_iff in Eq.
      destruct (is_minimal_for_quorum sel f) eqn:Em.
      * apply (is_minimal_for_quorum_iff f sel Eq) in Em. exists [sel]. split; auto.
        split; [constructor; [simpl; tauto|constructor]|]. intro Q. simpl. split.
        -- intros [<-|[]]. split; auto. split; [apply incl_refl|]. intros y Hy. unfold avail. rewrite mem_union, Hy. auto.
        -- intros (HQ & H1 & H2). left. destruct HQ as [HQ Hm]. apply Hm; auto.
      * exists []. rewrite app_nil_r. split; auto. split; [constructor|]. intro Q. split; [intros []|].
        intros (HQ & H1 & H2). assert (E : sel = Q) by (destruct HQ as [HQ Hm]; apply Hm; auto). subst Q.
        apply (is_minimal_for_quorum_iff f sel Eq) in HQ. congruence.
    + assert (Hnq : ~ quorum f sel).
      { intro HQ. apply is_quorum_iff in HQ as HQ'. rewrite HQ', andb_true_r in Eq. apply Hch; auto. }
      destruct (IH (insert x sel) found true) as (new1 & E1 & N1 & S1); auto.
      { intros y Hy. rewrite mem_insert. apply orb_false_iff. split; [|apply Hdis; right; auto].
        apply Nat.eqb_neq. intros ->. auto. }
      { discriminate. }
      rewrite union_cons_l in E1, S1. fold avail in E1, S1. rewrite E1, remove_insert by auto.
      cbv zeta. assert (Hrem : remove x avail = union sel (of_list l)) by (apply remove_cons; auto).
      rewrite !Hrem.
      assert (Hback : insert x (union sel (of_list l)) = avail).
      { unfold avail. rewrite <- (remove_cons sel x l) by auto. apply insert_remove.
        rewrite mem_union, orb_true_iff, mem_of_list. simpl. auto. }
      assert (Hav : forall Q, incl_set Q (union sel (of_list l)) <-> incl_set Q avail /\ mem x Q = false).
      { intro Q. rewrite <- (remove_cons sel x l) by auto. apply incl_remove. }
      destruct (selection_satisfiable sel (union sel (of_list l)) f) eqn:Es.
      * destruct (IH sel (found ++ new1) false) as (new2 & E2 & N2 & S2); auto.
        { intros y Hy. apply Hdis. right; auto. }
        rewrite E2. cbv iota beta zeta. rewrite Hback. exists (new1 ++ new2). rewrite app_assoc. split; auto. split.
        -- apply NoDup_app_intro; auto. intros Q H1 H2. apply S1 in H1. apply S2 in H2. rewrite Hav in H2.
           rewrite incl_insert in H1. destruct H1 as (_ & (H1 & _) & _). destruct H2 as (_ & _ & _ & H2). congruence.
        -- intro Q. rewrite in_app_iff, S1, S2, Hav, incl_insert. destruct (mem x Q); intuition discriminate.
      * cbv iota beta zeta. rewrite Hback. exists new1. split; auto. split; auto. intro Q. rewrite S1, incl_insert. split; [tauto|].
        intros (HQ & H1 & H2). split; auto. split; auto. split; auto.
        destruct (mem x Q) eqn:Ex; auto. exfalso.
        eapply no_quorum_unsatisfiable; [exact Es|apply HQ|auto|]. apply Hav. auto.
Qed.

Lemma finder_step_top f unprocessed found :
  NoDup unprocessed ->
  exists new, snd (minimal_quorums_finder_step f unprocessed bempty (of_list unprocessed) found true) = found ++ new /\
    NoDup new /\ forall Q, In Q new <-> minimal_quorum f Q /\ incl_set Q (of_list unprocessed).
Proof.
  intro Hnd. assert (Eu : union bempty (of_list unprocessed) = of_list unprocessed).
  { apply bset_ext. intro y. rewrite mem_union, mem_empty. auto. }
  destruct (finder_step_spec f unprocessed bempty found true) as (new & E & N & S); auto.
  { discriminate. }
  rewrite Eu in E, S. exists new. rewrite E. split; auto. split; auto. intro Q. rewrite S. split; [tauto|].
  intros [H1 H2]. split; auto. split; auto. intros y Hy. rewrite mem_empty in Hy. discriminate.
Qed.

(** ** symmetric clusters *)
Section Sym.
Variable f : fbas.
Variables (q : qset) (c : bset).
Hypothesis Hc : contained_nodes q = c.
Hypothesis Hall : forall x, mem x c = true -> qset_of f x = q.

Lemma sym_quorum_iff Q : incl_set Q c -> (quorum f Q <-> is_quorum_slice q Q = true).
Proof.
  intro Hi. rewrite quorum_closed. split.
  - intros [(x & Hx) Hcl]. specialize (Hcl x Hx). unfold sat in Hcl. rewrite Hall in Hcl; auto.
  - intro Hs. split.
    + destruct (is_quorum_slice_meets _ _ Hs) as (x & _ & Hx). exists x; auto.
    + intros x Hx. unfold sat. rewrite Hall; auto.
Qed.

Lemma slices_in s : In s (to_quorum_slices q) -> incl_set s c.
Proof. intros Hs x Hx. rewrite <- Hc. apply contained_nodes_spec. eapply slices_mentioned; eauto. Qed.

Lemma to_minimal_quorums_iff Q : In Q (to_minimal_quorums q f) <-> minimal_quorum f Q /\ incl_set Q c.
Proof.
  assert (Hsl : forall s, In s (to_quorum_slices q) -> quorum f s).
  { intros s Hs. apply sym_quorum_iff; [apply slices_in; auto|]. apply to_quorum_slices_sound; auto. }
  assert (Hmin : minimal_quorum f Q /\ incl_set Q c -> In Q (to_quorum_slices q)).
  { intros [[HQ Hm] Hi]. apply sym_quorum_iff in HQ; auto.
    destruct (to_quorum_slices_complete q Q HQ) as (s & Hs & His). rewrite <- (Hm s); auto. }
  unfold to_minimal_quorums. destruct (contains_duplicates q) eqn:Ed.
  - unfold remove_non_minimal_x. rewrite filter_In. split.
    + intros [Hs Hm]. split; [|apply slices_in; auto]. apply is_minimal_for_quorum_iff; auto.
    + intros H. split; auto. apply is_minimal_for_quorum_iff; apply H.
  - apply contains_duplicates_false in Ed. split; auto. intro Hs. split; [|apply slices_in; auto]. split; auto.
    intros S' HS' Hi. apply (to_quorum_slices_minimal q Ed); auto. apply sym_quorum_iff; auto.
    eapply incl_trans; [exact Hi|apply slices_in; auto].
Qed.

Lemma to_minimal_quorums_nodup : nodup_qset q -> NoDup (to_minimal_quorums q f).
Proof.
  intro Hn. unfold to_minimal_quorums. assert (Hn' := Hn). apply contains_duplicates_false in Hn'. rewrite Hn'.
  apply to_quorum_slices_nodup; auto.
Qed.
End Sym.

Section Main.
Variable E : ext.
Hypothesis HE : ext_ok E.
Variable f : fbas.
Hypothesis Hwf : wf_fbas f.

Lemma rank_sort_perm s : incl_set s (all_nodes f) -> Permutation (rank_sort E f (elements s)) (elements s).
Proof.
  intro Hs. apply HE; auto; [apply elements_nodup|]. intros x Hx. apply mem_all_nodes, Hs, elements_spec. auto.
Qed.

Lemma rank_sort_of_list s : incl_set s (all_nodes f) -> of_list (rank_sort E f (elements s)) = s.
Proof.
  intro Hs. apply bset_ext. intro x. apply eq_true_iff_eq. rewrite mem_of_list, <- elements_spec.
  assert (P := rank_sort_perm s Hs). split; apply Permutation_in; auto. symmetry; auto.
Qed.

Lemma rank_sort_nodup s : incl_set s (all_nodes f) -> NoDup (rank_sort E f (elements s)).
Proof. intro Hs. eapply Permutation_NoDup; [symmetry; apply rank_sort_perm; auto|apply elements_nodup]. Qed.

Lemma finder_loop_spec clusters : incl clusters (consensus_clusters E f) -> NoDup clusters -> forall found,
  exists new, minimal_quorums_finder_loop E f clusters found = Ok (found ++ new) /\
    (forall Q, In Q new <-> minimal_quorum f Q /\ exists c, In c clusters /\ incl_set Q c) /\
    ((forall q, satisfiable_cluster f q -> nodup_qset q) -> NoDup new).
Proof.
  induction clusters as [|c cl IH]; intros Hi Hnd found; cbn [minimal_quorums_finder_loop].
  - exists []. rewrite app_nil_r. split; auto. split; [|constructor]. intro Q. split; [intros []|].
    intros [_ (c & [] & _)].
  - assert (Hcin : In c (consensus_clusters E f)) by (apply Hi; left; auto).
    assert (Hi' : incl cl (consensus_clusters E f)) by (intros d Hd; apply Hi; right; auto).
    inversion Hnd as [|? ? Hcn Hnd']; subst.
    assert (Hone : exists new1, (o <- find_symmetric_cluster_in_consensus_cluster c f ;;
        match o with
        | Some symmetric_cluster => minimal_quorums_finder_loop E f cl (found ++ to_minimal_quorums symmetric_cluster f)
        | None => let unprocessed := rank_sort E f (elements c) in
            let '(_, _, found_quorums) := minimal_quorums_finder_step f unprocessed bempty (of_list unprocessed) found true in
            minimal_quorums_finder_loop E f cl found_quorums
        end) = minimal_quorums_finder_loop E f cl (found ++ new1) /\
        (forall Q, In Q new1 <-> minimal_quorum f Q /\ incl_set Q c) /\
        ((forall q, satisfiable_cluster f q -> nodup_qset q) -> NoDup new1)).
    { destruct (find_symmetric_cluster_cases E HE f Hwf c Hcin) as [[Es _]|(q & Es & Ef & Hq & Hall)]; rewrite Es; simpl.
      - assert (Hcn' := cluster_nodes E f c Hcin).
        destruct (finder_step_top f (rank_sort E f (elements c)) found (rank_sort_nodup c Hcn')) as (new & En & Nn & Sn).
        destruct (minimal_quorums_finder_step _ _ _ _ _ _) as [[s a] fq]. simpl in En. subst fq.
        exists new. split; auto. split; auto. intro Q. rewrite Sn, rank_sort_of_list by auto. tauto.
      - exists (to_minimal_quorums q f). split; auto. split.
        + intro Q. apply to_minimal_quorums_iff; auto.
        + intro Hn. apply to_minimal_quorums_nodup, Hn. apply (found_cluster_satisfiable E HE f Hwf c q Hcin Ef). }
    destruct Hone as (new1 & E1 & S1 & N1).
    destruct (IH Hi' Hnd' (found ++ new1)) as (new2 & E2 & S2 & N2).
    exists (new1 ++ new2). rewrite app_assoc. split; [rewrite <- E2; exact E1|]. split.
    + intro Q. rewrite in_app_iff, S1, S2. split.
      * intros [[H1 H2]|[H1 (d & H2 & H3)]]; split; auto; [exists c|exists d]; simpl; auto.
      * intros [H1 (d & [<-|H2] & H3)]; [left; auto|right; eauto].
    + intro Hn. apply NoDup_app_intro; auto. intros Q H1 H2. apply S1 in H1. apply S2 in H2.
      destruct H1 as [HQ Hc1]. destruct H2 as [_ (d & Hd & Hd1)]. destruct HQ as [[(x & Hx) _] _].
      apply Hcn. replace c with d; auto. eapply (clusters_disjoint E HE f Hwf d c x); auto.
Qed.

Lemma find_minimal_quorums_spec : exists l, find_minimal_quorums E f = Ok l /\
  (forall Q, In Q l <-> minimal_quorum f Q) /\ StronglySorted before_or_eq l /\
  ((forall q, satisfiable_cluster f q -> nodup_qset q) -> StronglySorted before l).
Proof.
  unfold find_minimal_quorums, find_minimal_sets, find_sets, minimal_quorums_finder.
  destruct (finder_loop_spec (consensus_clusters E f)) with (found := @nil bset) as (new & En & Sn & Nn).
  { intros c Hc; auto. } { apply clusters_nodup; auto. }
  rewrite En. simpl. exists (sort_sets new). split; auto. split; [|split].
  - intro Q. rewrite sort_sets_in, Sn. split; [tauto|]. intro HQ. split; auto. apply minimal_quorum_cluster; auto.
  - apply sort_sets_sorted.
  - intro Hn. apply sort_sets_strict. auto.
Qed.
End Main.
