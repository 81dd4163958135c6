(** The reported splitting sets split if all thresholds can be met and no validator is repeated. *)
From Verif Require Export P_ListOrder P_BlockingSound.
Local Open Scope list_scope.

Lemma subseq_rest {A} (c l : list A) : subseq c l -> exists r, Permutation (c ++ r) l.
Proof.
  induction 1 as [|a c l H (r & IH)|a c l H (r & IH)].
  - exists []. auto.
  - exists (a :: r). rewrite <- Permutation_middle. auto.
  - exists r. simpl. auto.
Qed.

Lemma sane_full q : sane q -> forall s, (forall x, mentions x q -> mem x s = true) -> is_quorum_slice q s = true.
Proof.
  induction q as [t vs is_ IH] using qset_ind'. intros Ho s Hs. apply sane_inv in Ho. destruct Ho as (H1 & H2 & H3).
  apply is_quorum_slice_matches. unfold matches. rewrite !forallb_filter_id.
  - lia.
  - apply forallb_forall. intros i Hi. apply IH; auto. intros x Hx. apply Hs. eright; eauto.
  - apply forallb_forall. intros x Hx. apply Hs. left; auto.
Qed.

Lemma sane_entry vs is_ e : (forall i, In i is_ -> sane i) -> In e (entries vs is_) -> esat (of_list (edom e)) e = true.
Proof.
  intros Ho He. destruct e as [v|i]; simpl.
  - apply mem_of_list. left; auto.
  - apply sane_full.
    + apply Ho. unfold entries in He. apply in_app_iff in He. destruct He as [He|He]; apply in_map_iff in He; destruct He as (j & E & Hj); congruence.
    + intros x Hx. apply mem_of_list, contained_list_spec; auto.
Qed.

Lemma flat_map_nodup_inv {A B} (g : A -> list B) l : NoDup (flat_map g l) -> (forall a, In a l -> g a <> []) -> NoDup l.
Proof.
  induction l as [|a l IH]; simpl; intros Hn Hne; constructor.
  - intro Ha. destruct (g a) as [|b r] eqn:Eg; [apply (Hne a); auto|]. simpl in Hn. inversion Hn as [|? ? Hb _]; subst. apply Hb.
    apply in_app_iff. right. apply in_flat_map. exists a. rewrite Eg. simpl; auto.
  - apply NoDup_app_inv in Hn. destruct Hn as (_ & Hn & _). apply IH; auto.
Qed.

Lemma in_entries_inner vs is_ i : In i is_ -> In (inr i) (entries vs is_).
Proof. intro H. unfold entries. apply in_app_iff. right. apply in_map. auto. Qed.
Lemma in_entries_validator vs is_ v : In v vs -> In (inl v) (entries vs is_).
Proof. intro H. unfold entries. apply in_app_iff. left. apply in_map. auto. Qed.
Lemma entries_in vs is_ e : In e (entries vs is_) -> (exists v, e = inl v /\ In v vs) \/ exists i, e = inr i /\ In i is_.
Proof.
  unfold entries. intro H. apply in_app_iff in H. destruct H as [H|H]; apply in_map_iff in H; destruct H as (v & <- & Hv); eauto.
Qed.

Lemma two_for_mono S S' e : incl_set S S' -> two_for S e -> two_for S' e.
Proof. intros Hi (Q1 & Q2 & H1 & H2 & H3 & H4 & H5). exists Q1, Q2. repeat split; auto. eapply incl_trans; eauto. Qed.

(** no set in the list satisfies the quorum set itself, and each one contains what two slices have in common *)
Lemma listed_splits q : sane q -> nodup_qset q -> forall S, In S (to_splitting_sets q) ->
  is_quorum_slice q S = false /\ two_for S (inr q).
Proof.
  induction q as [t vs is_ IH] using qset_ind'. intros Hs Hn S HS.
  assert (Hs' := Hs). apply sane_inv in Hs'. destruct Hs' as (H1 & H2 & H3).
  destruct (nodup_qset_inv _ _ _ Hn) as (Nv & Ni & Hvi & Hii).
  assert (Hsub := to_splitting_sets_sub _ _ _ _ HS). rewrite splitting_threshold_fits in Hsub by auto.
  apply combine_entries_spec in Hsub. destruct Hsub as (vs' & is' & ps & Hv & Hi & Hl & Hk & Hps & ES).
  set (n := List.length vs + List.length is_) in *. set (es := entries vs is_). set (gs := entries vs' is').
  assert (Hgs : subseq gs es) by (apply subseq_app; apply subseq_map; auto).
  destruct (subseq_rest gs es Hgs) as (bs & Hp).
  assert (Hlg : List.length gs = 2 * t - n) by (unfold gs; rewrite entries_length; auto).
  assert (Hlb : List.length gs + List.length bs = n) by (rewrite <- app_length, (Permutation_length Hp); apply entries_length).
  assert (Hpd : Permutation (flat_map edom (gs ++ bs)) (contained_nodes_with_duplicates (QS t vs is_))).
  { rewrite <- (entries_dom t vs is_). apply Permutation_flat_map. auto. }
  assert (Hnd : NoDup (flat_map edom (gs ++ bs))) by (eapply Permutation_NoDup; [symmetry; exact Hpd|exact Hn]).
  assert (Hes : forall e, In e es -> esat (of_list (edom e)) e = true) by (intro e; apply sane_entry; auto).
  assert (Hne : forall e, In e es -> edom e <> []).
  { intros e He Ee. specialize (Hes e He). apply esat_meets in Hes. destruct Hes as (x & Hx & _). rewrite Ee in Hx. auto. }
  assert (Nis : NoDup is').
  { assert (N : NoDup (gs ++ bs)).
    { apply (flat_map_nodup_inv edom); auto. intros e He. apply Hne. eapply Permutation_in; eauto. }
    apply NoDup_app_inv in N. destruct N as (N & _ & _). apply NoDup_app_inv in N. destruct N as (_ & N & _).
    eapply NoDup_map_inv; eauto. }
  assert (Hsets : forall p i, In (p, i) (combine ps is') -> In i is' /\ In p (to_splitting_sets i)).
  { clear - Hps. induction Hps as [|p i ps is' H Hps IH]; intros p0 i0 Hin; [destruct Hin|]. destruct Hin as [Hin|Hin].
    - inversion Hin; subst. split; [left; auto|auto].
    - destruct (IH p0 i0 Hin). split; [right; auto|auto]. }
  assert (Hloc : forall p i, In (p, i) (combine ps is') -> forall x, mentions x i -> mem x S = mem x p).
  { intros p i Hpi x Hx. destruct (Hsets p i Hpi) as [Hi' Hp']. apply eq_true_iff_eq. rewrite ES, mem_entries. split.
    - intros [Hxv|(s & Hs' & Hxs)].
      + exfalso. apply (Hvi x i); auto; eapply subseq_in; eauto.
      + destruct (Forall2_pair_l _ _ _ s Hps Hs') as (j & Hsj & Hj & Hsp).
        assert (Hm : mentions x j) by (apply (to_splitting_sets_mentions j s); auto).
        assert (i = j) by (apply (Hii x); auto; eapply subseq_in; eauto). subst j.
        rewrite (combine_fun ps is' p s i Nis Hpi Hsj). auto.
    - intro Hxp. right. exists p. split; auto. eapply in_combine_l; eauto. }
  assert (Hgp : forall i, In i is' -> exists p, In (p, i) (combine ps is') /\ In p (to_splitting_sets i) /\ incl_set p S /\ In i is_).
  { intros i Hi'. destruct (Forall2_pair_r _ _ _ i Hps Hi') as (p & Hpi & Hp' & Hin). exists p. split; [auto|]. split; [auto|]. split.
    - intros x Hx. rewrite (Hloc p i Hpi x); auto. apply (to_splitting_sets_mentions i p); auto.
    - eapply subseq_in; eauto. }
  split.
  - (* not a slice *)
    apply not_true_iff_false. rewrite sat_entries. fold es. rewrite <- (Permutation_filter_len _ _ _ Hp), filter_app, app_length.
    assert (Hb0 : filter (esat S) bs = []).
    { destruct (filter (esat S) bs) as [|e r] eqn:Ef; auto. exfalso.
      assert (He : In e (filter (esat S) bs)) by (rewrite Ef; left; auto). apply filter_In in He. destruct He as [He Hsat].
      apply esat_meets in Hsat. destruct Hsat as (x & Hx & HxS). rewrite flat_map_app in Hnd. apply NoDup_app_inv in Hnd.
      destruct Hnd as (_ & _ & Hd). apply (Hd x); [|apply in_flat_map; eauto]. apply in_flat_map.
      rewrite ES, mem_entries in HxS. destruct HxS as [Hxv|(s & Hs' & Hxs)].
      - exists (inl x). split; [apply in_entries_validator; auto|left; auto].
      - destruct (Forall2_pair_l _ _ _ s Hps Hs') as (j & Hsj & Hj & Hsp). exists (inr j). split; [apply in_entries_inner; auto|].
        simpl. apply contained_list_spec. apply (to_splitting_sets_mentions j s); auto. }
    rewrite Hb0. simpl. assert (Hle := filter_length_le (esat S) gs).
    intros [_ Hge]. assert (Ht : t = n) by lia.
    assert (Hall : forallb (esat S) gs = true) by (apply filter_length_forallb; lia).
    rewrite forallb_forall in Hall.
    destruct is' as [|i is'].
    + (* only validators: then there is just one set, and it was discarded *)
      assert (Ei : is_ = []).
      { simpl in Hl. apply subseq_length in Hv. destruct is_; auto. unfold n in *. simpl in *. lia. }
      assert (Hsl : is_quorum_slice (QS t vs is_) S = true).
      { rewrite sat_entries. fold es. rewrite <- (Permutation_filter_len _ _ _ Hp), filter_app, app_length. lia. }
      assert (Hsep : separated (map (fun v => [of_list [v]]) vs ++ map to_splitting_sets is_)).
      { eapply entries_separated; eauto; rewrite Ei; intros i; try intros; contradiction. }
      assert (Hc := combine_groups_nodup (splitting_threshold (QS t vs is_)) _ Hsep).
      assert (Heq : forall s, In s (combine_groups (splitting_threshold (QS t vs is_)) (map (fun v => [of_list [v]]) vs ++ map to_splitting_sets is_)) -> s = S).
      { intros s Hin. rewrite splitting_threshold_fits in Hin by auto. apply combine_entries_spec in Hin.
        destruct Hin as (vs2 & is2 & ps2 & Hv2 & Hi2 & Hl2 & _ & Hps2 & ->). rewrite ES.
        assert (is2 = []) by (rewrite Ei in Hi2; inversion Hi2; auto). subst is2. inversion Hps2; subst ps2. inversion Hps; subst ps.
        simpl in Hl, Hl2. fold n in Hl2. rewrite (subseq_full vs2 vs Hv2), (subseq_full vs' vs Hv); auto; unfold n in *; rewrite Ei in *; simpl in *; lia. }
      cbn [to_splitting_sets] in HS. fold to_splitting_sets in *. revert HS Hc Heq.
      generalize (combine_groups (splitting_threshold (QS t vs is_)) (map (fun v => [of_list [v]]) vs ++ map to_splitting_sets is_)).
      intros l HS Hc Heq. destruct l as [|s0 [|s1 l]].
      * destruct HS.
      * rewrite (Heq s0), Hsl in HS by (left; auto). destruct HS.
      * apply NoDup_cons_iff in Hc. destruct Hc as [Hnot _]. apply Hnot. left. rewrite (Heq s1) by (right; left; auto). symmetry. apply Heq. left; auto.
    + assert (Hsat := Hall (inr i) (in_entries_inner vs' (i :: is') i (or_introl eq_refl))). simpl in Hsat.
      destruct (Hgp i (or_introl eq_refl)) as (p & Hpi & Hp' & _ & Hii'). destruct (IH i Hii' (H3 i Hii') (Ni i Hii') p Hp') as [Hnot _].
      rewrite (is_quorum_slice_local i S p (Hloc p i Hpi)) in Hsat. congruence.
  - (* two slices *)
    destruct (glue S gs bs (t - List.length gs) (t - List.length gs)) as (Q1 & Q2 & D1 & D2 & C1 & C2 & HI).
    + exact Hnd.
    + intros e He. destruct (entries_in _ _ _ He) as [(v & -> & Hv')|(i & -> & Hi')].
      * assert (Hm : mem v S = true) by (rewrite ES; apply mem_entries; auto).
        exists (of_list [v]), (of_list [v]). simpl.
        assert (Hv2 : forall x, mem x (of_list [v]) = true -> v = x \/ False) by (intros x Hx; apply mem_of_list in Hx; auto).
        assert (Hm2 : mem v (of_list [v]) = true) by (apply mem_of_list; left; auto).
        repeat split; auto. intros x Hx. rewrite mem_inter, andb_true_iff in Hx. destruct Hx as [Hx _]. destruct (Hv2 x Hx) as [<-|[]]. auto.
      * destruct (Hgp i Hi') as (p & Hpi & Hp' & HpS & Hii'). destruct (IH i Hii' (H3 i Hii') (Ni i Hii') p Hp') as [_ Htwo].
        apply (two_for_mono p); auto.
    + intros e He. apply Hes. eapply Permutation_in; [exact Hp|]. apply in_app_iff; auto.
    + lia.
    + exists Q1, Q2. split; [|split; [|split; [|split]]]; auto.
      * intros x Hx. eapply Permutation_in; [exact Hpd|]. auto.
      * intros x Hx. eapply Permutation_in; [exact Hpd|]. auto.
      * simpl esat. apply sat_entries. rewrite (Permutation_filter_len _ _ _ Hp) in C1. fold es. lia.
      * simpl esat. apply sat_entries. rewrite (Permutation_filter_len _ _ _ Hp) in C2. fold es. lia.
Qed.

Section Main.
Variable E : ext.
Hypothesis HE : ext_ok E.
Variable f : fbas.
Hypothesis Hwf : wf_fbas f.

Lemma sym_listed_splits q c S : contained_nodes q = c -> (forall x, mem x c = true -> qset_of f x = q) -> 
  (forall Q, minimal_quorum f Q -> incl_set Q c) -> sane q -> nodup_qset q -> In S (to_splitting_sets q) -> splitting f S.
Proof.
  intros Hq Hall Hone Hs Hn HS. destruct (listed_splits q Hs Hn S HS) as (Hnot & Q1 & Q2 & D1 & D2 & S1 & S2 & Hi). simpl in *.
  destruct (to_quorum_slices_complete q Q1 S1) as (M1 & HM1 & I1).
  destruct (to_quorum_slices_complete q Q2 S2) as (M2 & HM2 & I2).
  exists M1, M2. split; [apply (sym_minimal f q c); auto|]. split; [apply (sym_minimal f q c); auto|]. split.
  - intros <-. apply not_true_iff_false in Hnot. apply Hnot. eapply is_quorum_slice_mono; [|apply (to_quorum_slices_sound q M1 HM1)].
    intros x Hx. apply Hi. rewrite mem_inter, (I1 x Hx), (I2 x Hx). auto.
  - intros x Hx1 Hx2. apply Hi. rewrite mem_inter, (I1 x Hx1), (I2 x Hx2). auto.
Qed.

Lemma mss_sound MQ : quorum_intersection f -> NoDup MQ -> (forall Q, In Q MQ <-> minimal_quorum f Q) ->
  (forall q, satisfiable_cluster f q -> no_repetitions q /\ sane q) ->
  exists l, find_minimal_splitting_sets E f MQ = Ok l /\ forall S, In S l -> splitting f S.
Proof.
  intros HQI Hnd HMQ Hgood. unfold find_minimal_splitting_sets, find_minimal_sets, find_sets.
  destruct (one_cluster E HE f Hwf HQI) as (c & Ec). rewrite Ec. cbn [minimal_splitting_sets_finder].
  assert (Hc : In c (consensus_clusters E f)) by (rewrite Ec; left; auto).
  assert (Hone : forall Q, minimal_quorum f Q -> incl_set Q c).
  { intros Q HQ. destruct (minimal_quorum_cluster E HE f Hwf Q HQ) as (d & Hd & Hi). rewrite Ec in Hd. destruct Hd as [<-|[]]. auto. }
  destruct (find_symmetric_cluster_cases E HE f Hwf c Hc) as [[Es _]|(q & Es & Ef & Hq & Hall)]; rewrite Es; simpl.
  - assert (Hcn := cluster_nodes E f c Hc).
    assert (HMQ' : forall Q, In Q MQ -> quorum f Q) by (intros Q HQ; apply HMQ in HQ; apply HQ).
    destruct (splitting_step_spec f MQ HMQ' (rank_sort E f (elements c)) bempty [] MQ true) as (new & En & Sn & Cn); auto.
    + apply rank_sort_nodup; auto.
    + intros Q HQ. split; auto. intros x Hx. rewrite mem_empty in Hx. discriminate.
    + assert (E1 : union bempty (of_list (rank_sort E f (elements c))) = c).
      { apply bset_ext. intro x. rewrite mem_union, mem_empty, rank_sort_of_list; auto. }
      assert (E2 : map (fun Q => diff Q bempty) MQ = MQ).
      { rewrite <- (map_id MQ) at 2. apply map_ext. intro Q. apply bset_ext. intro x. rewrite mem_diff, mem_empty, andb_true_r. auto. }
      rewrite E1, E2 in En. rewrite rank_sort_of_list by auto. rewrite En. simpl. rewrite app_nil_r.
      destruct (remove_non_minimal_node_sets_spec new) as [Hin Hn].
      eexists. split; [reflexivity|]. intros S HS. rewrite sort_sets_in, Hin in HS. destruct HS as [HS _].
      apply (splitting_crossing f MQ HMQ). exists S. split; [auto|intros x Hx; auto].
  - assert (Hsc : satisfiable_cluster f q) by (apply (found_cluster_satisfiable E HE f Hwf c q Hc Ef)).
    destruct (Hgood q Hsc) as [Hrep Hsp]. apply no_repetitions_nodup in Hrep.
    assert (Hcd := Hrep). apply contains_duplicates_false in Hcd. unfold to_minimal_splitting_sets. rewrite Hcd, app_nil_r.
    eexists. split; [reflexivity|]. intros S HS. rewrite sort_sets_in in HS. apply (sym_listed_splits q c); auto.
Qed.
End Main.

Lemma working_splits E f K mq (b : bool) : ext_ok E -> wf_fbas f -> working_set f K -> covers f K -> mq_ok f K mq -> sane_clusters f ->
  has_a_quorum f -> (b = true <-> quorum_intersection f) ->
  exists l, (if b then find_minimal_splitting_sets E (shrunken_fbas K f) mq else Ok [bempty]) = Ok l /\
    forall s, In s l -> splitting f (up (elements K) s).
Proof.
  intros HE Hwf HK Hc Hmq Hs Hq Hb. destruct b.
  - assert (HQI : quorum_intersection f) by (apply Hb; auto).
    destruct (mss_sound E HE (shrunken_fbas K f) (shrunken_wf K f) mq) as (l & El & Hl).
    + apply (intersection_up f K Hc); auto.
    + apply (mq_ok_nodup f K); auto. intros K' q HK' Hq'. apply (Hs K' q HK' Hq').
    + apply mq_ok_in; auto.
    + apply clusters_sane; auto.
    + exists l. split; auto. intros s H. apply (splitting_up f K Hc). auto.
  - exists [bempty]. split; auto. intros s [<-|[]]. rewrite up_empty.
    assert (Hn : ~ quorum_intersection f) by (intro H; apply Hb in H; discriminate).
    apply (empty_splits E HE f Hwf Hq Hn bempty). reflexivity.
Qed.
