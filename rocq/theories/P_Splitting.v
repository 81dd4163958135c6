(** [find_minimal_splitting_sets]. *)
From Verif Require Export P_SplitSym.
Local Open Scope list_scope.

Section Main.
Variable E : ext.
Hypothesis HE : ext_ok E.
Variable f : fbas.
Hypothesis Hwf : wf_fbas f.

Lemma one_cluster : quorum_intersection f -> exists c, consensus_clusters E f = [c].
Proof.
  intros [(Q & HQ) Hm]. destruct (consensus_clusters E f) as [|c l] eqn:Ec.
  - exfalso. apply (proj1 (clusters_none E HE f Hwf) Ec Q HQ).
  - exists c. destruct l as [|d l]; auto. exfalso.
    assert (Hc : In c (consensus_clusters E f)) by (rewrite Ec; simpl; auto).
    assert (Hd : In d (consensus_clusters E f)) by (rewrite Ec; simpl; auto).
    destruct (cluster_quorum E f c Hc) as (q1 & [H1 _] & I1).
    destruct (cluster_quorum E f d Hd) as (q2 & [H2 _] & I2).
    destruct (Hm q1 q2 H1 H2) as (x & Hx1 & Hx2).
    assert (c = d) by (apply (clusters_disjoint E HE f Hwf c d x); auto). subst d.
    assert (Hn := clusters_nodup E HE f Hwf). rewrite Ec in Hn. inversion Hn; subst. apply H3. left; auto.
Qed.

(** splitting sets and crossings of minimal quorums *)
Lemma splitting_crossing MQ : (forall Q, In Q MQ <-> minimal_quorum f Q) ->
  forall S, splitting f S <-> exists T, crossing MQ T /\ incl_set T S.
Proof.
  intros HMQ S. split.
  - intros (Q1 & Q2 & H1 & H2 & Hne & Hi). exists (inter Q1 Q2). split.
    + exists Q1, Q2. rewrite !HMQ. auto.
    + intros x Hx. rewrite mem_inter, andb_true_iff in Hx. apply Hi; tauto.
  - intros (T & (Q1 & Q2 & H1 & H2 & Hne & ->) & Hi). exists Q1, Q2. rewrite <- !HMQ. repeat split; auto.
    intros x Hx1 Hx2. apply Hi. rewrite mem_inter, Hx1, Hx2. auto.
Qed.

Lemma minimal_splitting_of l MQ : (forall Q, In Q MQ <-> minimal_quorum f Q) ->
  (forall T, In T l -> crossing MQ T) -> (forall T, crossing MQ T -> exists T', In T' l /\ incl_set T' T) ->
  forall S, minimal_in l S <-> minimal_splitting f S.
Proof.
  intros HMQ Hs Hc S. split.
  - intros [HS Hm]. split.
    + apply (splitting_crossing MQ HMQ). exists S. split; [auto|intros x Hx; auto].
    + intros S' HS' Hi. apply (splitting_crossing MQ HMQ) in HS'. destruct HS' as (T & HT & HTi).
      destruct (Hc T HT) as (T' & HT' & Hi'). apply incl_antisym; auto.
      assert (ET : T' = S) by (apply Hm; auto; intros x Hx; auto). subst T'. intros x Hx; auto.
  - intros [HS Hm]. apply (splitting_crossing MQ HMQ) in HS. destruct HS as (T & HT & HTi).
    destruct (Hc T HT) as (T' & HT' & Hi').
    assert (Hsp : forall U, In U l -> splitting f U).
    { intros U HU. apply (splitting_crossing MQ HMQ). exists U. split; [auto|intros x Hx; auto]. }
    assert (ET : T' = S) by (apply Hm; auto; intros x Hx; auto). subst T'. split; auto.
Qed.

(** symmetric cluster holding all minimal quorums *)
Section Sym.
Variable q : qset.
Variable c : bset.
Hypothesis Hq : contained_nodes q = c.
Hypothesis Hall : forall x, mem x c = true -> qset_of f x = q.
Hypothesis Hone : forall Q, minimal_quorum f Q -> incl_set Q c.
Hypothesis Hnd : nodup_qset q.

Lemma sym_minimal Q : minimal_quorum f Q <-> In Q (to_quorum_slices q).
Proof.
  assert (H := to_minimal_quorums_iff f q c Hq Hall Q). unfold to_minimal_quorums in H.
  assert (Hnd' := Hnd). apply contains_duplicates_false in Hnd'. rewrite Hnd' in H. rewrite H. split; [intro HQ; auto|tauto].
Qed.

Lemma sym_splitting S : splittable q -> (splitting f S <-> is_quorum_slice (splitter q) S = true).
Proof.
  intro Hs. assert (Ho := splittable_overlapping q Hs). rewrite splitter_slice by auto. split.
  - intros (Q1 & Q2 & H1 & H2 & _ & Hi). apply sym_minimal in H1, H2. apply to_quorum_slices_sound in H1, H2.
    eapply is_slice_intersection_mono; [|apply (slice_intersection_inter q Q1 Q2); auto].
    intros x Hx. rewrite mem_inter, andb_true_iff in Hx. apply Hi; tauto.
  - intro HS. destruct (slice_intersection_two q Ho Hnd S HS) as (A1 & A2 & _ & _ & S1 & S2 & Hi).
    destruct (to_quorum_slices_complete q A1 S1) as (Q1 & HQ1 & I1).
    destruct (to_quorum_slices_complete q A2 S2) as (Q2 & HQ2 & I2).
    destruct (bset_eq_dec Q1 Q2) as [<-|Hne].
    + (* then [S] contains the slice [Q1]; any other one will do *)
      destruct (splittable_two q Hs Hnd) as (B1 & B2 & T1 & T2 & T3).
      destruct (to_quorum_slices_complete q B1 T1) as (P1 & HP1 & J1).
      destruct (to_quorum_slices_complete q B2 T2) as (P2 & HP2 & J2).
      assert (Hex : exists P, In P (to_quorum_slices q) /\ Q1 <> P).
      { destruct (bset_eq_dec Q1 P1) as [->|]; [|eauto]. destruct (bset_eq_dec P1 P2) as [->|]; [|eauto]. exfalso.
        apply not_true_iff_false in T3. apply T3. eapply is_quorum_slice_mono; [|apply (to_quorum_slices_sound q P2 HP2)].
        intros x Hx. rewrite mem_inter, (J1 x Hx), (J2 x Hx). auto. }
      destruct Hex as (P & HP & Hne). exists Q1, P. rewrite !sym_minimal. repeat split; auto.
      intros x Hx _. apply Hi. rewrite mem_inter, (I1 x Hx), (I2 x Hx). auto.
    + exists Q1, Q2. rewrite !sym_minimal. repeat split; auto. intros x Hx1 Hx2. apply Hi.
      rewrite mem_inter, (I1 x Hx1), (I2 x Hx2). auto.
Qed.

Lemma to_splitting_sets_iff S : splittable q \/ rigid q -> (In S (to_splitting_sets q) <-> minimal_splitting f S).
Proof.
  intros [Hs|Hr].
  - rewrite to_splitting_sets_slices, to_quorum_slices_exact by (auto; apply splitter_nodup; auto). unfold minimal_splitting, minimal.
    rewrite sym_splitting, <- is_quorum_slice_iff by auto. split; intros [H1 H2]; split; auto; intros S' HS'; apply H2.
    + apply is_quorum_slice_iff. apply sym_splitting; auto.
    + apply sym_splitting; auto. apply is_quorum_slice_iff; auto.
  - rewrite rigid_splitting by auto. split; [intros []|]. intros [(Q1 & Q2 & H1 & H2 & Hne & _) _]. apply Hne.
    assert (G : forall Q, minimal_quorum f Q -> Q = c).
    { intros Q HQ. apply incl_antisym; auto. intros x Hx. rewrite <- Hq in Hx. apply contained_nodes_spec in Hx.
      apply (rigid_all q Hr); auto. apply to_quorum_slices_sound. apply sym_minimal; auto. }
    rewrite (G Q1), (G Q2); auto.
Qed.

Lemma to_splitting_sets_nodup : splittable q \/ rigid q -> NoDup (to_splitting_sets q).
Proof.
  intros [Hs|Hr].
  - rewrite to_splitting_sets_slices by auto. apply to_quorum_slices_nodup, splitter_nodup; auto.
  - rewrite rigid_splitting by auto. constructor.
Qed.
End Sym.

Lemma find_minimal_splitting_sets_spec MQ : quorum_intersection f ->
  NoDup MQ -> (forall Q, In Q MQ <-> minimal_quorum f Q) ->
  (forall q, satisfiable_cluster f q -> no_repetitions q /\ (splittable q \/ rigid q)) ->
  exists l, find_minimal_splitting_sets E f MQ = Ok l /\ StronglySorted before l /\ forall S, In S l <-> minimal_splitting f S.
Proof.
  intros HQI Hnd HMQ Hgood. unfold find_minimal_splitting_sets, find_minimal_sets, find_sets.
  destruct (one_cluster HQI) as (c & Ec). rewrite Ec. cbn [minimal_splitting_sets_finder].
  assert (Hc : In c (consensus_clusters E f)) by (rewrite Ec; left; auto).
  assert (Hone : forall Q, minimal_quorum f Q -> incl_set Q c).
  { intros Q HQ. destruct (minimal_quorum_cluster E HE f Hwf Q HQ) as (d & Hd & Hi). rewrite Ec in Hd. destruct Hd as [<-|[]]. auto. }
  destruct (find_symmetric_cluster_cases E HE f Hwf c Hc) as [[Es _]|(q & Es & Ef & Hq & Hall)]; rewrite Es; simpl.
  - assert (Hcn := cluster_nodes E f c Hc).
    assert (HMQ' : forall Q, In Q MQ -> quorum f Q) by (intros Q HQ; apply HMQ in HQ; apply HQ).
    destruct (splitting_step_spec f MQ HMQ' (rank_sort E f (elements c)) bempty [] MQ true) as (new & En & Sn & Cn); auto.
    + apply rank_sort_nodup; auto.
    + intros Q HQ. split; auto. intros x Hx. rewrite mem_empty in Hx. discriminate.
    + assert (E1 : union bempty (of_list (rank_sort E f (elements c))) = c).
      { apply bset_ext. intro x. rewrite mem_union, mem_empty, rank_sort_of_list; auto. }
      assert (E2 : map (fun Q => diff Q bempty) MQ = MQ).
      { rewrite <- (map_id MQ) at 2. apply map_ext. intro Q. apply bset_ext. intro x. rewrite mem_diff, mem_empty, andb_true_r. auto. }
      rewrite E1, E2 in En. rewrite E1 in Cn. rewrite rank_sort_of_list by auto. rewrite En. simpl. rewrite app_nil_r.
      destruct (remove_non_minimal_node_sets_spec new) as [Hin Hn].
      eexists. split; [reflexivity|]. split; [apply sort_sets_strict; auto|].
      intro S. rewrite sort_sets_in, Hin. apply (minimal_splitting_of new MQ); auto.
      intros T HT. apply Cn; auto.
      * destruct HT as (Q1 & Q2 & H1 & H2 & _ & ->). destruct HQI as [_ HQI]. destruct (HQI Q1 Q2) as (x & Hx & Hx'); auto.
        exists x. rewrite mem_inter, Hx, Hx'. auto.
      * intros x Hx. rewrite mem_empty in Hx. discriminate.
      * destruct HT as (Q1 & Q2 & H1 & H2 & _ & ->). intros x Hx. rewrite mem_inter, andb_true_iff in Hx.
        apply (Hone Q1); [apply HMQ; auto|tauto].
  - assert (Hsc : satisfiable_cluster f q) by (apply (found_cluster_satisfiable E HE f Hwf c q Hc Ef)).
    destruct (Hgood q Hsc) as [Hrep Hsp]. apply no_repetitions_nodup in Hrep.
    assert (Hcd := Hrep). apply contains_duplicates_false in Hcd. unfold to_minimal_splitting_sets. rewrite Hcd, app_nil_r.
    eexists. split; [reflexivity|]. split; [apply sort_sets_strict, to_splitting_sets_nodup; auto|].
    intro S. rewrite sort_sets_in. apply (to_splitting_sets_iff q c); auto.
Qed.

(** without quorum intersection, but with a quorum, the empty set splits *)
Lemma empty_splits : (exists Q, quorum f Q) -> ~ quorum_intersection f -> forall S, minimal_splitting f S <-> S = bempty.
Proof.
  intros Hex Hn.
  assert (H : splitting f bempty).
  { destruct (find_nonintersecting_quorums_spec E HE f Hwf Hex) as (o & _ & Ho). destruct o as [v|].
    - destruct Ho as (Hl & Hv & Hd). destruct v as [|A [|B v]]; simpl in Hl; try lia.
      inversion Hd as [|? ? HA _]; subst. rewrite Forall_forall in HA. specialize (HA B (or_introl eq_refl)).
      destruct (minimal_quorum_below f A) as (Q1 & I1 & M1); [apply Hv; left; auto|].
      destruct (minimal_quorum_below f B) as (Q2 & I2 & M2); [apply Hv; right; left; auto|].
      assert (Hdis : forall x, mem x Q1 = true -> mem x Q2 = true -> False).
      { intros x Hx1 Hx2. apply HA. exists x. auto. }
      exists Q1, Q2. split; auto. split; auto. split.
      + intros ->. destruct M2 as [[(x & Hx) _] _]. eauto.
      + intros x Hx1 Hx2. exfalso. eauto.
    - exfalso. apply Hn. split; auto. }
  assert (Hemp : forall S, incl_set bempty S) by (intros S x Hx; rewrite mem_empty in Hx; discriminate).
  intro S. split.
  - intros [_ Hm]. symmetry. apply Hm; auto.
  - intros ->. split; auto. intros S' _ Hi. apply incl_antisym; auto.
Qed.
End Main.
