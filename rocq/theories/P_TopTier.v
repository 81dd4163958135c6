(** Components and the symmetric top tier. *)
From Verif Require Export P_Builder.
Local Open Scope list_scope.

Section S.
Variable E : ext.
Hypothesis HE : ext_ok E.
Variable f : fbas.
Hypothesis Hwf : wf_fbas f.

Lemma scc_partition :
  let l := strongly_connected_components E f in
  ForallOrdPairs (fun a b => ~ meets a b) l /\ (forall c, In c l -> inhabited_set c) /\
  (forall x, (exists c, In c l /\ mem x c = true) <-> x < number_of_nodes f) /\
  (forall c x y, In c l -> mem x c = true ->
     (mem y c = true <-> y < number_of_nodes f /\ trusts_transitively f x y /\ trusts_transitively f y x)).
Proof.
  intro l. assert (Hs : incl_set (all_nodes f) (all_nodes f)) by apply incl_refl.
  destruct (scc_ok E HE f Hwf (all_nodes f) Hs) as [H1 H2 H3 H4 H5].
  assert (Hne : forall c, In c l -> inhabited_set c).
  { intros c Hc.
    unfold l, strongly_connected_components, partition_into_strongly_connected_components in Hc.
    apply in_map_iff in Hc. destruct Hc as (d & <- & Hd). destruct d as [|x d]; [exfalso; apply (H3 []); auto|].
    exists x. apply mem_of_list, filter_In. split; [left; auto|]. apply mem_all_nodes.
    destruct (H4 (x :: d) x Hd) as (s & Hss & Hr); [left; auto|].
    eapply reaches_range; [apply wf_successors; auto| |exact Hr]. apply mem_all_nodes, elements_spec; auto. }
  split; [|split; [|split]]; auto.
  - unfold l, strongly_connected_components, partition_into_strongly_connected_components. clear - H5.
    induction (scc E _ _ _) as [|c cl IH]; simpl; constructor; simpl in H5; apply NoDup_app_inv in H5; destruct H5 as (Ha & Hb & Hc); auto.
    apply Forall_forall. intros d Hd (x & Hx & Hx'). apply in_map_iff in Hd. destruct Hd as (d' & <- & Hd).
    apply mem_of_list, filter_In in Hx, Hx'. apply (Hc x); [tauto|]. apply in_concat. exists d'. tauto.
  - intro x. split.
    + intros (c & Hc & Hx). apply mem_all_nodes. eapply parts_incl; eauto.
    + intro Hx. apply mem_all_nodes in Hx. apply (parts_cover E HE f Hwf); auto.
  - intros c x y Hc Hx. rewrite <- mem_all_nodes. apply (parts_class E HE f Hwf); auto.
Qed.

Lemma find_symmetric_clusters_form : exists l, find_symmetric_clusters E f = Ok l /\ NoDup l /\
  (forall q, In q l <-> satisfiable_cluster f q).
Proof. apply find_symmetric_clusters_iff; auto. Qed.

Lemma symmetric_cluster_nodes q : satisfiable_cluster f q -> exists c, In c (consensus_clusters E f) /\ c = contained_nodes q.
Proof.
  intro Hq. destruct (find_symmetric_clusters_iff E HE f Hwf) as (l & El & _ & Hl). apply Hl in Hq.
  unfold find_symmetric_clusters, find_sets, symmetric_clusters_finder in El. inversion El; subst l.
  apply in_flat_map in Hq. destruct Hq as (c & Hc & Hq). exists c. split; auto. symmetry.
  eapply symmetric_cluster_is_cluster; eauto.
Qed.

Lemma satisfiable_cluster_quorum q : satisfiable_cluster f q -> quorum f (contained_nodes q).
Proof.
  intros [[(x & Hx) Hall] Hs]. apply quorum_closed. split.
  - exists x. apply contained_nodes_spec. auto.
  - intros y Hy. unfold sat. rewrite (node_of_qset_of f y q).
    + apply is_quorum_slice_iff. eapply slice_mono; [|exact Hs]. intros z Hz. apply contained_nodes_spec; auto.
    + apply Hall. apply contained_nodes_spec; auto.
Qed.

Lemma complement_contains_quorum_false s : complement_contains_quorum s f = false <-> forall Q, quorum f Q -> meets Q s.
Proof.
  unfold complement_contains_quorum. rewrite contains_quorum_false. split.
  - intros H Q HQ. apply not_disjoint_meets. apply not_true_iff_false. intro Hd. apply (H Q HQ).
    intros x Hx. rewrite mem_diff, (quorum_nodes f Q HQ x Hx). simpl. rewrite disjoint_iff in Hd.
    destruct (mem x s) eqn:Exs; auto. exfalso. eauto.
  - intros H Q HQ Hi. destruct (H Q HQ) as (x & Hx & Hxs). apply Hi in Hx. rewrite mem_diff, Hxs, andb_false_r in Hx. discriminate.
Qed.

(** two different clusters give disjoint quorums *)
Lemma two_symmetric_clusters q q' : satisfiable_cluster f q -> satisfiable_cluster f q' -> q <> q' ->
  ~ meets (contained_nodes q) (contained_nodes q').
Proof.
  intros [[_ H] _] [[_ H'] _] Hne (x & Hx & Hx'). apply Hne.
  apply contained_nodes_spec in Hx, Hx'. apply (node_of_fun f x); auto.
Qed.

Lemma find_symmetric_top_tier_spec : exists o, find_symmetric_top_tier E f = Ok o /\
  (forall q, o = Some q ->
     satisfiable_cluster f q /\
     (forall x, in_top_tier f x -> node_of f x q /\ mentions x q) /\
     (forall Q, quorum f Q -> exists x, mem x Q = true /\ mentions x q)) /\
  (forall q, (exists Q, quorum f Q) -> (forall x, in_top_tier f x <-> mentions x q) ->
     (forall x, in_top_tier f x -> node_of f x q) -> o = Some q).
Proof.
  unfold find_symmetric_top_tier. destruct find_symmetric_clusters_form as (l & El & Nl & Hl). rewrite El. simpl.
  eexists. split; [reflexivity|]. split.
  - intros q Hq. destruct l as [|q0 [|]]; try discriminate.
    destruct (complement_contains_quorum (contained_nodes q0) f) eqn:Ec; [discriminate|]. injection Hq as ->.
    rewrite complement_contains_quorum_false in Ec.
    assert (Hsc : satisfiable_cluster f q) by (apply Hl; left; auto).
    split; auto. split.
    + intros x (Q & HQ & Hx). assert (Hm : mentions x q).
      { destruct (symmetric_cluster_nodes q Hsc) as (c & Hc & Ecq).
        destruct (Ec Q) as (y & HyQ & Hyq); [apply HQ|].
        apply contained_nodes_spec. rewrite <- Ecq in *. apply (cluster_class E HE f Hwf c y x Hc Hyq). split.
        - apply satisfiable_nodes_spec with (t := Q); auto. destruct HQ as [HQ _]. apply quorum_closed in HQ. apply HQ.
        - eapply minimal_quorum_linked; eauto. }
      split; auto. destruct Hsc as [[_ H] _]. auto.
    + intros Q HQ. destruct (Ec Q HQ) as (x & H1 & H2). exists x. rewrite <- contained_nodes_spec. auto.
  - intros q (Q0 & HQ0) Htt Hn.
    assert (Hall : forall Q, minimal_quorum f Q -> incl_set Q (contained_nodes q)).
    { intros Q HQ x Hx. apply contained_nodes_spec, Htt. exists Q. auto. }
    destruct (minimal_quorum_below f Q0 HQ0) as (m & Hm & Hmm).
    assert (Hsc : satisfiable_cluster f q).
    { destruct Hmm as [[(x & Hx) Hcl] Hmin]. assert (Hmm : minimal_quorum f m) by (split; [split; [exists x|]|]; auto).
      assert (Hxq : mentions x q) by (apply contained_nodes_spec; apply (Hall m); auto). split.
      - split; [eauto|]. intros y Hy. apply Hn, Htt; auto.
      - destruct (Hcl x Hx) as (q' & Hq' & Hs). rewrite (node_of_fun f x q q'); auto.
        + eapply slice_mono; [|exact Hs]. intros y Hy. cbv beta in Hy. rewrite <- (node_of_fun f x q q'); auto.
          * apply contained_nodes_spec. apply (Hall m); auto.
          * apply Hn, Htt. auto.
        + apply Hn, Htt. auto. }
    assert (Hone : l = [q]).
    { assert (Hq : In q l) by (apply Hl; auto).
      assert (Hu : forall q', In q' l -> q' = q).
      { intros q' Hq'. apply Hl in Hq'. assert (HQ' := satisfiable_cluster_quorum q' Hq').
        destruct (minimal_quorum_below f _ HQ') as (m' & Hm' & Hmm').
        destruct Hmm' as [[(x & Hx) Hcl] Hmin].
        assert (Hmm' : minimal_quorum f m') by (split; [split; [exists x|]|]; auto).
        apply (node_of_fun f x).
        - destruct Hq' as [[_ H] _]. apply H. apply contained_nodes_spec. auto.
        - apply Hn. exists m'. auto. }
      destruct l as [|a [|b l']]; [destruct Hq|f_equal; apply Hu; left; auto|].
      exfalso. inversion Nl as [|? ? Ha _]; subst. apply Ha. left.
      rewrite (Hu a), (Hu b); simpl; auto. }
    subst l. replace (complement_contains_quorum (contained_nodes q) f) with false; auto. symmetry.
    apply complement_contains_quorum_false. intros Q HQ. destruct (minimal_quorum_below f Q HQ) as (m' & Hm' & Hmm').
    assert (Hi := Hall m' Hmm'). destruct Hmm' as [[(x & Hx) _] _]. exists x. auto.
Qed.

(** relevant nodes *)
Lemma relevant_nodes_spec : exists components : list bset,
  ForallOrdPairs (fun a b => ~ meets a b) components /\
  (forall x, mem x (relevant_nodes E f) = true <-> exists c, In c components /\ mem x c = true) /\
  (forall c, In c components -> exists Q, quorum f Q /\ incl_set Q c) /\
  (forall Q, minimal_quorum f Q -> exists c, In c components /\ incl_set Q c) /\
  (forall c x y, In c components -> mem x c = true -> mem y c = true -> trusts_transitively f x y) /\
  (forall x, mem x (relevant_nodes E f) = true -> exists Q, quorum f Q /\ mem x Q = true) /\
  ((exists Q, quorum f Q) <-> inhabited_set (relevant_nodes E f)).
Proof.
  exists (consensus_clusters E f). repeat match goal with |- _ /\ _ => split end.
  - assert (Hd := clusters_disjoint E HE f Hwf). assert (Hn := clusters_nodup E HE f Hwf).
    induction (consensus_clusters E f) as [|c cl IH]; constructor; inversion Hn; subst.
    + apply Forall_forall. intros d Hd' (x & Hx & Hx'). apply H1. replace c with d; auto. apply (Hd d c x); simpl; auto.
    + apply IH; auto. intros a b x Ha Hb. apply Hd; right; auto.
  - intro x. apply mem_relevant_nodes.
  - intros c Hc. destruct (cluster_quorum E f c Hc) as (Q & HQ & Hi). exists Q. split; auto. apply HQ.
  - intros Q HQ. apply minimal_quorum_cluster; auto.
  - intros c x y Hc Hx Hy. apply (cluster_class E HE f Hwf c x y Hc Hx) in Hy. apply Hy.
  - intros x Hx. apply mem_relevant_nodes in Hx. destruct Hx as (c & Hc & Hx).
    exists (satisfiable_nodes f). assert (Hxs : mem x (satisfiable_nodes f) = true).
    { apply (cluster_class E HE f Hwf c x x Hc Hx) in Hx. tauto. }
    split; auto. apply quorum_closed. split; [exists x; auto|]. apply satisfiable_nodes_spec.
  - split.
    { intros (Q & HQ). destruct (minimal_quorum_below f Q HQ) as (m & _ & Hm).
    destruct (minimal_quorum_cluster E HE f Hwf m Hm) as (c & Hc & Hi). destruct Hm as [[(x & Hx) _] _].
    exists x. apply mem_relevant_nodes. eauto. }
    intros (x & Hx). apply mem_relevant_nodes in Hx. destruct Hx as (c & Hc & _).
    destruct (cluster_quorum E f c Hc) as (Q & HQ & _). exists Q. apply HQ.
Qed.
End S.
