(** The searches and [Analysis] do not panic, whatever the quorum sets look like. *)
From Verif Require Export P_Analysis.
Local Open Scope list_scope.

Lemma entries_mentions k (G : qset -> list bset) t vs is_ s : (forall i s, In i is_ -> In s (G i) -> forall x, mem x s = true -> mentions x i) ->
  In s (combine_groups k (map (fun v => [of_list [v]]) vs ++ map G is_)) -> forall x, mem x s = true -> mentions x (QS t vs is_).
Proof.
  intros HG H x Hx. apply combine_entries_spec in H. destruct H as (vs' & is' & ps & Hv & Hi & _ & _ & Hp & ->).
  apply mem_entries in Hx. destruct Hx as [Hx|(p & Hpp & Hx)].
  - apply mentions_here. eapply subseq_in; eauto.
  - destruct (Forall2_in_l _ _ _ p Hp Hpp) as (i & Hii & Hin). apply mentions_inner with i.
    + eapply subseq_in; eauto.
    + apply (HG i p); auto. eapply subseq_in; eauto.
Qed.

Lemma to_blocking_sets_mentions q : forall s x, In s (to_blocking_sets q) -> mem x s = true -> mentions x q.
Proof.
  induction q as [t vs is_ IH] using qset_ind'. intros s x Hs Hx. cbn [to_blocking_sets] in Hs.
  refine (entries_mentions _ to_blocking_sets t vs is_ s _ Hs x Hx). intros i s' Hi Hs' y Hy. eapply IH; eauto.
Qed.
Lemma to_splitting_sets_mentions q : forall s x, In s (to_splitting_sets q) -> mem x s = true -> mentions x q.
Proof.
  induction q as [t vs is_ IH] using qset_ind'. intros s x Hs Hx. cbn [to_splitting_sets] in Hs.
  set (l := combine_groups _ _) in Hs.
  assert (Hl : In s l).
  { destruct l as [|s0 [|s1 l']]; auto. destruct (is_quorum_slice _ s0); [destruct Hs|auto]. }
  unfold l in Hl. refine (entries_mentions _ to_splitting_sets t vs is_ s _ Hl x Hx). intros i s' Hi Hs' y Hy. eapply IH; eauto.
Qed.

Lemma remove_incl y s U : incl_set s U -> incl_set (remove y s) U.
Proof. intros H x Hx. rewrite mem_remove, andb_true_iff in Hx. apply H, Hx. Qed.
Lemma insert_incl y s U : mem y U = true -> incl_set s U -> incl_set (insert y s) U.
Proof. intros Hy H x Hx. rewrite mem_insert, orb_true_iff, Nat.eqb_eq in Hx. destruct Hx as [->|Hx]; auto. Qed.

Lemma blocking_step_range f U unprocessed : (forall x, In x unprocessed -> mem x U = true) -> forall sel rem maxr found ch,
  incl_set sel U -> (forall s, In s found -> incl_set s U) ->
  let '(sel', _, _, found') := minimal_blocking_sets_finder_step f unprocessed sel rem maxr found ch in
  incl_set sel' U /\ forall s, In s found' -> incl_set s U.
Proof.
  induction unprocessed as [|c un IH]; intros HU sel rem maxr found ch Hs Hf; cbn [minimal_blocking_sets_finder_step].
  - destruct (ch && is_blocked_set rem f).
    + destruct (is_minimal_for_blocking_set_with_precomputed_blocked_set sel rem f); split; auto.
      intros s H. apply in_app_iff in H. destruct H as [H|[<-|[]]]; auto.
    + auto.
  - destruct (ch && is_blocked_set rem f).
    + destruct (is_minimal_for_blocking_set_with_precomputed_blocked_set sel rem f); split; auto.
      intros s H. apply in_app_iff in H. destruct H as [H|[<-|[]]]; auto.
    + assert (Hc : mem c U = true) by (apply HU; left; auto).
      assert (HU' : forall x, In x un -> mem x U = true) by (intros; apply HU; right; auto).
      assert (H1 := IH HU' (insert c sel) (remove c rem) maxr found true (insert_incl _ _ _ Hc Hs) Hf).
      destruct (minimal_blocking_sets_finder_step f un (insert c sel) _ _ _ _) as [[[sel1 rem1] max1] found1].
      destruct H1 as [H1 H2].
      destruct (is_blocked_set (insert c max1) f).
      * assert (H3 := IH HU' (remove c sel1) (insert c rem1) (insert c max1) found1 false (remove_incl _ _ _ H1) H2).
        destruct (minimal_blocking_sets_finder_step f un (remove c sel1) _ _ _ _) as [[[sel2 rem2] max2] found2]. auto.
      * split; auto. apply remove_incl; auto.
Qed.

Lemma splitting_step_range f U unprocessed : (forall x, In x unprocessed -> mem x U = true) -> forall sel av found parts ch,
  incl_set sel U -> (forall s, In s found -> incl_set s U) ->
  let '(sel', _, found') := splitting_sets_finder_step f unprocessed sel av found parts ch in
  incl_set sel' U /\ forall s, In s found' -> incl_set s U.
Proof.
  induction unprocessed as [|c un IH]; intros HU sel av found parts ch Hs Hf; cbn [splitting_sets_finder_step].
  - destruct (List.length parts <? 2); auto. destruct (ch && is_quorum_intersection sel f parts); auto.
    split; auto. intros s H. apply in_app_iff in H. destruct H as [H|[<-|[]]]; auto.
  - destruct (List.length parts <? 2); auto. destruct (ch && is_quorum_intersection sel f parts).
    + split; auto. intros s H. apply in_app_iff in H. destruct H as [H|[<-|[]]]; auto.
    + assert (Hc : mem c U = true) by (apply HU; left; auto).
      assert (HU' : forall x, In x un -> mem x U = true) by (intros; apply HU; right; auto).
      match goal with |- context [splitting_sets_finder_step f un (insert c sel) av found ?p true] => set (ps := p) end.
      assert (H1 := IH HU' (insert c sel) av found ps true (insert_incl _ _ _ Hc Hs) Hf).
      destruct (splitting_sets_finder_step f un (insert c sel) av found ps true) as [[sel1 av1] found1].
      destruct H1 as [H1 H2].
      destruct (has_potential (remove c sel1) (remove c av1) f).
      * match goal with |- context [splitting_sets_finder_step f un (remove c sel1) ?a found1 ?p false] => set (ps2 := p); set (a2 := a) end.
        assert (H3 := IH HU' (remove c sel1) a2 found1 ps2 false (remove_incl _ _ _ H1) H2).
        destruct (splitting_sets_finder_step f un (remove c sel1) a2 found1 ps2 false) as [[sel2 av2] found2]. auto.
      * split; auto. apply remove_incl; auto.
Qed.

Section NoPanic.
Variable E : ext.
Hypothesis HE : ext_ok E.

Section Search.
Variable f : fbas.
Hypothesis Hwf : wf_fbas f.

Lemma rank_sort_in c x : In c (consensus_clusters E f) -> In x (rank_sort E f (elements c)) -> mem x (all_nodes f) = true.
Proof.
  intros Hc Hx. assert (Hcn := cluster_nodes E f c Hc). apply Hcn. rewrite <- (rank_sort_of_list E HE f Hwf c Hcn).
  apply mem_of_list. auto.
Qed.

Lemma blocking_cluster_ok c : In c (consensus_clusters E f) ->
  exists l, blocking_sets_in_cluster E f c = Ok l /\ forall s, In s l -> incl_set s (all_nodes f).
Proof.
  intro Hc. unfold blocking_sets_in_cluster. assert (Hcn := cluster_nodes E f c Hc).
  destruct (find_symmetric_cluster_cases E HE f Hwf c Hc) as [[Es _]|(q & Es & Ef & Hq & Hall)]; rewrite Es; simpl.
  - assert (H := blocking_step_range f (all_nodes f) (rank_sort E f (elements c)) (fun x => rank_sort_in c x Hc)
        bempty (of_list (rank_sort E f (elements c))) bempty [] true).
    destruct (minimal_blocking_sets_finder_step _ _ _ _ _ _ _) as [[[s1 s2] s3] found]. exists found. split; auto.
    apply H.
    + intros x Hx. rewrite mem_empty in Hx. discriminate.
    + intros s [].
  - eexists. split; [reflexivity|]. intros s Hs x Hx. apply Hcn. rewrite <- Hq. apply contained_nodes_spec.
    unfold to_minimal_blocking_sets in Hs. apply (to_blocking_sets_mentions q s); auto.
    destruct (contains_duplicates q); auto. apply filter_In in Hs. apply Hs.
Qed.

Lemma mbs_no_panic : exists l, find_minimal_blocking_sets E f = Ok l /\ forall s, In s l -> incl_set s (all_nodes f).
Proof.
  unfold find_minimal_blocking_sets, find_minimal_sets, find_sets, minimal_blocking_sets_finder.
  assert (H : forall cl, incl cl (consensus_clusters E f) -> exists per, mapM (blocking_sets_in_cluster E f) cl = Ok per /\
    forall l s, In l per -> In s l -> incl_set s (all_nodes f)).
  { induction cl as [|c cl IH]; intro Hi; simpl.
    - exists []. split; auto. intros l s [].
    - destruct (blocking_cluster_ok c) as (l & El & Hl); [apply Hi; left; auto|].
      destruct IH as (per & Ep & Hp); [intros y Hy; apply Hi; right; auto|]. rewrite El. simpl. rewrite Ep. simpl.
      eexists. split; [reflexivity|]. intros l0 s [<-|H] Hs; auto. eapply Hp; eauto. }
  destruct (H (consensus_clusters E f) (fun x Hx => Hx)) as (per & Ep & Hp). rewrite Ep. simpl. eexists. split; [reflexivity|].
  intros s Hs. rewrite sort_sets_in in Hs. apply in_map_iff in Hs. destruct Hs as (p & <- & Hpp). apply mcp_spec in Hpp.
  destruct Hpp as [_ Hpp]. intros x Hx. apply mem_unions in Hx. destruct Hx as (s & Hs & Hx).
  destruct (Forall2_in_l _ _ _ s Hpp Hs) as (l & Hl & Hsl). apply (Hp l s); auto.
Qed.

Lemma mss_no_panic mq : exists l, find_minimal_splitting_sets E f mq = Ok l /\ forall s, In s l -> incl_set s (all_nodes f).
Proof.
  unfold find_minimal_splitting_sets, find_minimal_sets, find_sets.
  assert (H : forall cl, incl cl (consensus_clusters E f) -> exists l, minimal_splitting_sets_finder E mq cl f = Ok l /\
    forall s, In s l -> incl_set s (all_nodes f)).
  { induction cl as [|c cl IH]; intro Hi; simpl.
    - exists []. split; auto. intros s [].
    - assert (Hc : In c (consensus_clusters E f)) by (apply Hi; left; auto). assert (Hcn := cluster_nodes E f c Hc).
      destruct IH as (l & El & Hl); [intros y Hy; apply Hi; right; auto|].
      destruct (find_symmetric_cluster_cases E HE f Hwf c Hc) as [[Es _]|(q & Es & Ef & Hq & Hall)]; rewrite Es; simpl; rewrite El; simpl.
      + eexists. split; [reflexivity|]. intros s Hs. apply in_app_iff in Hs. destruct Hs as [Hs|Hs]; auto.
        assert (H := splitting_step_range f (all_nodes f) (rank_sort E f (elements c)) (fun x => rank_sort_in c x Hc)
           bempty (of_list (rank_sort E f (elements c))) [] mq true).
        destruct (splitting_sets_finder_step _ _ _ _ _ _ _) as [[s1 s2] found].
        apply remove_non_minimal_node_sets_spec in Hs. apply H.
        * intros x Hx. rewrite mem_empty in Hx. discriminate.
        * intros y [].
        * apply Hs.
      + eexists. split; [reflexivity|]. intros s Hs. apply in_app_iff in Hs. destruct Hs as [Hs|Hs]; auto.
        intros x Hx. apply Hcn. rewrite <- Hq. apply contained_nodes_spec.
        apply (to_splitting_sets_mentions q s); auto. unfold to_minimal_splitting_sets in Hs.
        destruct (contains_duplicates q); auto. apply remove_non_minimal_node_sets_spec in Hs. apply Hs. }
  destruct (H (consensus_clusters E f) (fun x Hx => Hx)) as (l & El & Hl). rewrite El. simpl. eexists. split; [reflexivity|].
  intros s Hs. rewrite sort_sets_in in Hs. auto.
Qed.
End Search.

Section Weak.
Variable f : fbas.
Hypothesis Hwf : wf_fbas f.
Let ranged (K : bset) (o : option (list bset)) : Prop := forall l, o = Some l -> forall s, In s l -> in_range (elements K) s.

Record winv (a : analysis) (K : bset) : Prop := {
  w_orig : fbas_original a = f;
  w_sm : a_sm a = sm_new K;
  w_sh : fbas_shrunken a = shrunken_fbas K f;
  w_mss_mq : mss_cache a <> None -> mq_cache a <> None;
  w_mq : ranged K (mq_cache a);
  w_mbs : ranged K (mbs_cache a);
  w_mss : ranged K (mss_cache a) }.

Lemma in_range_nodes K s : incl_set s (all_nodes (shrunken_fbas K f)) -> in_range (elements K) s.
Proof. intros H i Hi. apply H in Hi. rewrite mem_all_nodes, shrunken_nodes in Hi. rewrite <- len_elements. auto. Qed.

Lemma wmq K : exists l, find_minimal_quorums E (shrunken_fbas K f) = Ok l /\ forall s, In s l -> in_range (elements K) s.
Proof.
  destruct (find_minimal_quorums_spec E HE (shrunken_fbas K f) (shrunken_wf K f)) as (l & El & Hl & _). exists l. split; auto.
  intros s Hs. apply in_range_nodes. apply quorum_nodes. apply Hl in Hs. apply Hs.
Qed.
Lemma wmbs K : exists l, find_minimal_blocking_sets E (shrunken_fbas K f) = Ok l /\ forall s, In s l -> in_range (elements K) s.
Proof.
  destruct (mbs_no_panic (shrunken_fbas K f) (shrunken_wf K f)) as (l & El & Hl). exists l. split; auto.
  intros s Hs. apply in_range_nodes. auto.
Qed.
Lemma wmss K mq (b : bool) : exists l, (if b then find_minimal_splitting_sets E (shrunken_fbas K f) mq else Ok [bempty]) = Ok l /\
  forall s, In s l -> in_range (elements K) s.
Proof.
  destruct b.
  - destruct (mss_no_panic (shrunken_fbas K f) (shrunken_wf K f) mq) as (l & El & Hl). exists l. split; auto.
    intros s Hs. apply in_range_nodes. auto.
  - eexists. split; [reflexivity|]. intros s [<-|[]] i Hi. rewrite mem_empty in Hi. discriminate.
Qed.

Lemma w_shrink a K : winv a K -> mss_cache a = None ->
  (mq_cache a = None /\ mbs_cache a <> None) \/ (mq_cache a <> None /\ mbs_cache a = None) ->
  exists a' K', shrink_id_space_to_top_tier a = Ok a' /\ winv a' K' /\
    (mq_cache a = None <-> mq_cache a' = None) /\ (mbs_cache a = None <-> mbs_cache a' = None).
Proof.
  intros [I1 I2 I3 I6 I8 I9 I10] Hmss Hcases.
  unfold shrink_id_space_to_top_tier. destruct a as [fo fs sm h mq mbs mss]. cbn in *. subst fo sm fs mss.
  assert (G : forall l, (forall s, In s l -> in_range (elements K) s) ->
    let K2 := up (elements K) (involved_nodes l) in
    unshrink_set (sm_new K) (involved_nodes l) = Ok K2 /\
    exists l', reshrink_sets (sm_new K2) l (sm_new K) = Ok l' /\ forall s, In s l' -> in_range (elements K2) s).
  { intros l Hl K2. unfold unshrink_set. simpl unshrink_table. split; [apply unshrink_set_ok, involved_range; auto|].
    destruct (reshrink_ok K K2 l (fun _ => True) Hl) as (l' & El' & Em & Rl').
    - intros S HS x Hx. unfold K2. rewrite up_involved. apply mem_involved. eauto.
    - exists l'. auto. }
  destruct Hcases as [[-> Hb]|[Hq ->]].
  - destruct mbs as [l|]; [|congruence]. destruct (G l (I9 l eq_refl)) as [E1 (l' & E2 & R2)]. cbn. rewrite E1. cbn.
    rewrite shrunken_eq. cbn. rewrite E2. cbn. eexists. eexists. split; [reflexivity|]. split.
    + constructor; cbn; auto; try discriminate; try congruence; try (intros ? ?; discriminate).
      intros l0 E0. inversion E0; subst. auto.
    + cbn. split; split; auto; discriminate.
  - destruct mq as [l|]; [|congruence]. destruct (G l (I8 l eq_refl)) as [E1 (l' & E2 & R2)]. cbn. rewrite E1. cbn.
    rewrite shrunken_eq. cbn. rewrite E2. cbn. eexists. eexists. split; [reflexivity|]. split.
    + constructor; cbn; auto; try discriminate; try congruence; try (intros ? ?; discriminate).
      intros l0 E0. inversion E0; subst. auto.
    + cbn. split; split; auto; discriminate.
Qed.

Lemma w_mq_step a K : winv a K -> exists l a' K', minimal_quorums_shrunken E a = Ok (l, a') /\ winv a' K' /\ mq_cache a' = Some l.
Proof.
  intro Hinv. unfold minimal_quorums_shrunken. destruct (mq_cache a) as [l|] eqn:Em.
  - exists l, a, K. auto.
  - destruct (wmq K) as (l & El & Hl). rewrite (w_sh a K Hinv), El. simpl.
    assert (Hi : winv (set_mq a (Some l)) K).
    { destruct Hinv as [I1 I2 I3 I6 I8 I9 I10]. constructor; simpl; auto; try discriminate.
      intros l0 H. inversion H; subst; auto. }
    assert (Hm : mss_cache a = None).
    { destruct (mss_cache a) eqn:Es; auto. exfalso. apply (w_mss_mq a K Hinv); congruence. }
    destruct (mbs_cache a) as [b|] eqn:Eb; simpl.
    + exists l, (set_mq a (Some l)), K. auto.
    + destruct (w_shrink (set_mq a (Some l)) K Hi Hm) as (a' & K' & Ea & Hi' & Nq & Nb).
      { right. simpl. split; [discriminate|auto]. }
      rewrite Ea. simpl. destruct (mq_cache a') as [l'|] eqn:El'.
      * exists l', a', K'. auto.
      * exfalso. destruct Nq as [_ Nq]. discriminate (Nq eq_refl).
Qed.
Lemma w_mbs_step a K : winv a K -> exists l a' K', minimal_blocking_sets_shrunken E a = Ok (l, a') /\ winv a' K' /\ mbs_cache a' = Some l.
Proof.
  intros Hinv. unfold minimal_blocking_sets_shrunken. destruct (mbs_cache a) as [l|] eqn:Em.
  - exists l, a, K. auto.
  - destruct (wmbs K) as (l & El & Hl). rewrite (w_sh a K Hinv), El. simpl.
    assert (Hi : winv (set_mbs a (Some l)) K).
    { destruct Hinv as [I1 I2 I3 I6 I8 I9 I10]. constructor; simpl; auto; try discriminate.
      intros l0 H. inversion H; subst; auto. }
    destruct (mq_cache a) as [b|] eqn:Eb; simpl.
    + exists l, (set_mbs a (Some l)), K. auto.
    + assert (Hm : mss_cache a = None).
      { destruct (mss_cache a) eqn:Es; auto. exfalso. apply (w_mss_mq a K Hinv); congruence. }
      destruct (w_shrink (set_mbs a (Some l)) K Hi Hm) as (a' & K' & Ea & Hi' & Nq & Nb).
      { left. simpl. split; [auto|discriminate]. }
      rewrite Ea. simpl. destruct (mbs_cache a') as [l'|] eqn:El'.
      * exists l', a', K'. auto.
      * exfalso. destruct Nb as [_ Nb]. discriminate (Nb eq_refl).
Qed.
Lemma w_hqi_step a K : winv a K -> exists b a' K', has_quorum_intersection E a = Ok (b, a') /\ winv a' K' /\
  (mq_cache a <> None -> K' = K /\ mq_cache a' = mq_cache a).
Proof.
  intro Hinv. unfold has_quorum_intersection. destruct (hqi_cache a) as [b|] eqn:Eh.
  - exists b, a, K. auto.
  - assert (G : exists l a' K', minimal_quorums_shrunken E a = Ok (l, a') /\ winv a' K' /\ (mq_cache a <> None -> a' = a /\ K' = K)).
    { destruct (mq_cache a) as [l|] eqn:Em.
      - exists l, a, K. unfold minimal_quorums_shrunken. rewrite Em. auto.
      - destruct (w_mq_step a K Hinv) as (l & a' & K' & H1 & H2 & H3). exists l, a', K'. split; auto. split; auto. intro H; exfalso; apply H; auto. }
    destruct G as (l & a' & K' & El & Hi & Hsame). rewrite El. simpl.
    eexists. eexists. exists K'. split; [reflexivity|]. split.
    + destruct Hi as [I1 I2 I3 I6 I8 I9 I10]. constructor; simpl; auto.
    + intro H. destruct (Hsame H) as [-> ->]. simpl. auto.
Qed.
Lemma w_mss_step a K : winv a K -> exists l a' K', minimal_splitting_sets_shrunken E a = Ok (l, a') /\ winv a' K' /\ mss_cache a' = Some l.
Proof.
  intros Hinv. unfold minimal_splitting_sets_shrunken.
  destruct (w_mq_step a K Hinv) as (mq & a1 & K1 & E1 & I1 & M1). rewrite E1. simpl.
  destruct (mss_cache a1) as [l|] eqn:Em.
  - exists l, a1, K1. auto.
  - destruct (w_hqi_step a1 K1 I1) as (b & a2 & K2 & E2 & I2 & Hsame). rewrite E2. simpl.
    destruct Hsame as (-> & Mq); [congruence|].
    destruct (wmss K1 mq b) as (l & El & Hl).
    rewrite (w_sh a1 K1 I1), El. simpl. exists l, (set_mss a2 (Some l)), K1. split; auto. split; auto.
    destruct I2 as [J1 J2 J3 J6 J8 J9 J10]. constructor; simpl; auto.
    + intros _. rewrite Mq, M1. discriminate.
    + intros l0 H. inversion H; subst; auto.
Qed.

Lemma w_perform a K c : winv a K -> c <> AlternativeCheck ->
  exists ans a' K', perform E a c = Ok (ans, a') /\ winv a' K'.
Proof.
  intros Hinv Hc. destruct c; unfold perform; try congruence.
  - eexists. exists a, K. split; [reflexivity|auto].
  - eexists. exists a, K. split; [reflexivity|auto].
  - eexists. exists a, K. split; [reflexivity|auto].
  - destruct (w_hqi_step a K Hinv) as (b & a' & K' & E1 & I1 & _). rewrite E1. simpl. eexists. exists a', K'. split; [reflexivity|auto].
  - destruct (w_mq_step a K Hinv) as (l & a' & K' & E1 & I1 & M1). rewrite E1. simpl. eexists. exists a', K'. split; [reflexivity|auto].
  - destruct (w_mbs_step a K Hinv) as (l & a' & K' & E1 & I1 & M1). rewrite E1. simpl. eexists. exists a', K'. split; [reflexivity|auto].
  - destruct (w_mss_step a K Hinv) as (l & a' & K' & E1 & I1 & M1). rewrite E1. simpl. eexists. exists a', K'. split; [reflexivity|auto].
  - unfold top_tier_shrunken. destruct (negb (is_none (mq_cache a)) || is_none (mbs_cache a)).
    + destruct (w_mq_step a K Hinv) as (l & a' & K' & E1 & I1 & M1). rewrite E1. simpl. rewrite (w_sm a' K' I1).
      unfold unshrink_set. simpl unshrink_table. rewrite unshrink_set_ok; [|apply involved_range; apply (w_mq a' K' I1); auto].
      simpl. eexists. exists a', K'. split; [reflexivity|auto].
    + destruct (w_mbs_step a K Hinv) as (l & a' & K' & E1 & I1 & M1). rewrite E1. simpl. rewrite (w_sm a' K' I1).
      unfold unshrink_set. simpl unshrink_table. rewrite unshrink_set_ok; [|apply involved_range; apply (w_mbs a' K' I1); auto].
      simpl. eexists. exists a', K'. split; [reflexivity|auto].
  - rewrite (w_orig a K Hinv). destruct (find_symmetric_top_tier_spec E HE f Hwf) as (o & Eo & _). rewrite Eo. simpl.
    eexists. exists a, K. split; [reflexivity|auto].
  - rewrite (w_orig a K Hinv). destruct (find_symmetric_clusters_form E HE f Hwf) as (l & El & _). rewrite El. simpl.
    eexists. exists a, K. split; [reflexivity|auto].
Qed.

Lemma w_perform_all cs : forall a K, winv a K -> ~ In AlternativeCheck cs -> exists r, perform_all E a cs = Ok r.
Proof.
  induction cs as [|c cs IH]; intros a K Hinv Hn; simpl; eauto.
  destruct (w_perform a K c Hinv) as (x & a' & K' & E1 & I1); [intro; subst; apply Hn; left; auto|]. rewrite E1. simpl.
  destruct (IH a' K' I1) as (r & Er); [intro; apply Hn; right; auto|]. rewrite Er. simpl. eauto.
Qed.

Lemma analyze_no_panic cs : ~ In AlternativeCheck cs -> exists ans, analyze E f cs = Ok ans.
Proof.
  intro Hn. unfold analyze. destruct (inv_new E HE f Hwf) as (a & Ea & Hi). rewrite Ea. simpl.
  assert (Hw : winv a (relevant_nodes E f)).
  { destruct Hi as [I1 I2 I3 I4 I5 I6 I7 I8 I9 I10]. constructor; auto.
    - intros l H. apply (I8 l H).
    - intros l H. apply (I9 l H).
    - intros l H. apply (I10 l H). }
  destruct (w_perform_all cs a _ Hw Hn) as (r & Er). rewrite Er. simpl. eauto.
Qed.
End Weak.
End NoPanic.
