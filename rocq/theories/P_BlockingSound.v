(** The reported blocking sets block, whatever the quorum sets look like and whatever was asked before. *)
From Verif Require Export P_NoPanic.
Local Open Scope list_scope.

Lemma filter_apart {A} (g h : A -> bool) l : (forall a, In a l -> g a = true -> h a = false) ->
  List.length (filter g l) + List.length (filter h l) <= List.length l.
Proof.
  induction l as [|a l IH]; intro H; simpl; auto.
  assert (H' : forall b, In b l -> g b = true -> h b = false) by (intros; apply H; auto; right; auto). specialize (IH H').
  specialize (H a (or_introl eq_refl)). destruct (g a), (h a); simpl; try (specialize (H eq_refl); discriminate); lia.
Qed.

(** thresholds may be zero or too large here, validators may be repeated *)
Lemma dual_blocks q : forall s s', (forall x, mentions x q -> mem x s = true -> mem x s' = false) ->
  is_quorum_slice (dual q) s = true -> is_quorum_slice q s' = false.
Proof.
  induction q as [t vs is_ IH] using qset_ind'. intros s s' Hc. rewrite <- not_true_iff_false. cbn [dual].
  rewrite !is_quorum_slice_matches. unfold matches. rewrite filter_map_length. intros [H1 H2] [H3 H4].
  assert (Hv := filter_apart (fun x => mem x s) (fun x => mem x s') vs (fun x Hx => Hc x (mentions_here x t vs is_ Hx))).
  assert (Hi := filter_apart (fun i => is_quorum_slice (dual i) s) (fun i => is_quorum_slice i s') is_).
  assert (Hi' : forall i, In i is_ -> is_quorum_slice (dual i) s = true -> is_quorum_slice i s' = false).
  { intros i Hin. apply IH; auto. intros x Hx. apply Hc. eright; eauto. }
  specialize (Hi Hi'). unfold blocking_threshold in *. destruct (t <=? List.length vs + List.length is_) eqn:Et; [|lia].
  apply Nat.leb_le in Et. lia.
Qed.

Section Sound.
Variable E : ext.
Hypothesis HE : ext_ok E.
Variable f : fbas.
Hypothesis Hwf : wf_fbas f.

Lemma cluster_sets_block c : In c (consensus_clusters E f) ->
  exists l, blocking_sets_in_cluster E f c = Ok l /\ forall B, In B l -> cblocking f c B.
Proof.
  intro Hc. unfold blocking_sets_in_cluster.
  destruct (find_symmetric_cluster_cases E HE f Hwf c Hc) as [[Es _]|(q & Es & Ef & Hq & Hall)]; rewrite Es; simpl.
  - assert (Hcn := cluster_nodes E f c Hc).
    destruct (blocking_step_spec f c (rank_sort E f (elements c)) bempty [] true) as (new & En & Nn & Sn).
    + apply rank_sort_nodup; auto.
    + intros; apply mem_empty.
    + intros x Hx. rewrite mem_union, mem_empty, rank_sort_of_list in Hx; auto.
    + discriminate.
    + assert (E1 : union bempty (of_list (rank_sort E f (elements c))) = c).
      { apply bset_ext. intro x. rewrite mem_union, mem_empty, rank_sort_of_list; auto. }
      assert (E2 : diff c bempty = c).
      { apply bset_ext. intro x. rewrite mem_diff, mem_empty, andb_true_r. auto. }
      assert (E3 : diff c c = bempty).
      { apply bset_ext. intro x. rewrite mem_diff, mem_empty. apply andb_negb_r. }
      rewrite E1, E2, E3 in En. rewrite rank_sort_of_list by auto. rewrite En. exists new.
      split; auto. intros B HB. apply Sn in HB. apply HB.
  - eexists. split; [reflexivity|]. intros B HB.
    assert (HB' : In B (to_blocking_sets q)).
    { unfold to_minimal_blocking_sets in HB. destruct (contains_duplicates q); auto. apply filter_In in HB. apply HB. }
    assert (Hi : incl_set B c).
    { intros x Hx. rewrite <- Hq. apply contained_nodes_spec. apply (to_blocking_sets_mentions q B); auto. }
    apply (sym_cblocking_iff f c q B Hq Hall Hi). rewrite to_blocking_sets_dual in HB'.
    apply (dual_blocks q B); [|apply to_quorum_slices_sound; auto].
    intros x _ Hx. rewrite mem_diff, Hx. apply andb_false_r.
Qed.

Lemma mbs_sound : exists l, find_minimal_blocking_sets E f = Ok l /\ forall B, In B l -> blocking f B.
Proof.
  unfold find_minimal_blocking_sets, find_minimal_sets, find_sets, minimal_blocking_sets_finder.
  assert (Hmap : forall cl, incl cl (consensus_clusters E f) -> exists per, mapM (blocking_sets_in_cluster E f) cl = Ok per /\
       Forall2 (fun l c => forall B, In B l -> cblocking f c B) per cl).
  { induction cl as [|c cl IH]; intro Hi; simpl.
    - exists []. split; auto.
    - destruct (cluster_sets_block c) as (l & El & Sl); [apply Hi; left; auto|].
      destruct IH as (per & Ep & Hp); [intros d Hd; apply Hi; right; auto|].
      rewrite El. simpl. rewrite Ep. simpl. exists (l :: per). split; auto. }
  destruct (Hmap (consensus_clusters E f)) as (per & Ep & Hper); [intros c Hc; auto|].
  rewrite Ep. simpl. eexists. split; [reflexivity|]. intros B HB. rewrite sort_sets_in in HB.
  apply in_map_iff in HB. destruct HB as (p & <- & Hp). apply mcp_spec in Hp. destruct Hp as [_ Hp].
  assert (Hp' : Forall2 (fun B c => cblocking f c B) p (consensus_clusters E f)).
  { clear - Hp Hper. revert p Hp. induction Hper as [|l c per cl Hl Hper IH]; intros p Hp; inversion Hp; subst; constructor; auto. }
  apply (blocking_clusters E HE f Hwf). intros c Hc.
  assert (Hin : Forall2 (fun B c => inter (unions p) c = B) p (consensus_clusters E f)).
  { apply (choice_inter E HE f Hwf); [intros d Hd; auto|apply clusters_nodup; auto|].
    eapply Forall2_impl; [|exact Hp']. intros B d [H _]. auto. }
  clear - Hin Hp' Hc. revert Hin. generalize (unions p). intros U Hin. induction Hp' as [|B d p cl HB Hp IH]; [destruct Hc|].
  inversion Hin; subst. destruct Hc as [<-|Hc]; auto.
Qed.
End Sound.

Section History.
Variable E : ext.
Hypothesis HE : ext_ok E.
Variable f : fbas.
Hypothesis Hwf : wf_fbas f.

(** as long as no blocking sets were computed the analysis works on ids that cover all minimal quorums *)
Record binv (a : analysis) (K : bset) : Prop := {
  b_weak : winv f a K;
  b_none : mbs_cache a = None -> working_set f K /\ covers f K /\ forall l, mq_cache a = Some l -> mq_ok f K l;
  b_some : forall l, mbs_cache a = Some l -> forall s, In s l -> blocking f (up (elements K) s) }.


Lemma b_mq_shrink a K l : winv f a K -> mq_cache a = Some l -> mbs_cache a = None -> mss_cache a = None -> mq_ok f K l ->
  exists a' K' l', shrink_id_space_to_top_tier a = Ok a' /\ winv f a' K' /\ mq_cache a' = Some l' /\ mbs_cache a' = None /\ mss_cache a' = None /\
    hqi_cache a' = hqi_cache a /\ working_set f K' /\ covers f K' /\ mq_ok f K' l'.
Proof.
  intros [I1 I2 I3 I6 I8 I9 I10] Hm Hb Hs Hok.
  unfold shrink_id_space_to_top_tier. destruct a as [fo fs sm h mq mbs mss]. cbn in *. subst fo sm fs mss mq mbs.
  set (K2 := up (elements K) (involved_nodes l)).
  assert (HK2 : forall x, mem x K2 = true <-> in_top_tier f x) by (apply mq_top_tier; auto).
  assert (Hr := I8 l eq_refl). assert (E1 : unshrink_set (sm_new K) (involved_nodes l) = Ok K2).
  { unfold unshrink_set. simpl unshrink_table. apply unshrink_set_ok, involved_range. auto. }
  cbn. rewrite E1. cbn. rewrite shrunken_eq. cbn. destruct Hok as (R1 & R2 & R3).
  destruct (reshrink_ok K K2 l (fun _ => True) Hr) as (l' & El' & Em & Rl').
  { intros S HS. apply (top_tier_covers f K2 HK2). apply R2; auto. }
  rewrite El'. cbn. eexists. exists K2, l'. split; [reflexivity|]. split; [|cbn].
  - constructor; cbn; auto; try discriminate; try congruence; try (intros ? ?; discriminate).
    intros l0 E0. inversion E0; subst. auto.
  - split; [auto|]. split; [auto|]. split; [auto|]. split; [auto|]. split; [right; auto|]. split; [apply top_tier_covers; auto|]. split; auto. rewrite Em. auto.
Qed.

Lemma b_mbs_shrink a K l : winv f a K -> mq_cache a = None -> mbs_cache a = Some l -> mss_cache a = None ->
  (forall s, In s l -> blocking f (up (elements K) s)) ->
  exists a' K' l', shrink_id_space_to_top_tier a = Ok a' /\ winv f a' K' /\ mbs_cache a' = Some l' /\
    map (up (elements K')) l' = map (up (elements K)) l.
Proof.
  intros [I1 I2 I3 I6 I8 I9 I10] Hm Hb Hs Hok.
  unfold shrink_id_space_to_top_tier. destruct a as [fo fs sm h mq mbs mss]. cbn in *. subst fo sm fs mss mq mbs.
  set (K2 := up (elements K) (involved_nodes l)).
  assert (Hr := I9 l eq_refl). assert (E1 : unshrink_set (sm_new K) (involved_nodes l) = Ok K2).
  { unfold unshrink_set. simpl unshrink_table. apply unshrink_set_ok, involved_range. auto. }
  cbn. rewrite E1. cbn. rewrite shrunken_eq. cbn.
  destruct (reshrink_ok K K2 l (fun _ => True) Hr) as (l' & El' & Em & Rl').
  { intros S HS x Hx. unfold K2. rewrite up_involved. apply mem_involved. eauto. }
  rewrite El'. cbn. eexists. exists K2, l'. split; [reflexivity|]. split; [|cbn; auto].
  constructor; cbn; auto; try discriminate; try congruence; try (intros ? ?; discriminate).
  intros l0 E0. inversion E0; subst. auto.
Qed.

Lemma b_mq_step a K : binv a K -> exists l a' K', minimal_quorums_shrunken E a = Ok (l, a') /\ binv a' K' /\ mq_cache a' = Some l.
Proof.
  intros [W N S]. unfold minimal_quorums_shrunken. destruct (mq_cache a) as [l|] eqn:Em.
  { exists l, a, K. split; auto. split; auto. constructor; auto. rewrite Em. auto. }
  assert (Hm : mss_cache a = None).
  { destruct (mss_cache a) eqn:Es; auto. exfalso. apply (w_mss_mq f a K W); congruence. }
  assert (Hset : forall l, (forall s, In s l -> in_range (elements K) s) -> winv f (set_mq a (Some l)) K).
  { intros l Hl. destruct W as [I1 I2 I3 I6 I8 I9 I10]. constructor; simpl; auto; try discriminate. intros l0 H. inversion H; subst; auto. }
  destruct (mbs_cache a) as [b|] eqn:Eb.
  - destruct (wmq E HE f K) as (l & El & Hl). rewrite (w_sh f a K W), El. simpl.
    exists l, (set_mq a (Some l)), K. split; auto. split; auto. constructor; simpl; auto; rewrite Eb; auto; discriminate.
  - destruct (N eq_refl) as (Hwk & Hcov & Hmq).
    destruct (find_mq_ok E HE f K Hwk Hcov) as (l & El & Hl). rewrite (w_sh f a K W), El. simpl.
    destruct (b_mq_shrink (set_mq a (Some l)) K l) as (a' & K' & l' & Ea & W' & Mq & Mb & _ & _ & A1 & A2 & A3); auto.
    { apply Hset, Hl. }
    rewrite Ea. simpl. rewrite Mq. simpl. exists l', a', K'. split; auto. split; auto. constructor; auto; [|congruence].
    intros _. split; auto. split; auto. rewrite Mq. intros l0 H. inversion H; subst; auto.
Qed.

Lemma b_mbs_step a K : binv a K -> exists l a' K', minimal_blocking_sets_shrunken E a = Ok (l, a') /\ binv a' K' /\ mbs_cache a' = Some l.
Proof.
  intros [W N S]. unfold minimal_blocking_sets_shrunken. destruct (mbs_cache a) as [l|] eqn:Em.
  { exists l, a, K. split; auto. split; auto. constructor; auto; rewrite Em; auto. }
  destruct (N eq_refl) as (Hwk & Hcov & Hmq).
  destruct (mbs_no_panic E HE (shrunken_fbas K f) (shrunken_wf K f)) as (l & El & Hl).
  destruct (mbs_sound E HE (shrunken_fbas K f) (shrunken_wf K f)) as (l2 & El2 & Hbl).
  assert (l2 = l) by congruence. subst l2. clear El2. rewrite (w_sh f a K W), El. simpl.
  assert (Hr : forall s, In s l -> in_range (elements K) s) by (intros; apply (in_range_nodes f); auto).
  assert (Hup : forall s, In s l -> blocking f (up (elements K) s)) by (intros s Hs; apply (blocking_up f K Hcov); auto).
  assert (W' : winv f (set_mbs a (Some l)) K).
  { destruct W as [I1 I2 I3 I6 I8 I9 I10]. constructor; simpl; auto; try discriminate. intros l0 H. inversion H; subst; auto. }
  destruct (mq_cache a) as [q|] eqn:Eq; simpl.
  - exists l, (set_mbs a (Some l)), K. split; auto. split; auto. constructor; simpl; auto; [discriminate|].
    intros l0 H. inversion H; subst; auto.
  - assert (Hm : mss_cache a = None).
    { destruct (mss_cache a) eqn:Es; auto. exfalso. apply (w_mss_mq f a K W); congruence. }
    destruct (b_mbs_shrink (set_mbs a (Some l)) K l W' Eq eq_refl Hm Hup) as (a' & K' & l' & Ea & W2 & Mb & Mu).
    rewrite Ea. simpl. rewrite Mb. simpl. exists l', a', K'. split; auto. split; auto. constructor; auto; [congruence|].
    intros l0 H. assert (l0 = l') by congruence. subst l0. intros s Hs. apply (in_map (up (elements K'))) in Hs. rewrite Mu in Hs.
    apply in_map_iff in Hs. destruct Hs as (s0 & <- & Hs0). auto.
Qed.

Lemma b_set_hqi a K v : binv a K -> binv (set_hqi a v) K.
Proof. intros [[I1 I2 I3 I6 I8 I9 I10] N S]. constructor; simpl; auto. constructor; simpl; auto. Qed.

Lemma b_hqi_step a K : binv a K -> exists b a' K', has_quorum_intersection E a = Ok (b, a') /\ binv a' K' /\
  (mq_cache a <> None -> K' = K /\ mq_cache a' = mq_cache a).
Proof.
  intro Hinv. unfold has_quorum_intersection. destruct (hqi_cache a) as [b|] eqn:Eh.
  - exists b, a, K. auto.
  - assert (G : exists l a' K', minimal_quorums_shrunken E a = Ok (l, a') /\ binv a' K' /\ (mq_cache a <> None -> a' = a /\ K' = K)).
    { destruct (mq_cache a) as [l|] eqn:Em.
      - exists l, a, K. unfold minimal_quorums_shrunken. rewrite Em. auto.
      - destruct (b_mq_step a K Hinv) as (l & a' & K' & H1 & H2 & H3). exists l, a', K'. split; auto. split; auto. intro H; exfalso; apply H; auto. }
    destruct G as (l & a' & K' & El & Hi & Hsame). rewrite El. simpl.
    eexists. eexists. exists K'. split; [reflexivity|]. split; [apply b_set_hqi; auto|].
    intro H. destruct (Hsame H) as [-> ->]. simpl. auto.
Qed.

Lemma b_mss_step a K : binv a K -> exists l a' K', minimal_splitting_sets_shrunken E a = Ok (l, a') /\ binv a' K' /\ mss_cache a' = Some l.
Proof.
  intros Hinv. unfold minimal_splitting_sets_shrunken.
  destruct (b_mq_step a K Hinv) as (mq & a1 & K1 & E1 & I1 & M1). rewrite E1. simpl.
  destruct (mss_cache a1) as [l|] eqn:Em.
  - exists l, a1, K1. auto.
  - destruct (b_hqi_step a1 K1 I1) as (b & a2 & K2 & E2 & I2 & Hsame). rewrite E2. simpl.
    destruct Hsame as (-> & Mq); [congruence|].
    destruct (wmss E HE f K1 mq b) as (l & El & Hl).
    rewrite (w_sh f a1 K1 (b_weak a1 K1 I1)), El. simpl. exists l, (set_mss a2 (Some l)), K1. split; auto. split; auto.
    destruct I2 as [[J1 J2 J3 J6 J8 J9 J10] N S]. constructor; simpl; auto. constructor; simpl; auto.
    + intros _. rewrite Mq, M1. discriminate.
    + intros l0 H. inversion H; subst; auto.
Qed.

Lemma b_perform a K c ans a' : binv a K -> perform E a c = Ok (ans, a') -> exists K', binv a' K' /\
  (c = MinimalBlockingSets -> exists r l, ans = AVec r /\ vr_unwrap r = Ok l /\ forall B, In B l -> blocking f B).
Proof.
  intros Hinv. assert (Hsame : c <> MinimalBlockingSets -> (ans, a') = (ans, a) -> exists K', binv a' K' /\
     (c = MinimalBlockingSets -> exists r l, ans = AVec r /\ vr_unwrap r = Ok l /\ forall B, In B l -> blocking f B)).
  { intros Hn He. inversion He; subst. exists K. split; auto. congruence. }
  destruct c; unfold perform; try (intro H; injection H as H1 H2; apply Hsame; congruence).
  - destruct (b_hqi_step a K Hinv) as (b & a1 & K' & E1 & I1 & _). rewrite E1. simpl. intro H. injection H as H1 H2. subst. exists K'. split; auto. discriminate.
  - destruct (alternative_check E a); [|discriminate]. intro H. injection H as H1 H2. apply Hsame; congruence.
  - destruct (b_mq_step a K Hinv) as (l & a1 & K' & E1 & I1 & M1). rewrite E1. simpl. intro H. injection H as H1 H2. subst. exists K'. split; auto. discriminate.
  - destruct (b_mbs_step a K Hinv) as (l & a1 & K' & E1 & I1 & M1). rewrite E1. simpl. intro H. injection H as H1 H2. subst. exists K'. split; auto.
    intros _. rewrite (w_sm f a' K' (b_weak a' K' I1)). eexists. exists (map (up (elements K')) l). split; [reflexivity|].
    split; [apply vec_unwrap; apply (w_mbs f a' K' (b_weak a' K' I1)); auto|].
    intros B HB. apply in_map_iff in HB. destruct HB as (s & <- & Hs). apply (b_some a' K' I1 l M1); auto.
  - destruct (b_mss_step a K Hinv) as (l & a1 & K' & E1 & I1 & M1). rewrite E1. simpl. intro H. injection H as H1 H2. subst. exists K'. split; auto. discriminate.
  - unfold top_tier_shrunken. destruct (negb (is_none (mq_cache a)) || is_none (mbs_cache a)).
    + destruct (b_mq_step a K Hinv) as (l & a1 & K' & E1 & I1 & M1). rewrite E1. simpl.
      destruct (unshrink_set _ _); [|discriminate]. simpl. intro H. injection H as H1 H2. subst. exists K'. split; auto. discriminate.
    + destruct (b_mbs_step a K Hinv) as (l & a1 & K' & E1 & I1 & M1). rewrite E1. simpl.
      destruct (unshrink_set _ _); [|discriminate]. simpl. intro H. injection H as H1 H2. subst. exists K'. split; auto. discriminate.
Qed.

Lemma b_new : exists a, analysis_new E f = Ok a /\ binv a (relevant_nodes E f).
Proof.
  destruct (inv_new E HE f Hwf) as (a & Ea & Hi). exists a. split; auto.
  destruct Hi as [I1 I2 I3 I4 I5 I6 I7 I8 I9 I10]. constructor.
  - constructor; auto.
    + intros l H. apply (I8 l H).
    + intros l H. apply (I9 l H).
    + intros l H. apply (I10 l H).
  - intros _. auto.
  - intros l H s Hs. destruct (I9 l H) as (_ & _ & H2). destruct (proj1 (H2 (up (elements (relevant_nodes E f)) s))) as (_ & HB & _); auto.
    apply in_map; auto.
Qed.

Lemma b_perform_all cs : forall a K ans a', binv a K -> perform_all E a cs = Ok (ans, a') ->
  Forall2 (fun c x => c = MinimalBlockingSets -> exists r l, x = AVec r /\ vr_unwrap r = Ok l /\ forall B, In B l -> blocking f B) cs ans.
Proof.
  induction cs as [|c cs IH]; intros a K ans a' Hinv; simpl.
  - intro H. injection H as H1 H2. subst. constructor.
  - destruct (perform E a c) as [[x a1]|] eqn:E1; simpl; [|discriminate].
    destruct (b_perform a K c x a1 Hinv E1) as (K1 & I1 & Hx).
    destruct (perform_all E a1 cs) as [[xs a2]|] eqn:E2; simpl; [|discriminate].
    intro H. injection H as H1 H2. subst. constructor; auto. eapply IH; eauto.
Qed.

Lemma reported_block cs ans : analyze E f cs = Ok ans ->
  Forall2 (fun c x => c = MinimalBlockingSets -> exists r l, x = AVec r /\ vr_unwrap r = Ok l /\ forall B, In B l -> blocking f B) cs ans.
Proof.
  unfold analyze. destruct b_new as (a & Ea & Hi). rewrite Ea. simpl.
  destruct (perform_all E a cs) as [[xs a2]|] eqn:E2; simpl; [|discriminate]. intro H. injection H as H. subst.
  eapply b_perform_all; eauto.
Qed.
End History.
