(** Answers of an [Analysis] after histories in which blocking sets are not asked for first. *)
From Verif Require Export P_SplitSound Spec_Histories.
Local Open Scope list_scope.

Section Histories.
Variable E : ext.
Hypothesis HE : ext_ok E.
Variable f : fbas.
Hypothesis Hwf : wf_fbas f.

Record hinv (a : analysis) (K : bset) : Prop := {
  h_weak : winv f a K;
  h_work : working_set f K;
  h_cov : covers f K;
  h_hqi : forall b, hqi_cache a = Some b -> (b = true <-> quorum_intersection f);
  h_mq : forall l, mq_cache a = Some l -> mq_ok f K l;
  h_first : mq_cache a = None -> mbs_cache a <> None -> sane_clusters f;
  h_known : hqi_cache a <> None -> mq_cache a <> None \/ sane_clusters f;
  h_mbs : forall l, mbs_cache a = Some l -> sane_clusters f -> set_ok (reported_blocking f) K l;
  h_mss : forall l, mss_cache a = Some l -> splittable_clusters f -> set_ok (reported_splitting f) K l;
  h_split : forall l, mss_cache a = Some l -> sane_clusters f -> has_a_quorum f -> forall s, In s l -> splitting f (up (elements K) s) }.

Lemma inv_h a K : inv f a K -> (mq_cache a = None -> mbs_cache a <> None -> sane_clusters f) ->
  (hqi_cache a <> None -> mq_cache a <> None \/ sane_clusters f) -> hinv a K.
Proof.
  intros [I1 I2 I3 I4 I5 I6 I7 I8 I9 I10] Hf Hk. constructor; auto; [constructor; auto|].
  - intros l H. apply (I8 l H).
  - intros l H. apply (I9 l H).
  - intros l H. apply (I10 l H).
  - intros l H _ Hq s Hs. destruct (I10 l H) as (_ & _ & Hin). apply (in_map (up (elements K))) in Hs. apply Hin in Hs.
    destruct Hs as [[_ Hs]|[Hn _]]; [apply Hs|contradiction].
Qed.

(** nothing was cached that can be wrong *)
Lemma h_inv a K : hinv a K -> (mbs_cache a <> None -> sane_clusters f) -> mss_cache a = None -> inv f a K.
Proof.
  intros [[I1 I2 I3 I6 I8 I9 I10] J1 J2 J3 J4 J5 J0 J6 J7 J8] Hs Hm. constructor; auto.
  - intros l H. apply J6; auto. apply Hs. congruence.
  - intros l H. congruence.
Qed.

Lemma h_new : exists a, analysis_new E f = Ok a /\ hinv a (relevant_nodes E f) /\ mq_cache a = None /\ mbs_cache a = None /\ hqi_cache a = None.
Proof.
  destruct (inv_new E HE f Hwf) as (a & Ea & Hi). exists a. split; auto.
  assert (Hn : mq_cache a = None /\ mbs_cache a = None /\ hqi_cache a = None).
  { unfold analysis_new in Ea. rewrite shrunken_eq in Ea. cbn in Ea. injection Ea as <-. auto. }
  split; auto. apply inv_h; auto; destruct Hn as (Hn1 & Hn2 & Hn3); congruence.
Qed.

Lemma h_mq_step a K : hinv a K -> exists l a' K', minimal_quorums_shrunken E a = Ok (l, a') /\ hinv a' K' /\ mq_cache a' = Some l /\
  (mq_cache a <> None -> a' = a /\ K' = K).
Proof.
  intros Hinv. destruct (mq_cache a) as [l|] eqn:Em.
  - unfold minimal_quorums_shrunken. rewrite Em. exists l, a, K. auto.
  - assert (Hm : mss_cache a = None).
    { destruct (mss_cache a) eqn:Es; auto. exfalso. apply (w_mss_mq f a K (h_weak a K Hinv)); congruence. }
    assert (Hi : inv f a K) by (apply h_inv; auto; apply (h_first a K Hinv Em)).
    destruct (mq_step E HE f a K Hi) as (l & a' & K' & E1 & I1 & M1). exists l, a', K'. split; auto. split.
    + apply inv_h; auto; [congruence|]. intros _. left. congruence.
    + split; auto. congruence.
Qed.

Lemma h_mbs_step a K : hinv a K -> mq_cache a <> None \/ sane_clusters f ->
  exists l a' K', minimal_blocking_sets_shrunken E a = Ok (l, a') /\ hinv a' K' /\ mbs_cache a' = Some l /\ (mq_cache a <> None -> mq_cache a' <> None).
Proof.
  intros Hinv Hs. destruct (mbs_cache a) as [l|] eqn:Em.
  { unfold minimal_blocking_sets_shrunken. rewrite Em. exists l, a, K. auto. }
  destruct (mq_cache a) as [q|] eqn:Eq.
  - unfold minimal_blocking_sets_shrunken. rewrite Em, Eq. simpl.
    destruct (wmbs E HE f K) as (l & El & Hl). destruct Hinv as [W J1 J2 J3 J4 J5 J0 J6 J7 J8]. rewrite (w_sh f a K W), El. simpl.
    exists l, (set_mbs a (Some l)), K. split; auto. split; [|simpl; rewrite Eq; auto].
    constructor; simpl; auto.
    + destruct W as [I1 I2 I3 I6 I8 I9 I10]. constructor; simpl; auto. intros l0 H. inversion H; subst; auto.
    + congruence.
    + intros l0 H Hsane. assert (l0 = l) by congruence. subst l0. destruct (find_mbs_ok E HE f K J1 J2 Hsane) as (l' & El' & Hl').
      congruence.
  - destruct Hs as [Hs|Hs]; [congruence|].
    assert (Hm : mss_cache a = None).
    { destruct (mss_cache a) eqn:Es; auto. exfalso. apply (w_mss_mq f a K (h_weak a K Hinv)); congruence. }
    assert (Hi : inv f a K) by (apply h_inv; auto).
    destruct (mbs_step E HE f a K Hi Hs) as (l & a' & K' & E1 & I1 & M1). exists l, a', K'. split; auto. split.
    + apply inv_h; auto.
    + split; [auto|congruence].
Qed.

Lemma h_hqi_step a K : hinv a K -> exists b a' K', has_quorum_intersection E a = Ok (b, a') /\ hinv a' K' /\ (b = true <-> quorum_intersection f) /\
  (mq_cache a <> None -> K' = K /\ mq_cache a' = mq_cache a).
Proof.
  intro Hinv. unfold has_quorum_intersection. destruct (hqi_cache a) as [b|] eqn:Eh.
  - exists b, a, K. split; auto. split; auto. split; auto. apply (h_hqi a K Hinv); auto.
  - destruct (h_mq_step a K Hinv) as (l & a' & K' & El & Hi & Em & Hsame). rewrite El. simpl.
    assert (Hb := hqi_of_mq f K' l (h_cov a' K' Hi) (h_mq a' K' Hi l Em)).
    eexists. eexists. exists K'. split; [reflexivity|]. split; [|split; [exact Hb|]].
    + destruct Hi as [[I1 I2 I3 I6 I8 I9 I10] J1 J2 J3 J4 J5 J0 J6 J7 J8]. constructor; simpl; auto.
      * constructor; simpl; auto.
      * intros b H. injection H as <-. exact Hb.
      * intros _. left. congruence.
    + intro H. destruct (Hsame H) as [-> ->]. simpl. auto.
Qed.

Lemma h_hqi_cached a K : hinv a K -> exists b a' K', has_quorum_intersection E a = Ok (b, a') /\ hinv a' K' /\ (b = true <-> quorum_intersection f) /\
  (mq_cache a <> None -> K' = K /\ mq_cache a' = mq_cache a) /\ (mq_cache a' <> None \/ sane_clusters f).
Proof.
  intro Hinv. destruct (h_hqi_step a K Hinv) as (b & a' & K' & E1 & I1 & Hb & Hs). exists b, a', K'. do 4 (split; [auto|]).
  apply (h_known a' K' I1). unfold has_quorum_intersection in E1. destruct (hqi_cache a) as [b0|] eqn:Eh.
  - injection E1 as _ <-. congruence.
  - destruct (h_mq_step a K Hinv) as (l & a1 & K1 & El & Hi & Em & _). rewrite El in E1. simpl in E1. injection E1 as _ <-. simpl. congruence.
Qed.

Lemma h_mss_step a K : hinv a K -> exists l a' K', minimal_splitting_sets_shrunken E a = Ok (l, a') /\ hinv a' K' /\ mss_cache a' = Some l /\ mq_cache a' <> None.
Proof.
  intros Hinv. unfold minimal_splitting_sets_shrunken.
  destruct (h_mq_step a K Hinv) as (mq & a1 & K1 & E1 & I1 & M1 & _). rewrite E1. simpl.
  destruct (mss_cache a1) as [l|] eqn:Em.
  - exists l, a1, K1. split; auto. split; auto. split; auto. congruence.
  - destruct (h_hqi_step a1 K1 I1) as (b & a2 & K2 & E2 & I2 & Hb & Hsame). rewrite E2. simpl.
    destruct Hsame as (-> & Mq); [congruence|].
    destruct (wmss E HE f K1 mq b) as (l & El & Hl).
    rewrite (w_sh f a1 K1 (h_weak a1 K1 I1)), El. simpl. exists l, (set_mss a2 (Some l)), K1. split; auto. split; [|simpl; split; [auto|congruence]].
    assert (Hok : splittable_clusters f -> set_ok (reported_splitting f) K1 l).
    { intro Hsp. destruct (find_mss_ok E HE f Hwf K1 mq b) as (l' & El' & Hl'); [apply I1|apply I1|apply (h_mq a1 K1 I1); auto|auto|auto|].
      congruence. }
    assert (Hsp : sane_clusters f -> has_a_quorum f -> forall s, In s l -> splitting f (up (elements K1) s)).
    { intros Hs Hq. destruct (working_splits E f K1 mq b HE Hwf) as (l' & El' & Hl'); [apply I1|apply I1|apply (h_mq a1 K1 I1); auto|auto|auto|auto|].
      assert (l' = l) by congruence. subst l'. auto. }
    destruct I2 as [[H1 H2 H3 H6 H8 H9 H10] J1 J2 J3 J4 J5 J0 J6 J7 J8]. constructor; simpl; auto; [constructor; simpl; auto| |].
    + intros _. rewrite Mq, M1. discriminate.
    + intros l0 H. inversion H; subst; auto.
    + intros l0 H. inversion H; subst; auto.
    + intros l0 H. inversion H; subst; auto.
Qed.

Lemma h_tt_step a K : hinv a K -> exists s a' K', top_tier_shrunken E a = Ok (s, a') /\ hinv a' K' /\
  in_range (elements K') s /\ (forall x, mem x (up (elements K') s) = true <-> in_top_tier f x) /\ (mq_cache a' <> None \/ sane_clusters f) /\
  (mq_cache a <> None -> mq_cache a' <> None).
Proof.
  intro Hinv. unfold top_tier_shrunken.
  destruct (negb (is_none (mq_cache a)) || is_none (mbs_cache a)) eqn:Ec.
  - destruct (h_mq_step a K Hinv) as (mq & a1 & K1 & E1 & I1 & M1 & _). rewrite E1. simpl.
    eexists. exists a1, K1. split; [reflexivity|]. split; auto. assert (H := h_mq a1 K1 I1 mq M1).
    split; [apply involved_range, H|]. split; [apply mq_top_tier; auto|]. split; [left|intros _]; congruence.
  - apply orb_false_iff in Ec. destruct Ec as [Eq Ec]. destruct (mbs_cache a) as [l|] eqn:Em; [|discriminate].
    destruct (mq_cache a) eqn:Em'; [discriminate|].
    unfold minimal_blocking_sets_shrunken. rewrite Em. simpl. eexists. exists a, K. split; [reflexivity|]. split; auto.
    assert (Hs : sane_clusters f) by (apply (h_first a K Hinv); congruence).
    assert (H := h_mbs a K Hinv l Em Hs). split; [apply involved_range, H|]. split; [apply mbs_top_tier; auto|]. split; auto.
Qed.

Lemma h_alternative a K : hinv a K -> has_a_quorum f -> exists r, alternative_check E a = Ok r /\
  correct_answer E f AlternativeCheck (AAlternative (fst r) (snd r)).
Proof.
  intros [[I1 I2 I3 I6 I8 I9 I10] J1 J2 J3 J4 J5 J0 J6 J7 J8] Hq.
  destruct (alternative_step E HE f (mk_analysis f (shrunken_fbas K f) (sm_new K) None None None None) K) as (r & Er & Hr); auto.
  - constructor; simpl; auto; try discriminate; congruence.
  - exists r. split; auto. rewrite <- Er. unfold alternative_check. rewrite I2, I3. auto.
Qed.

Lemma h_perform a K c : hinv a K -> (c = AlternativeCheck -> has_a_quorum f) -> (c = MinimalBlockingSets -> mq_cache a <> None \/ sane_clusters f) ->
  exists ans a' K', perform E a c = Ok (ans, a') /\ hinv a' K' /\ (allowed f c -> correct_answer E f c ans) /\
    (c = MinimalSplittingSets -> splits_answer f ans) /\ (mq_cache a <> None -> mq_cache a' <> None) /\ (needs_quorums c -> mq_cache a' <> None \/ sane_clusters f).
Proof.
  intros Hinv Hq Hb. destruct c; unfold perform.
  - rewrite (w_orig f a K (h_weak a K Hinv)). eexists. exists a, K. split; [reflexivity|]. split; auto. split; [|split; [discriminate|split; [auto|intros []]]].
    intros _. simpl. eexists. split; [reflexivity|]. intro x. apply mem_all_nodes.
  - rewrite (w_orig f a K (h_weak a K Hinv)). eexists. exists a, K. split; [reflexivity|]. split; auto. split; [|split; [discriminate|split; [auto|intros []]]].
    intros _. simpl. eexists. split; [reflexivity|]. intro x. apply mem_satisfiable.
  - rewrite (w_orig f a K (h_weak a K Hinv)). eexists. exists a, K. split; [reflexivity|]. split; auto. split; [|split; [discriminate|split; [auto|intros []]]].
    intros _. destruct (inv_new E HE f Hwf) as (a0 & _ & Hi0).
    destruct (perform_step E HE f Hwf a0 _ UnsatisfiableNodes Hi0 I) as (ans & a' & K' & Ep & _ & Hc).
    unfold perform in Ep. rewrite (inv_orig f a0 _ Hi0) in Ep. injection Ep as <- _. exact Hc.
  - destruct (h_hqi_cached a K Hinv) as (b & a' & K' & E1 & I1 & Hb' & Hs & Hc). rewrite E1. simpl. eexists. exists a', K'. split; [reflexivity|]. split; [auto|].
    split; [intros _; eauto|]. split; [discriminate|]. split; [intro H; destruct (Hs H) as [_ ->]; auto|]. intros _. tauto.
  - destruct (h_alternative a K Hinv (Hq eq_refl)) as (r & E1 & H). rewrite E1. cbn [bind]. eexists. exists a, K. split; [reflexivity|]. split; [auto|].
    split; [auto|split; [discriminate|split; [auto|intros []]]].
  - destruct (h_mq_step a K Hinv) as (l & a' & K' & E1 & I1 & M1 & _). rewrite E1. simpl. eexists. exists a', K'. split; [reflexivity|]. split; [auto|].
    split; [|split; [discriminate|split; [congruence|intros _; left; congruence]]].
    intros _. simpl. rewrite (w_sm f a' K' (h_weak a' K' I1)). destruct (h_mq a' K' I1 l M1) as (Hr & Hw & Hs). eexists. eexists. split; [reflexivity|].
    split; [apply vec_unwrap; auto|]. auto.
  - destruct (h_mbs_step a K Hinv (Hb eq_refl)) as (l & a' & K' & E1 & I1 & M1 & Mq). rewrite E1. simpl. eexists. exists a', K'. split; [reflexivity|]. split; [auto|].
    split; [|split; [discriminate|split; [auto|intros []]]].
    intro Hal. simpl in *. rewrite (w_sm f a' K' (h_weak a' K' I1)). destruct (h_mbs a' K' I1 l M1 Hal) as (Hr & Hs). eexists. eexists. split; [reflexivity|].
    split; [apply vec_unwrap; auto|]. auto.
  - destruct (h_mss_step a K Hinv) as (l & a' & K' & E1 & I1 & M1 & Mq). rewrite E1. simpl. eexists. exists a', K'. split; [reflexivity|]. split; [auto|].
    assert (Esm := w_sm f a' K' (h_weak a' K' I1)). assert (Hr := w_mss f a' K' (h_weak a' K' I1) l M1). split; [|split; [|split; auto]].
    + intro Hal. simpl in *. rewrite Esm. destruct (h_mss a' K' I1 l M1 Hal) as (_ & Hs). eexists. eexists. split; [reflexivity|].
      split; [apply vec_unwrap; auto|]. auto.
    + intros _ Hs Hqf. simpl in *. rewrite Esm. eexists. eexists. split; [reflexivity|]. split; [apply vec_unwrap; auto|].
      intros S HS. apply in_map_iff in HS. destruct HS as (s & <- & HS). apply (h_split a' K' I1 l M1); auto.
  - destruct (h_tt_step a K Hinv) as (s & a' & K' & E1 & I1 & Hr & Ht & Hs & Hm). rewrite E1. simpl. rewrite (w_sm f a' K' (h_weak a' K' I1)).
    unfold unshrink_set. simpl unshrink_table. rewrite (unshrink_set_ok _ s Hr). simpl. eexists. exists a', K'. split; [reflexivity|]. split; [auto|].
    split; [intros _; simpl; eauto|]. split; [discriminate|]. split; [auto|]. intros _. tauto.
  - rewrite (w_orig f a K (h_weak a K Hinv)). destruct (find_symmetric_top_tier_spec E HE f Hwf) as (o & Eo & _). rewrite Eo. simpl.
    eexists. exists a, K. split; [reflexivity|]. split; auto. split; [simpl; eauto|]. split; [discriminate|]. split; [auto|intros []].
  - rewrite (w_orig f a K (h_weak a K Hinv)). destruct (find_symmetric_clusters_form E HE f Hwf) as (l & El & Hn & Hl). rewrite El. simpl.
    eexists. exists a, K. split; [reflexivity|]. split; auto. split; [simpl; eauto|]. split; [discriminate|]. split; [auto|intros []].
Qed.

Lemma h_perform_all cs : forall a K, hinv a K -> (In AlternativeCheck cs -> has_a_quorum f) ->
  (forall earlier later, cs = earlier ++ MinimalBlockingSets :: later ->
     mq_cache a <> None \/ (exists c, In c earlier /\ needs_quorums c) \/ sane_clusters f) ->
  exists ans a', perform_all E a cs = Ok (ans, a') /\ Forall2 (fun c x => (allowed f c -> correct_answer E f c x) /\ (c = MinimalSplittingSets -> splits_answer f x)) cs ans.
Proof.
  induction cs as [|c cs IH]; intros a K Hinv Hq Hh; simpl.
  - exists [], a. auto.
  - destruct (h_perform a K c Hinv) as (x & a1 & K1 & E1 & I1 & C1 & S1 & M1 & N1).
    + intros ->. apply Hq. left; auto.
    + intros ->. destruct (Hh [] cs eq_refl) as [H|[(c & [] & _)|H]]; auto.
    + rewrite E1. simpl. destruct (IH a1 K1 I1) as (xs & a2 & E2 & C2).
      * intro H. apply Hq. right; auto.
      * intros earlier later ->. destruct (Hh (c :: earlier) later eq_refl) as [H|[(c' & [->|Hc'] & Hn)|H]]; auto.
        -- destruct (N1 Hn); auto.
        -- right. left. eauto.
      * rewrite E2. simpl. exists (x :: xs), a2. auto.
Qed.

Lemma harmless_answers cs : harmless f cs ->
  exists ans, analyze E f cs = Ok ans /\ Forall2 (fun c x => (allowed f c -> correct_answer E f c x) /\ (c = MinimalSplittingSets -> splits_answer f x)) cs ans.
Proof.
  intros [Hq Hh]. unfold analyze. destruct h_new as (a & Ea & Hinv & _). rewrite Ea. simpl.
  destruct (h_perform_all cs a _ Hinv Hq) as (ans & a' & E1 & C).
  - intros e l He. right. eauto.
  - rewrite E1. simpl. eauto.
Qed.

Lemma allowed_harmless cs : Forall (allowed f) cs -> harmless f cs.
Proof.
  intro H. rewrite Forall_forall in H. split; intros.
  - apply (H AlternativeCheck); auto.
  - right. subst. apply (H MinimalBlockingSets). apply in_app_iff. right; left; auto.
Qed.
End Histories.
