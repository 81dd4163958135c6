(** When a fresh [Analysis] finds the minimal blocking and splitting sets. *)
From Verif Require Export P_Working P_NoPanic P_BlockingExact P_SplitExact.
Local Open Scope list_scope.

Section Fresh.
Variable E : ext.
Hypothesis HE : ext_ok E.
Variable f : fbas.
Hypothesis Hwf : wf_fbas f.

Definition state_at (K : bset) (mq mbs : option (list bset)) : analysis :=
  mk_analysis f (shrunken_fbas K f) (sm_new K) None mq mbs None.

Lemma shrink_moves K l : (forall s, In s l -> in_range (elements K) s) ->
  let K2 := up (elements K) (involved_nodes l) in
  exists l', map (up (elements K2)) l' = map (up (elements K)) l /\ (forall s, In s l' -> in_range (elements K2) s) /\
    shrink_id_space_to_top_tier (state_at K (Some l) None) = Ok (state_at K2 (Some l') None) /\
    shrink_id_space_to_top_tier (state_at K None (Some l)) = Ok (state_at K2 None (Some l')).
Proof.
  intros Hl K2. destruct (reshrink_ok K K2 l (fun _ => True) Hl) as (l' & El' & Em & Rl').
  { intros S HS x Hx. unfold K2. rewrite up_involved. apply mem_involved. eauto. }
  exists l'. split; auto. split; auto.
  assert (E1 : unshrink_set (sm_new K) (involved_nodes l) = Ok K2) by (unfold unshrink_set; simpl unshrink_table; apply unshrink_set_ok, involved_range; auto).
  unfold shrink_id_space_to_top_tier, state_at. cbn. rewrite E1. cbn. rewrite shrunken_eq. cbn. rewrite El'. cbn. auto.
Qed.

Lemma mbs_fresh K l l' K2 : find_minimal_blocking_sets E (shrunken_fbas K f) = Ok l ->
  shrink_id_space_to_top_tier (state_at K None (Some l)) = Ok (state_at K2 None (Some l')) ->
  minimal_blocking_sets_shrunken E (state_at K None None) = Ok (l', state_at K2 None (Some l')).
Proof.
  intros El Es. unfold minimal_blocking_sets_shrunken.
  change (mbs_cache (state_at K None None)) with (@None (list bset)). change (mq_cache (state_at K None None)) with (@None (list bset)).
  change (fbas_shrunken (state_at K None None)) with (shrunken_fbas K f). rewrite El. cbn [bind is_none andb].
  change (set_mbs (state_at K None None) (Some l)) with (state_at K None (Some l)). rewrite Es. reflexivity.
Qed.
Lemma mq_fresh K l l' K2 : find_minimal_quorums E (shrunken_fbas K f) = Ok l ->
  shrink_id_space_to_top_tier (state_at K (Some l) None) = Ok (state_at K2 (Some l') None) ->
  minimal_quorums_shrunken E (state_at K None None) = Ok (l', state_at K2 (Some l') None).
Proof.
  intros El Es. unfold minimal_quorums_shrunken.
  change (mbs_cache (state_at K None None)) with (@None (list bset)). change (mq_cache (state_at K None None)) with (@None (list bset)).
  change (fbas_shrunken (state_at K None None)) with (shrunken_fbas K f). rewrite El. cbn [bind is_none andb].
  change (set_mq (state_at K None None) (Some l)) with (state_at K (Some l) None). rewrite Es. reflexivity.
Qed.

Lemma fresh_new : analysis_new E f = Ok (state_at (relevant_nodes E f) None None).
Proof. unfold analysis_new. rewrite shrunken_eq. auto. Qed.

Lemma corresponds_exactly K P' P l : corresponds K P' P -> (forall s, In s l -> in_range (elements K) s) ->
  ((forall S, In S (map (up (elements K)) l) <-> P S) <-> forall s, In s l <-> P' s).
Proof.
  intros Hc Hr. split.
  - intros H s. rewrite (proj1 Hc s). split.
    + intro Hs. split; auto. apply H. apply in_map. auto.
    + intros [Hs Hp]. apply H in Hp. apply in_map_iff in Hp. destruct Hp as (s' & Es & Hs'). rewrite <- (up_inj K s' s); auto.
  - intro H. apply (corresponds_in K P' P l Hc). auto.
Qed.

Lemma cluster_quorum g q : wf_fbas g -> satisfiable_cluster g q -> has_a_quorum g.
Proof.
  intros Hg Hq. destruct (quorum_decidable g) as [H|H]; auto. exfalso.
  destruct (cluster_of E HE g Hg q Hq) as (c & Hc & _). rewrite (proj2 (clusters_none E HE g Hg)) in Hc; [destruct Hc|]. intros Q HQ. apply H. exists Q. auto.
Qed.

Lemma relevant_is K : (forall x, mem x K = true <-> relevant f x) -> K = relevant_nodes E f.
Proof. intro H. apply bset_ext. intro x. apply eq_true_iff_eq. rewrite H, (mem_relevant_iff E f x HE Hwf). tauto. Qed.

Lemma fresh_blocking K : (forall x, mem x K = true <-> relevant f x) -> (forall q, working_cluster f K q -> no_repetitions q) ->
  exists r l, analyze E f [MinimalBlockingSets] = Ok [AVec r] /\ vr_unwrap r = Ok l /\
    ((forall B, In B l <-> has_a_quorum f /\ minimal_blocking f B) <-> forall q, working_cluster f K q -> sane q).
Proof.
  intros HK Hno. assert (Hw : working_set f K) by (left; auto). assert (Hn := working_nodes f K Hw). rewrite (relevant_is K HK) in *. clear HK.
  set (K0 := relevant_nodes E f) in *. assert (Hc : covers f K0) by (apply relevant_covers; auto).
  destruct (wmbs E HE f K0) as (l & El & Hr). destruct (shrink_moves K0 l Hr) as (l' & Em & Hr' & _ & Es).
  eexists. exists (map (up (elements K0)) l). split; [|split].
  - unfold analyze. rewrite fresh_new. cbn [bind perform_all perform]. fold K0. rewrite (mbs_fresh K0 l l' _ El Es). cbn. reflexivity.
  - rewrite (vec_unwrap _ l' Hr'), Em. auto.
  - rewrite (corresponds_exactly K0 _ _ l (corresponds_reported_blocking f K0 Hc) Hr).
    assert (Hno' : forall q, satisfiable_cluster (shrunken_fbas K0 f) q -> no_repetitions q).
    { apply (working_all K0 f Hn no_repetitions no_repetitions); auto. intro q. rewrite <- shrunken_canon. apply pruned_no_repetitions. }
    rewrite <- (working_all K0 f Hn sane sane) by (intro; apply canon_sane).
    destruct (exact_iff E HE _ (shrunken_wf K0 f) Hno') as (l1 & El1 & H). rewrite El in El1. injection El1 as <-. unfold reported_blocking.
    destruct (quorum_decidable (shrunken_fbas K0 f)) as [Hq|Hq].
    + etransitivity; [|etransitivity; [exact H|]]; [|intuition]. split; intros G s; rewrite G; intuition.
    + split; [intros _ q Hcl; exfalso; apply Hq, (cluster_quorum _ q (shrunken_wf K0 f) Hcl)|]. intros _ s. split; [|tauto].
      intro Hs. exfalso. destruct (no_quorum_nothing E HE _ (shrunken_wf K0 f)) as (E0 & _); [intros Q HQ; apply Hq; exists Q; auto|].
      rewrite El in E0. injection E0 as ->. destruct Hs.
Qed.

Lemma fresh_splitting K K2 : (forall x, mem x K = true <-> relevant f x) -> (forall x, mem x K2 = true <-> in_top_tier f x) ->
  has_a_quorum f -> (forall q, working_cluster f K q -> no_repetitions q) -> (forall q, working_cluster f K2 q -> no_repetitions q /\ sane q) ->
  exists r l, analyze E f [MinimalSplittingSets] = Ok [AVec r] /\ vr_unwrap r = Ok l /\
    ((forall S, In S l <-> minimal_splitting f S) <->
     (quorum_intersection f -> forall q, working_cluster f K2 q -> splittable q \/ rigid q)).
Proof.
  intros HK HK2 Hq Hno Hgood. assert (Hw : working_set f K) by (left; auto). assert (Hn := working_nodes f K Hw). rewrite (relevant_is K HK) in *. clear HK.
  set (K0 := relevant_nodes E f) in *. assert (Hc : covers f K0) by (apply relevant_covers; auto).
  destruct (find_minimal_quorums_spec E HE (shrunken_fbas K0 f) (shrunken_wf K0 f)) as (mq0 & Emq & Hin0 & _ & Hss).
  assert (Hno' : forall q, satisfiable_cluster (shrunken_fbas K0 f) q -> nodup_qset q).
  { intros q Hcl. apply no_repetitions_nodup. revert q Hcl. apply (working_all K0 f Hn no_repetitions no_repetitions); auto.
    intro q. rewrite <- shrunken_canon. apply pruned_no_repetitions. }
  assert (Hl0 : lists (minimal_quorum (shrunken_fbas K0 f)) mq0) by (split; auto).
  destruct (corresponds_lists K0 _ _ mq0 (corresponds_quorum f K0 Hc) Hl0) as [Hr0 [Hs0 Hi0]].
  destruct (shrink_moves K0 mq0 Hr0) as (mq & Em & Hr & Es & _). set (K2' := up (elements K0) (involved_nodes mq0)) in *.
  assert (EK2 : K2 = K2').
  { apply bset_ext. intro x. apply eq_true_iff_eq. rewrite HK2. unfold K2'. rewrite up_involved, mem_involved. unfold in_top_tier.
    split; intros (S & H1 & H2); exists S; split; auto; apply Hi0; auto. }
  assert (Hw2 : working_set f K2) by (right; auto). assert (Hn2 := working_nodes f K2 Hw2). assert (Hc2 : covers f K2) by (apply top_tier_covers; auto).
  rewrite <- EK2 in *.
  assert (Hmq : mq_ok f K2 mq).
  { split; auto. rewrite Em. split; [split; [|auto]|intros _; split; auto]. eapply sorted_impl; [|exact Hs0]. intros a b Hab. left. auto. }
  assert (Hnd : NoDup mq) by (apply (NoDup_map_inv (up (elements K2))); rewrite Em; apply sorted_before_nodup; auto).
  assert (Hb := hqi_of_mq f K2 mq Hc2 Hmq). set (b := negb (match mq with [] => true | _ => false end) && all_intersect mq) in *.
  assert (Ehq : has_quorum_intersection E (state_at K2 (Some mq) None) = Ok (b, set_hqi (state_at K2 (Some mq) None) (Some b))) by reflexivity.
  assert (Hrun : forall l, (if b then find_minimal_splitting_sets E (shrunken_fbas K2 f) mq else Ok [bempty]) = Ok l ->
    (forall s, In s l -> in_range (elements K2) s) ->
    exists r, analyze E f [MinimalSplittingSets] = Ok [AVec r] /\ vr_unwrap r = Ok (map (up (elements K2)) l)).
  { intros l El Hrl. eexists. split; [|apply (vec_unwrap K2 l Hrl)].
    unfold analyze. rewrite fresh_new. cbn [bind perform_all perform]. fold K0. unfold minimal_splitting_sets_shrunken.
    rewrite (mq_fresh K0 mq0 mq K2 Emq Es). cbn [bind]. change (mss_cache (state_at K2 (Some mq) None)) with (@None (list bset)). cbv iota.
    change (fbas_shrunken (state_at K2 (Some mq) None)) with (shrunken_fbas K2 f). rewrite Ehq. cbn [bind]. rewrite El. reflexivity. }
  destruct b eqn:Ebv; subst b.
  - assert (HQI : quorum_intersection f) by (apply Hb; auto). assert (HQI' := proj2 (intersection_up f K2 Hc2) HQI).
    assert (Hgood' : forall q, satisfiable_cluster (shrunken_fbas K2 f) q -> no_repetitions q /\ sane q).
    { apply (working_all K2 f Hn2 (fun q => no_repetitions q /\ sane q) (fun q => no_repetitions q /\ sane q)); auto.
      intro q. rewrite canon_sane, <- shrunken_canon, pruned_no_repetitions. tauto. }
    destruct (split_exact_iff E HE _ (shrunken_wf K2 f) mq HQI' Hnd (mq_ok_in f K2 mq Hc2 Hmq) Hgood') as (l & El & H).
    destruct (wmss E HE f K2 mq true) as (l1 & El1 & Hrl). rewrite El in El1. injection El1 as <-.
    destruct (Hrun l El Hrl) as (r & Er & Eu). exists r, (map (up (elements K2)) l). split; auto. split; auto.
    rewrite (corresponds_exactly K2 _ _ l (corresponds_splitting f K2 Hc2) Hrl), H.
    rewrite (working_all K2 f Hn2 (fun q => splittable q \/ rigid q) (fun q => splittable q \/ rigid q)) by (intro; rewrite canon_splittable, canon_rigid; tauto).
    tauto.
  - assert (Hn' : ~ quorum_intersection f) by (intro H; apply Hb in H; discriminate).
    destruct (Hrun [bempty] eq_refl) as (r & Er & Eu). { intros s [<-|[]] i Hi. rewrite mem_empty in Hi. discriminate. }
    exists r, (map (up (elements K2)) [bempty]). split; auto. split; auto. split; [tauto|]. intros _ S. simpl. rewrite up_empty.
    rewrite (empty_splits E HE f Hwf Hq Hn' S). intuition congruence.
Qed.
End Fresh.
