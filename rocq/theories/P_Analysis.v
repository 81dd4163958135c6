(** [Analysis]: answers are correct, whatever was asked before. *)
From Verif Require Export P_Transfer.
Local Open Scope list_scope.

Lemma before_or_eq_same a b : before_or_eq a b -> before_or_same a b.
Proof.
  intro H. destruct (bset_eq_dec a b) as [->|Hne]; [right; auto|]. left. apply before_or_eq_before; auto.
Qed.

Lemma sorted_impl {A} (R R' : A -> A -> Prop) l : (forall a b, R a b -> R' a b) -> StronglySorted R l -> StronglySorted R' l.
Proof. intros H Hs. induction Hs as [|a l Hs IH Ha]; constructor; auto. apply (Forall_impl _ (H a) Ha). Qed.

Lemma lists_unique P l l' : lists P l -> lists P l' -> l = l'.
Proof. intros [H1 H2] [H3 H4]. apply sorted_before_ext; auto. intro S. rewrite H2, H4. tauto. Qed.

Section Analysis.
Variable E : ext.
Hypothesis HE : ext_ok E.
Variable f : fbas.
Hypothesis Hwf : wf_fbas f.

Definition mq_ok (K : bset) (l : list bset) : Prop :=
  (forall s, In s l -> in_range (elements K) s) /\
  lists_weakly (minimal_quorum f) (map (up (elements K)) l) /\
  (distinct_clusters f -> lists (minimal_quorum f) (map (up (elements K)) l)).
Definition set_ok (P : bset -> Prop) (K : bset) (l : list bset) : Prop :=
  (forall s, In s l -> in_range (elements K) s) /\ lists P (map (up (elements K)) l).

Record inv (a : analysis) (K : bset) : Prop := {
  inv_orig : fbas_original a = f;
  inv_sm : a_sm a = sm_new K;
  inv_sh : fbas_shrunken a = shrunken_fbas K f;
  inv_work : working_set f K;
  inv_cov : covers f K;
  inv_mss_mq : mss_cache a <> None -> mq_cache a <> None;
  inv_hqi : forall b, hqi_cache a = Some b -> (b = true <-> quorum_intersection f);
  inv_mq : forall l, mq_cache a = Some l -> mq_ok K l;
  inv_mbs : forall l, mbs_cache a = Some l -> set_ok (reported_blocking f) K l;
  inv_mss : forall l, mss_cache a = Some l -> set_ok (reported_splitting f) K l }.

Lemma inv_new : exists a, analysis_new E f = Ok a /\ inv a (relevant_nodes E f).
Proof.
  unfold analysis_new. rewrite shrunken_eq. simpl. eexists. split; [reflexivity|].
  constructor; simpl; auto; try discriminate.
  - apply relevant_working; auto.
  - apply relevant_covers; auto.
Qed.

(** clusters of the shrunken FBAS *)
Lemma clusters_distinct K : working_set f K -> distinct_clusters f -> forall q, satisfiable_cluster (shrunken_fbas K f) q -> nodup_qset q.
Proof.
  intros HK Hd q' Hq'. apply no_repetitions_nodup. revert q' Hq'. apply (working_all K f (working_nodes f K HK) no_repetitions no_repetitions).
  - intro q. rewrite <- shrunken_canon. apply pruned_no_repetitions.
  - intros q Hq. apply (Hd K q HK Hq).
Qed.
Lemma clusters_sane K : working_set f K -> sane_clusters f -> forall q, satisfiable_cluster (shrunken_fbas K f) q -> no_repetitions q /\ sane q.
Proof.
  intros HK Hd. apply (working_all K f (working_nodes f K HK) (fun q => no_repetitions q /\ sane q) (fun q => no_repetitions q /\ sane q)).
  - intro q. rewrite canon_sane, <- shrunken_canon, pruned_no_repetitions. tauto.
  - intros q Hq. apply (Hd K q HK Hq).
Qed.
Lemma clusters_splittable K : working_set f K -> splittable_clusters f -> forall q, satisfiable_cluster (shrunken_fbas K f) q ->
  no_repetitions q /\ (splittable q \/ rigid q).
Proof.
  intros HK Hd. apply (working_all K f (working_nodes f K HK) (fun q => no_repetitions q /\ (splittable q \/ rigid q)) (fun q => no_repetitions q /\ (splittable q \/ rigid q))).
  - intro q. rewrite canon_splittable, canon_rigid, <- shrunken_canon, pruned_no_repetitions. tauto.
  - intros q Hq. apply (Hd K q HK Hq).
Qed.
Lemma splittable_distinct : splittable_clusters f -> distinct_clusters f.
Proof. intros H K q HK Hq. destruct (H K q HK Hq). auto. Qed.

Lemma find_mq_ok K : working_set f K -> covers f K -> exists l, find_minimal_quorums E (shrunken_fbas K f) = Ok l /\ mq_ok K l.
Proof.
  intros HK Hc. destruct (find_minimal_quorums_spec E HE (shrunken_fbas K f) (shrunken_wf K f)) as (l & El & Hl & Hs & Hss).
  exists l. split; auto.
  assert (Hw : lists_weakly (minimal_quorum (shrunken_fbas K f)) l).
  { split; auto. eapply sorted_impl; [|exact Hs]. apply before_or_eq_same. }
  destruct (corresponds_lists_weakly K _ _ l (corresponds_quorum f K Hc) Hw) as [Hr Hw'].
  split; auto. split; auto. intro Hd.
  assert (Hst : lists (minimal_quorum (shrunken_fbas K f)) l).
  { split; auto. apply Hss. apply clusters_distinct; auto. }
  apply (corresponds_lists K _ _ l (corresponds_quorum f K Hc) Hst).
Qed.

Lemma corresponds_reported_blocking K : covers f K -> corresponds K (reported_blocking (shrunken_fbas K f)) (reported_blocking f).
Proof.
  intro Hc. destruct (corresponds_blocking f K Hc) as [H1 H2]. unfold reported_blocking. split.
  - intro b. rewrite H1, (quorum_exists f K Hc). tauto.
  - intros B [_ HB]. auto.
Qed.

Lemma find_mbs_ok K : working_set f K -> covers f K -> sane_clusters f ->
  exists l, find_minimal_blocking_sets E (shrunken_fbas K f) = Ok l /\ set_ok (reported_blocking f) K l.
Proof.
  intros HK Hc Hs.
  assert (G : exists l, find_minimal_blocking_sets E (shrunken_fbas K f) = Ok l /\ lists (reported_blocking (shrunken_fbas K f)) l).
  { destruct (contains_quorum (all_nodes (shrunken_fbas K f)) (shrunken_fbas K f)) eqn:Eq.
    - assert (Hq : has_a_quorum (shrunken_fbas K f)) by (apply contains_quorum_iff in Eq; destruct Eq as (Q & _ & HQ); exists Q; auto).
      destruct (find_minimal_blocking_sets_spec E HE (shrunken_fbas K f) (shrunken_wf K f) (clusters_sane K HK Hs) Hq) as (l & El & Hl & Hi).
      exists l. split; auto. split; auto. intro S. rewrite Hi. unfold reported_blocking. tauto.
    - assert (Hn : forall Q, ~ quorum (shrunken_fbas K f) Q).
      { intros Q HQ. rewrite contains_quorum_false in Eq. apply (Eq Q HQ). apply quorum_nodes; auto. }
      exists []. assert (Ec := proj2 (clusters_none E HE (shrunken_fbas K f) (shrunken_wf K f)) Hn).
      unfold find_minimal_blocking_sets, find_minimal_sets, find_sets. rewrite Ec. split; auto. split; [constructor|].
      intro S. split; [intros []|]. intros [(Q & HQ) _]. eapply Hn; eauto. }
  destruct G as (l & El & Hl). exists l. split; auto.
  apply (corresponds_lists K _ _ l (corresponds_reported_blocking K Hc) Hl).
Qed.

Lemma mq_ok_nodup K l : mq_ok K l -> distinct_clusters f -> NoDup l.
Proof.
  intros (Hr & _ & H) Hd. destruct (H Hd) as [Hs _]. apply sorted_before_nodup in Hs. eapply NoDup_map_inv; eauto.
Qed.

Lemma mq_ok_in K l : covers f K -> mq_ok K l -> forall Q, In Q l <-> minimal_quorum (shrunken_fbas K f) Q.
Proof.
  intros Hc (Hr & [_ Hi] & _) Q. rewrite (proj1 (corresponds_quorum f K Hc) Q). split.
  - intro H. split; auto. apply Hi. apply in_map; auto.
  - intros [Hq H]. apply Hi in H. apply in_map_iff in H. destruct H as (Q' & EQ & HQ').
    rewrite <- (up_inj K Q' Q); auto.
Qed.

Lemma quorum_decidable : has_a_quorum f \/ ~ has_a_quorum f.
Proof.
  destruct (contains_quorum (all_nodes f) f) eqn:Eq.
  - left. apply contains_quorum_iff in Eq. destruct Eq as (Q & _ & HQ). exists Q. auto.
  - right. intros (Q & HQ). rewrite contains_quorum_false in Eq. apply (Eq Q HQ). apply quorum_nodes; auto.
Qed.

Lemma hqi_of_mq K l : covers f K -> mq_ok K l ->
  (negb (match l with [] => true | _ => false end) && all_intersect l = true <-> quorum_intersection f).
Proof.
  intros Hc Hl. rewrite <- (intersection_up f K Hc). assert (Hin := mq_ok_in K l Hc Hl).
  rewrite andb_true_iff, negb_true_iff, all_intersect_iff. split.
  - intros [Hne Hall]. destruct l as [|Q0 l0] eqn:El; [discriminate|]. rewrite <- El in *. split.
    + exists Q0. assert (H0 : In Q0 l) by (rewrite El; left; auto). apply Hin in H0. apply H0.
    + intros A B HA HB. destruct (minimal_quorum_below _ A HA) as (a & Ia & Ma). destruct (minimal_quorum_below _ B HB) as (b & Ib & Mb).
      apply Hin in Ma, Mb.
      assert (Hm : meets a b).
      { clear - Hall Ma Mb Hin. assert (Hq : forall Q, In Q l -> inhabited_set Q) by (intros Q HQ; apply Hin in HQ; apply HQ).
        clear Hin. induction Hall as [|c l Hc Hl IH]; [destruct Ma|]. rewrite Forall_forall in Hc.
        assert (Hq' : forall Q, In Q l -> inhabited_set Q) by (intros; apply Hq; right; auto).
        destruct Ma as [->|Ma], Mb as [->|Mb]; auto.
        - destruct (Hq b (or_introl eq_refl)) as (x & Hx). exists x; auto.
        - apply meets_sym. auto. }
      destruct Hm as (x & Hx & Hx'). exists x; auto.
  - intros [(Q & HQ) Hm]. split.
    + destruct (minimal_quorum_below _ Q HQ) as (mq & _ & Hmq). apply Hin in Hmq. destruct l; [destruct Hmq|auto].
    + assert (Hq : forall Q, In Q l -> quorum (shrunken_fbas K f) Q) by (intros R HR; apply Hin in HR; apply HR).
      clear - Hm Hq. induction l as [|c l IH]; constructor.
      * apply Forall_forall. intros d Hd. apply Hm; apply Hq; [left; auto|right; auto].
      * apply IH. intros; apply Hq; right; auto.
Qed.

Lemma corresponds_reported_splitting K : covers f K ->
  corresponds K (fun S => has_a_quorum (shrunken_fbas K f) /\ minimal_splitting (shrunken_fbas K f) S)
    (fun S => has_a_quorum f /\ minimal_splitting f S).
Proof.
  intro Hc. destruct (corresponds_splitting f K Hc) as [H1 H2]. split.
  - intro b. rewrite H1, (quorum_exists f K Hc). tauto.
  - intros B [_ HB]. auto.
Qed.

Lemma up_empty table : up table bempty = bempty.
Proof.
  apply incl_antisym; intros x H.
  - apply mem_up in H. destruct H as (i & Hi & _). rewrite mem_empty in Hi. discriminate.
  - rewrite mem_empty in H. discriminate.
Qed.

Lemma find_mss_ok K mq b : working_set f K -> covers f K -> mq_ok K mq -> splittable_clusters f -> (b = true <-> quorum_intersection f) ->
  exists l, (if b then find_minimal_splitting_sets E (shrunken_fbas K f) mq else Ok [bempty]) = Ok l /\ set_ok (reported_splitting f) K l.
Proof.
  intros HK Hc Hmq Hs Hb. destruct b.
  - assert (HQI : quorum_intersection f) by (apply Hb; auto).
    destruct (find_minimal_splitting_sets_spec E HE (shrunken_fbas K f) (shrunken_wf K f) mq) as (l & El & Hl & Hi).
    + apply (intersection_up f K Hc); auto.
    + apply (mq_ok_nodup K); auto. apply splittable_distinct; auto.
    + apply mq_ok_in; auto.
    + apply clusters_splittable; auto.
    + exists l. split; auto.
      assert (Hq : has_a_quorum f) by apply HQI.
      destruct (corresponds_lists K _ _ l (corresponds_splitting f K Hc) (conj Hl Hi)) as [Hr [Hs' Hin]].
      split; auto. split; auto. intro S. rewrite Hin. unfold reported_splitting. tauto.
  - exists [bempty]. split; auto. split.
    + intros s [<-|[]] i Hi. rewrite mem_empty in Hi. discriminate.
    + simpl. rewrite up_empty. split; [constructor; constructor|]. intro S. simpl.
      assert (Hn : ~ quorum_intersection f) by (intro H; apply Hb in H; discriminate).
      assert (He : (forall x, mem x S = false) <-> S = bempty).
      { split; [intro H; apply bset_ext; intro x; rewrite mem_empty; auto|intros -> x; apply mem_empty]. }
      unfold reported_splitting. rewrite He. destruct quorum_decidable as [Hq|Hq].
      * rewrite (empty_splits E HE f Hwf Hq Hn S). intuition congruence.
      * intuition congruence.
Qed.

(** ** moving to the ids of the top tier *)
Lemma reshrink_ok K K2 l (P : bset -> Prop) : (forall s, In s l -> in_range (elements K) s) ->
  (forall S, In S (map (up (elements K)) l) -> incl_set S K2) ->
  exists l', reshrink_sets (sm_new K2) l (sm_new K) = Ok l' /\ map (up (elements K2)) l' = map (up (elements K)) l /\
    forall s, In s l' -> in_range (elements K2) s.
Proof.
  intros Hr Hi. rewrite reshrink_sets_eq. unfold unshrink_sets. simpl unshrink_table.
  rewrite (unshrink_sets_ok _ _ Hr). simpl. rewrite (shrink_sets_ok _ _ Hi). eexists. split; [reflexivity|]. split.
  - rewrite map_map. rewrite <- (map_id (map (up (elements K)) l)) at 2. apply map_ext_in. intros S HS. apply up_down_K. auto.
  - intros s Hs. apply in_map_iff in Hs. destruct Hs as (S & <- & _). apply (down_in_range K2).
Qed.

Lemma up_involved table l : up table (involved_nodes l) = involved_nodes (map (up table) l).
Proof.
  apply bset_ext. intro x. apply eq_true_iff_eq. rewrite mem_up, mem_involved. split.
  - intros (i & Hi & Ei). apply mem_involved in Hi. destruct Hi as (s & Hs & Hi). exists (up table s). split; [apply in_map; auto|].
    apply mem_up. eauto.
  - intros (S & HS & Hx). apply in_map_iff in HS. destruct HS as (s & <- & Hs). apply mem_up in Hx. destruct Hx as (i & Hi & Ei).
    exists i. split; auto. apply mem_involved. eauto.
Qed.

Lemma involved_range table l : (forall s, In s l -> in_range table s) -> in_range table (involved_nodes l).
Proof. intros H i Hi. apply mem_involved in Hi. destruct Hi as (s & Hs & Hi). apply (H s); auto. Qed.

Lemma mq_top_tier K l : mq_ok K l -> forall x, mem x (up (elements K) (involved_nodes l)) = true <-> in_top_tier f x.
Proof.
  intros (_ & [_ Hi] & _) x. rewrite up_involved, mem_involved. unfold in_top_tier. split; intros (S & H1 & H2); exists S; split; auto; apply Hi; auto.
Qed.
Lemma mbs_top_tier K l : set_ok (reported_blocking f) K l -> forall x, mem x (up (elements K) (involved_nodes l)) = true <-> in_top_tier f x.
Proof.
  intros (_ & [_ Hi]) x. rewrite up_involved, mem_involved, <- minimal_blocking_top_tier. split.
  - intros (S & H1 & H2). exists S. split; auto. apply Hi in H1. apply H1.
  - intros (S & H1 & H2). exists S. split; auto. apply Hi. split; auto.
    assert (Ht : in_top_tier f x) by (apply minimal_blocking_top_tier; eauto). destruct Ht as (Q & HQ & _). exists Q. apply HQ.
Qed.

Lemma shrink_to_top_tier a K : inv a K -> mss_cache a = None ->
  (mq_cache a = None /\ mbs_cache a <> None) \/ (mq_cache a <> None /\ mbs_cache a = None) ->
  exists a' K', shrink_id_space_to_top_tier a = Ok a' /\ inv a' K' /\
    (mq_cache a = None <-> mq_cache a' = None) /\ (mbs_cache a = None <-> mbs_cache a' = None).
Proof.
  intros Hinv Hmss Hcases. destruct Hinv as [I1 I2 I3 I4 I5 I6 I7 I8 I9 I10].
  set (T := match mq_cache a with Some l => involved_nodes l | None => match mbs_cache a with Some l => involved_nodes l | None => bempty end end).
  assert (Htop : match mq_cache a, mbs_cache a with
                 | Some mq, _ => Ok (involved_nodes mq)
                 | None, Some mbs => Ok (involved_nodes mbs)
                 | None, None => Panic
                 end = Ok T).
  { unfold T. destruct (mq_cache a) as [l|], (mbs_cache a) as [l'|]; auto. exfalso. destruct Hcases as [[_ H]|[H _]]; apply H; auto. }
  assert (HT : in_range (elements K) T /\ forall x, mem x (up (elements K) T) = true <-> in_top_tier f x).
  { unfold T. destruct (mq_cache a) as [l|].
    - split; [apply involved_range; apply (I8 l); auto|apply mq_top_tier; auto].
    - destruct (mbs_cache a) as [l|]; [|exfalso; destruct Hcases as [[_ H]|[H _]]; apply H; auto].
      split; [apply involved_range; apply (I9 l); auto|apply mbs_top_tier; auto]. }
  destruct HT as [HTr HT]. set (K2 := up (elements K) T) in *.
  assert (HK2 : covers f K2) by (apply top_tier_covers; auto).
  unfold shrink_id_space_to_top_tier. rewrite Htop. simpl. rewrite I2. unfold unshrink_set. simpl unshrink_table.
  rewrite (unshrink_set_ok _ _ HTr). simpl. fold K2. rewrite I1, shrunken_eq. simpl.
  assert (Has : is_none (mq_cache a) || is_none (mbs_cache a) = true).
  { destruct Hcases as [[H _]|[_ H]]; rewrite H; auto. apply orb_true_r. }
  rewrite Has. simpl.
  assert (Gq : exists mq', mapM_option (fun mq => reshrink_sets (sm_new K2) mq (sm_new K)) (mq_cache a) = Ok mq' /\
     (mq_cache a = None <-> mq' = None) /\ forall l, mq' = Some l -> mq_ok K2 l).
  { destruct (mq_cache a) as [l|]; simpl.
    - destruct (I8 l eq_refl) as (R1 & R2 & R3).
      destruct (reshrink_ok K K2 l (minimal_quorum f) R1) as (l' & El' & Em & Rl').
      { intros S HS. apply HK2. apply R2; auto. }
      rewrite El'. simpl. exists (Some l'). split; auto. split; [split; discriminate|].
      intros l0 E0. inversion E0; subst l0. split; auto. rewrite Em. auto.
    - exists None. split; auto. split; [tauto|]. discriminate. }
  destruct Gq as (mq' & Eq' & Nq & Hq'). rewrite Eq'. simpl.
  assert (Gb : exists mbs', mapM_option (fun mq => reshrink_sets (sm_new K2) mq (sm_new K)) (mbs_cache a) = Ok mbs' /\
     (mbs_cache a = None <-> mbs' = None) /\ forall l, mbs' = Some l -> set_ok (reported_blocking f) K2 l).
  { destruct (mbs_cache a) as [l|]; simpl.
    - destruct (I9 l eq_refl) as (R1 & R2).
      destruct (reshrink_ok K K2 l (reported_blocking f) R1) as (l' & El' & Em & Rl').
      { intros S HS x Hx. apply HT. apply minimal_blocking_top_tier. exists S. split; auto. apply R2 in HS. apply HS. }
      rewrite El'. simpl. exists (Some l'). split; auto. split; [split; discriminate|].
      intros l0 E0. inversion E0; subst l0. split; auto. rewrite Em. auto.
    - exists None. split; auto. split; [tauto|]. discriminate. }
  destruct Gb as (mbs' & Eb' & Nb & Hb'). rewrite Eb'. simpl.
  eexists. exists K2. split; [reflexivity|]. split; [|simpl; split; auto].
  constructor; simpl; auto.
  all: try (right; auto; fail). all: rewrite Hmss; try congruence; discriminate.
Qed.

(** ** the cached computations *)
Lemma mq_step a K : inv a K -> exists l a' K', minimal_quorums_shrunken E a = Ok (l, a') /\ inv a' K' /\ mq_cache a' = Some l.
Proof.
  intro Hinv. unfold minimal_quorums_shrunken. destruct (mq_cache a) as [l|] eqn:Em.
  - exists l, a, K. auto.
  - destruct (find_mq_ok K) as (l & El & Hl); [apply Hinv|apply Hinv|]. rewrite (inv_sh a K Hinv), El. simpl.
    assert (Hi : inv (set_mq a (Some l)) K).
    { destruct Hinv as [I1 I2 I3 I4 I5 I6 I7 I8 I9 I10]. constructor; simpl; auto; try discriminate.
      intros l0 H. inversion H; subst; auto. }
    assert (Hm : mss_cache a = None).
    { destruct (mss_cache a) eqn:Es; auto. exfalso. apply (inv_mss_mq a K Hinv); congruence. }
    destruct (mbs_cache a) as [b|] eqn:Eb; simpl.
    + exists l, (set_mq a (Some l)), K. auto.
    + destruct (shrink_to_top_tier (set_mq a (Some l)) K Hi Hm) as (a' & K' & Ea & Hi' & Nq & Nb).
      { right. simpl. split; [discriminate|auto]. }
      rewrite Ea. simpl. destruct (mq_cache a') as [l'|] eqn:El'.
      * exists l', a', K'. auto.
      * exfalso. destruct Nq as [_ Nq]. discriminate (Nq eq_refl).
Qed.

Lemma mbs_step a K : inv a K -> sane_clusters f ->
  exists l a' K', minimal_blocking_sets_shrunken E a = Ok (l, a') /\ inv a' K' /\ mbs_cache a' = Some l.
Proof.
  intros Hinv Hs. unfold minimal_blocking_sets_shrunken. destruct (mbs_cache a) as [l|] eqn:Em.
  - exists l, a, K. auto.
  - destruct (find_mbs_ok K) as (l & El & Hl); [apply Hinv|apply Hinv|auto|]. rewrite (inv_sh a K Hinv), El. simpl.
    assert (Hi : inv (set_mbs a (Some l)) K).
    { destruct Hinv as [I1 I2 I3 I4 I5 I6 I7 I8 I9 I10]. constructor; simpl; auto; try discriminate.
      intros l0 H. inversion H; subst; auto. }
    destruct (mq_cache a) as [b|] eqn:Eb; simpl.
    + exists l, (set_mbs a (Some l)), K. auto.
    + assert (Hm : mss_cache a = None).
      { destruct (mss_cache a) eqn:Es; auto. exfalso. apply (inv_mss_mq a K Hinv); congruence. }
      destruct (shrink_to_top_tier (set_mbs a (Some l)) K Hi Hm) as (a' & K' & Ea & Hi' & Nq & Nb).
      { left. simpl. split; [auto|discriminate]. }
      rewrite Ea. simpl. destruct (mbs_cache a') as [l'|] eqn:El'.
      * exists l', a', K'. auto.
      * exfalso. destruct Nb as [_ Nb]. discriminate (Nb eq_refl).
Qed.

Lemma hqi_step a K : inv a K -> exists b a' K', has_quorum_intersection E a = Ok (b, a') /\ inv a' K' /\ (b = true <-> quorum_intersection f) /\
  (mq_cache a <> None -> K' = K /\ mq_cache a' = mq_cache a /\ fbas_shrunken a' = fbas_shrunken a /\ mss_cache a' = mss_cache a).
Proof.
  intro Hinv. unfold has_quorum_intersection. destruct (hqi_cache a) as [b|] eqn:Eh.
  - exists b, a, K. split; auto. split; auto. split; auto. apply (inv_hqi a K Hinv); auto.
  - assert (G : exists l a' K', minimal_quorums_shrunken E a = Ok (l, a') /\ inv a' K' /\ mq_cache a' = Some l /\ (mq_cache a <> None -> a' = a /\ K' = K)).
    { destruct (mq_cache a) as [l|] eqn:Em.
      - exists l, a, K. unfold minimal_quorums_shrunken. rewrite Em. auto.
      - destruct (mq_step a K Hinv) as (l & a' & K' & H1 & H2 & H3). exists l, a', K'. split; auto. split; auto. split; auto. intro H; exfalso; apply H; auto. }
    destruct G as (l & a' & K' & El & Hi & Em & Hsame). rewrite El. simpl.
    assert (Hb := hqi_of_mq K' l (inv_cov a' K' Hi) (inv_mq a' K' Hi l Em)).
    eexists. eexists. exists K'. split; [reflexivity|]. split; [|split; [exact Hb|]].
    + destruct Hi as [I1 I2 I3 I4 I5 I6 I7 I8 I9 I10]. constructor; simpl; auto.
      intros b H. inversion H; subst; auto.
    + intro H. destruct (Hsame H) as [-> ->]. simpl. auto.
Qed.

Lemma mss_step a K : inv a K -> splittable_clusters f ->
  exists l a' K', minimal_splitting_sets_shrunken E a = Ok (l, a') /\ inv a' K' /\ mss_cache a' = Some l.
Proof.
  intros Hinv Hs. unfold minimal_splitting_sets_shrunken.
  destruct (mq_step a K Hinv) as (mq & a1 & K1 & E1 & I1 & M1). rewrite E1. simpl.
  destruct (mss_cache a1) as [l|] eqn:Em.
  - exists l, a1, K1. auto.
  - destruct (hqi_step a1 K1 I1) as (b & a2 & K2 & E2 & I2 & Hb & Hsame). rewrite E2. simpl.
    destruct Hsame as (-> & Mq & Fs & Ms); [congruence|].
    destruct (find_mss_ok K1 mq b) as (l & El & Hl); [apply I1|apply I1|apply (inv_mq a1 K1 I1); auto|auto|auto|].
    rewrite (inv_sh a1 K1 I1), El. simpl. exists l, (set_mss a2 (Some l)), K1. split; auto. split; auto.
    destruct I2 as [J1 J2 J3 J4 J5 J6 J7 J8 J9 J10]. constructor; simpl; auto.
    + intros _. rewrite Mq, M1. discriminate.
    + intros l0 H. inversion H; subst; auto.
Qed.

Lemma tt_step a K : inv a K -> exists s a' K', top_tier_shrunken E a = Ok (s, a') /\ inv a' K' /\
  in_range (elements K') s /\ forall x, mem x (up (elements K') s) = true <-> in_top_tier f x.
Proof.
  intro Hinv. unfold top_tier_shrunken.
  destruct (negb (is_none (mq_cache a)) || is_none (mbs_cache a)) eqn:Ec.
  - destruct (mq_step a K Hinv) as (mq & a1 & K1 & E1 & I1 & M1). rewrite E1. simpl.
    eexists. exists a1, K1. split; [reflexivity|]. split; auto. assert (H := inv_mq a1 K1 I1 mq M1).
    split; [apply involved_range, H|apply mq_top_tier; auto].
  - apply orb_false_iff in Ec. destruct Ec as [_ Ec]. destruct (mbs_cache a) as [l|] eqn:Em; [|discriminate].
    unfold minimal_blocking_sets_shrunken. rewrite Em. simpl. eexists. exists a, K. split; [reflexivity|]. split; auto.
    assert (H := inv_mbs a K Hinv l Em). split; [apply involved_range, H|apply mbs_top_tier; auto].
Qed.

Lemma alternative_step a K : inv a K -> has_a_quorum f -> exists r, alternative_check E a = Ok r /\
  correct_answer E f AlternativeCheck (AAlternative (fst r) (snd r)).
Proof.
  intros Hinv Hq. unfold alternative_check. rewrite (inv_sh a K Hinv). assert (Hc := inv_cov a K Hinv).
  assert (Hq' : has_a_quorum (shrunken_fbas K f)) by (apply (quorum_exists f K Hc); auto).
  destruct (find_nonintersecting_quorums_spec E HE (shrunken_fbas K f) (shrunken_wf K f) Hq') as (o & Eo & Ho). rewrite Eo. simpl.
  destruct o as [v|].
  - destruct Ho as (Hl & Hv & Hd). destruct v as [|A [|B v]]; simpl in Hl; try lia.
    assert (HdAB : disjoint A B = true).
    { apply not_false_iff_true. rewrite not_disjoint_meets. inversion Hd as [|? ? HA _]; subst. rewrite Forall_forall in HA.
      apply (HA B). left; auto. }
    simpl. rewrite HdAB. simpl. eexists. split; [reflexivity|]. right. simpl.
    set (l := A :: B :: v) in *. assert (Hr : forall s, In s l -> in_range (elements K) s).
    { intros s Hs. apply (shrunken_quorum_range K f). auto. }
    eexists. exists (map (up (elements K)) l). split; [reflexivity|].
    assert (Hup : forall Q, In Q (map (up (elements K)) l) -> quorum f Q).
    { intros Q HQ. apply in_map_iff in HQ. destruct HQ as (s & <- & Hs). apply (shrunken_quorum K f); auto. }
    assert (Hdis : ForallOrdPairs (fun A B => ~ meets A B) (map (up (elements K)) l)).
    { clear - Hd Hr. induction Hd as [|c l Hc Hd IH]; constructor.
      - rewrite Forall_forall in *. intros S HS Hm. apply in_map_iff in HS. destruct HS as (s & <- & Hs). apply (Hc s Hs).
        apply (meets_up K c s); auto. apply Hr. left; auto.
      - apply IH. intros; apply Hr; right; auto. }
    split.
    { unfold vr_unwrap, vr_unshrink, vec_result_new. simpl. rewrite (inv_sm a K Hinv). simpl unshrink_table.
      change (A :: B :: v) with l. rewrite (unshrink_sets_ok _ l Hr). auto. }
    split; [|split; [rewrite map_length; unfold l; simpl; lia|split; auto]].
    intros [_ HQI]. inversion Hdis as [|? ? HA _]; subst. rewrite Forall_forall in HA. apply (HA (up (elements K) B)); [left; auto|].
    apply HQI; apply Hup; unfold l; simpl; auto.
  - eexists. split; [reflexivity|]. left. simpl. split; auto. apply (intersection_up f K Hc). split; auto.
Qed.

Lemma vec_unwrap K l : (forall s, In s l -> in_range (elements K) s) ->
  vr_unwrap (vec_result_new l (Some (sm_new K))) = Ok (map (up (elements K)) l).
Proof. intro H. unfold vr_unwrap, vr_unshrink, vec_result_new. simpl. rewrite (unshrink_sets_ok _ l H). auto. Qed.

Lemma perform_step a K c : inv a K -> allowed f c ->
  exists ans a' K', perform E a c = Ok (ans, a') /\ inv a' K' /\ correct_answer E f c ans.
Proof.
  intros Hinv Hal. destruct c; simpl in Hal; unfold perform.
  - rewrite (inv_orig a K Hinv). eexists. exists a, K. split; [reflexivity|]. split; auto. simpl. eexists. split; [reflexivity|].
    intro x. apply mem_all_nodes.
  - rewrite (inv_orig a K Hinv). eexists. exists a, K. split; [reflexivity|]. split; auto. simpl. eexists. split; [reflexivity|].
    intro x. apply mem_satisfiable.
  - rewrite (inv_orig a K Hinv). eexists. exists a, K. split; [reflexivity|]. split; auto. simpl. eexists. split; [reflexivity|].
    intro x. destruct (find_satisfiable_nodes_quorums f (all_nodes f)) as (_ & Hu & _). unfold unsatisfiable_nodes. rewrite Hu, mem_all_nodes.
    split; intros [H1 H2]; split; auto; intro H; apply H2.
    + destruct H as (Q & HQ & Hx). exists Q. repeat split; auto; try apply HQ. apply quorum_nodes; auto.
    + destruct H as (Q & HQ & _ & Hx). exists Q. auto.
  - destruct (hqi_step a K Hinv) as (b & a' & K' & E1 & I1 & Hb & _). rewrite E1. simpl. eexists. exists a', K'. split; [reflexivity|]. split; eauto.
  - destruct (alternative_step a K Hinv Hal) as (r & E1 & H). rewrite E1. cbn [bind]. eexists. exists a, K. split; [reflexivity|]. auto.
  - destruct (mq_step a K Hinv) as (l & a' & K' & E1 & I1 & M1). rewrite E1. simpl. eexists. exists a', K'. split; [reflexivity|]. split; auto.
    simpl. rewrite (inv_sm a' K' I1). destruct (inv_mq a' K' I1 l M1) as (Hr & Hw & Hs). eexists. eexists. split; [reflexivity|].
    split; [apply vec_unwrap; auto|]. auto.
  - destruct (mbs_step a K Hinv Hal) as (l & a' & K' & E1 & I1 & M1). rewrite E1. simpl. eexists. exists a', K'. split; [reflexivity|]. split; auto.
    simpl. rewrite (inv_sm a' K' I1). destruct (inv_mbs a' K' I1 l M1) as (Hr & Hs). eexists. eexists. split; [reflexivity|].
    split; [apply vec_unwrap; auto|]. auto.
  - destruct (mss_step a K Hinv Hal) as (l & a' & K' & E1 & I1 & M1). rewrite E1. simpl. eexists. exists a', K'. split; [reflexivity|]. split; auto.
    simpl. rewrite (inv_sm a' K' I1). destruct (inv_mss a' K' I1 l M1) as (Hr & Hs). eexists. eexists. split; [reflexivity|].
    split; [apply vec_unwrap; auto|]. auto.
  - destruct (tt_step a K Hinv) as (s & a' & K' & E1 & I1 & Hr & Ht). rewrite E1. simpl. rewrite (inv_sm a' K' I1).
    unfold unshrink_set. simpl unshrink_table. rewrite (unshrink_set_ok _ s Hr). simpl. eexists. exists a', K'. split; [reflexivity|]. split; auto.
    simpl. eauto.
  - rewrite (inv_orig a K Hinv). destruct (find_symmetric_top_tier_spec E HE f Hwf) as (o & Eo & _). rewrite Eo. simpl.
    eexists. exists a, K. split; [reflexivity|]. split; auto. simpl. eauto.
  - rewrite (inv_orig a K Hinv). destruct (find_symmetric_clusters_form E HE f Hwf) as (l & El & Hn & Hl). rewrite El. simpl.
    eexists. exists a, K. split; [reflexivity|]. split; auto. simpl. eauto.
Qed.

Lemma perform_all_ok cs : forall a K, inv a K -> Forall (allowed f) cs ->
  exists ans a' K', perform_all E a cs = Ok (ans, a') /\ inv a' K' /\ Forall2 (correct_answer E f) cs ans.
Proof.
  induction cs as [|c cs IH]; intros a K Hinv Hal; simpl.
  - exists [], a, K. auto.
  - inversion Hal; subst. destruct (perform_step a K c Hinv) as (x & a1 & K1 & E1 & I1 & C1); auto. rewrite E1. simpl.
    destruct (IH a1 K1 I1) as (xs & a2 & K2 & E2 & I2 & C2); auto. rewrite E2. simpl. exists (x :: xs), a2, K2. auto.
Qed.

Theorem analyze_ok cs : Forall (allowed f) cs -> exists ans, analyze E f cs = Ok ans /\ Forall2 (correct_answer E f) cs ans.
Proof.
  intro Hal. unfold analyze. destruct inv_new as (a & Ea & Hinv). rewrite Ea. simpl.
  destruct (perform_all_ok cs a _ Hinv Hal) as (ans & a' & K' & E1 & _ & C). rewrite E1. simpl. eauto.
Qed.

(** two correct answers to the same question agree *)
Lemma correct_same c a b : distinct_clusters f \/ c <> MinimalQuorums -> c <> AlternativeCheck ->
  correct_answer E f c a -> correct_answer E f c b -> same_answer a b.
Proof.
  intros Hd Hc Ha Hb.
  assert (Gset : forall (P : nat -> Prop) s s', (forall x, mem x s = true <-> P x) -> (forall x, mem x s' = true <-> P x) -> s = s').
  { intros P s s' H H'. apply bset_ext. intro x. apply eq_true_iff_eq. rewrite H, H'. tauto. }
  destruct c; simpl in *; try congruence.
  - destruct Ha as (s & -> & Hs). destruct Hb as (s' & -> & Hs'). simpl. f_equal. eapply Gset; [exact Hs|exact Hs'].
  - destruct Ha as (s & -> & Hs). destruct Hb as (s' & -> & Hs'). simpl. f_equal. eapply Gset; [exact Hs|exact Hs'].
  - destruct Ha as (s & -> & Hs). destruct Hb as (s' & -> & Hs'). simpl. f_equal. eapply Gset; [exact Hs|exact Hs'].
  - destruct Ha as (s & -> & Hs). destruct Hb as (s' & -> & Hs'). simpl. f_equal. apply eq_true_iff_eq. rewrite Hs, Hs'. tauto.
  - destruct Hd as [Hd|Hd]; [|congruence]. destruct Ha as (r & l & -> & Er & _ & Hl). destruct Hb as (r' & l' & -> & Er' & _ & Hl'). simpl. rewrite Er, Er'. f_equal. eapply lists_unique; eauto.
  - destruct Ha as (r & l & -> & Er & Hl). destruct Hb as (r' & l' & -> & Er' & Hl'). simpl. rewrite Er, Er'. f_equal. eapply lists_unique; eauto.
  - destruct Ha as (r & l & -> & Er & Hl). destruct Hb as (r' & l' & -> & Er' & Hl'). simpl. rewrite Er, Er'. f_equal. eapply lists_unique; eauto.
  - destruct Ha as (s & -> & Hs). destruct Hb as (s' & -> & Hs'). simpl. f_equal. eapply Gset; [exact Hs|exact Hs'].
  - destruct Ha as (s & -> & Hs). destruct Hb as (s' & -> & Hs'). simpl. congruence.
  - destruct Ha as (s & -> & Hs & _). destruct Hb as (s' & -> & Hs' & _). simpl. congruence.
Qed.
End Analysis.
