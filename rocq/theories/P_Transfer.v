(** Minimal quorums, blocking sets and splitting sets of shrunken FBASs. *)
From Verif Require Export P_Working P_TopTier.
Local Open Scope list_scope.

(** ** relevant nodes and the top tier *)
Lemma quorum_satisfiable f Q : quorum f Q -> incl_set Q (satisfiable_nodes f).
Proof. intro H. apply quorum_closed in H. apply satisfiable_nodes_spec. tauto. Qed.

Lemma mem_satisfiable f x : mem x (satisfiable_nodes f) = true <-> exists Q, quorum f Q /\ mem x Q = true.
Proof.
  split.
  - intro H. exists (satisfiable_nodes f). split; auto. apply quorum_closed. split; [exists x; auto|apply satisfiable_nodes_spec].
  - intros (Q & HQ & Hx). eapply quorum_satisfiable; eauto.
Qed.

Lemma mem_relevant_iff E f x : ext_ok E -> wf_fbas f -> (mem x (relevant_nodes E f) = true <-> relevant f x).
Proof.
  intros HE Hwf. rewrite mem_relevant_nodes. split.
  - intros (c & Hc & Hx). split.
    + apply mem_satisfiable. apply (cluster_class E HE f Hwf c x x Hc Hx) in Hx. tauto.
    + destruct (cluster_quorum E f c Hc) as (Q & HQ & Hi). exists Q. split; [apply HQ|]. intros y Hy.
      apply (cluster_class E HE f Hwf c x y Hc Hx). auto.
  - intros [Hs (Q & HQ & Hl)]. destruct (minimal_quorum_below f Q HQ) as (mq & Hi & Hm).
    destruct (minimal_quorum_cluster E HE f Hwf mq Hm) as (c & Hc & Hic). exists c. split; auto.
    destruct Hm as [[(y & Hy) _] _]. apply (cluster_class E HE f Hwf c y x Hc (Hic y Hy)). split.
    + apply mem_satisfiable; auto.
    + destruct (Hl y) as [H1 H2]; auto. split; auto.
Qed.

Lemma relevant_working E f : ext_ok E -> wf_fbas f -> working_set f (relevant_nodes E f).
Proof. intros HE Hwf. left. intro x. apply mem_relevant_iff; auto. Qed.

Definition covers (f : fbas) (K : bset) : Prop := forall Q, minimal_quorum f Q -> incl_set Q K.

Lemma relevant_covers E f : ext_ok E -> wf_fbas f -> covers f (relevant_nodes E f).
Proof.
  intros HE Hwf Q HQ x Hx. destruct (minimal_quorum_cluster E HE f Hwf Q HQ) as (c & Hc & Hi). apply mem_relevant_nodes. eauto.
Qed.

Lemma top_tier_covers f K : (forall x, mem x K = true <-> in_top_tier f x) -> covers f K.
Proof. intros H Q HQ x Hx. apply H. exists Q. auto. Qed.

Lemma working_nodes f K : working_set f K -> incl_set K (all_nodes f).
Proof.
  intros [H|H] x Hx; apply H in Hx.
  - destruct Hx as [(Q & HQ & Hx) _]. apply (quorum_nodes f Q); auto.
  - destruct Hx as (Q & [HQ _] & Hx). apply (quorum_nodes f Q); auto.
Qed.

(** ** blocking sets *)
Lemma blocking_minimal f B : blocking f B <-> forall Q, minimal_quorum f Q -> meets B Q.
Proof.
  split; intros H Q HQ.
  - apply H. apply HQ.
  - destruct (minimal_quorum_below f Q HQ) as (mq & Hi & Hm). destruct (H mq Hm) as (x & Hx & Hx'). exists x; auto.
Qed.

Lemma blocking_inter f K B : covers f K -> blocking f B -> blocking f (inter B K).
Proof.
  intros HK HB. apply blocking_minimal. intros Q HQ. destruct (HB Q) as (x & Hx & HxQ); [apply HQ|]. exists x. split; auto.
  rewrite mem_inter, Hx, (HK Q HQ x HxQ). auto.
Qed.

Lemma splitting_inter f K S : covers f K -> splitting f S -> splitting f (inter S K).
Proof.
  intros HK (Q1 & Q2 & H1 & H2 & Hne & Hi). exists Q1, Q2. split; [auto|]. split; [auto|]. split; [auto|]. intros x Hx1 Hx2.
  rewrite mem_inter, (Hi x Hx1 Hx2), (HK Q1 H1 x Hx1). auto.
Qed.

Lemma blocking_all f : blocking f (all_nodes f).
Proof. intros Q HQ. assert (HQ' := HQ). destruct HQ' as [(x & Hx) _]. exists x. split; auto. apply (quorum_nodes f Q); auto. Qed.

Lemma blocking_dec f B : blocking f B \/ ~ blocking f B.
Proof.
  assert (H : blocking f B <-> contains_quorum (diff (all_nodes f) B) f = false).
  { rewrite contains_quorum_false. split.
    - intros HB Q HQ Hi. destruct (HB Q HQ) as (x & Hx & HxQ). apply Hi in HxQ. rewrite mem_diff, Hx, andb_false_r in HxQ. discriminate.
    - intros H Q HQ. apply not_disjoint_meets. apply not_true_iff_false. intro Hd. apply (H Q HQ). intros x Hx.
      rewrite mem_diff, (quorum_nodes f Q HQ x Hx). simpl. rewrite disjoint_iff in Hd. destruct (mem x B) eqn:Ex; auto. exfalso. eauto. }
  rewrite H. destruct (contains_quorum _ _); [right; discriminate|left; auto].
Qed.

(** the nodes of minimal blocking sets are the nodes of minimal quorums *)
Lemma minimal_blocking_top_tier f x : (exists B, minimal_blocking f B /\ mem x B = true) <-> in_top_tier f x.
Proof.
  split.
  - intros (B & [HB Hm] & Hx).
    (* some minimal quorum is only blocked by [x] *)
    assert (Hn : ~ blocking f (remove x B)).
    { intro Hr. assert (E : remove x B = B).
      { apply Hm; auto. intros y Hy. rewrite mem_remove, andb_true_iff in Hy. tauto. }
      rewrite <- E, mem_remove, Nat.eqb_refl in Hx. simpl in Hx. rewrite ?andb_false_r in Hx. discriminate Hx. }
    assert (Hc : contains_quorum (diff (all_nodes f) (remove x B)) f = true).
    { apply not_false_iff_true. intro Hc. rewrite contains_quorum_false in Hc. apply Hn. intros Q HQ.
      apply not_disjoint_meets. apply not_true_iff_false. intro Hd. apply (Hc Q HQ). intros y Hy.
      rewrite mem_diff, (quorum_nodes f Q HQ y Hy). simpl. rewrite disjoint_iff in Hd. destruct (mem y (remove x B)) eqn:Ey; auto. exfalso. eauto. }
    apply contains_quorum_iff in Hc. destruct Hc as (Q & Hi & HQ). destruct (minimal_quorum_below f Q HQ) as (mq & Him & Hmq).
    exists mq. split; auto. destruct (HB mq) as (y & Hy & Hyq); [apply Hmq|].
    destruct (Nat.eq_dec y x) as [->|Hne]; auto. exfalso. assert (H := Hi y (Him y Hyq)). rewrite mem_diff, mem_remove, Hy in H.
    rewrite (proj2 (Nat.eqb_neq y x) Hne) in H. simpl in H. rewrite andb_false_r in H. discriminate.
  - intros (Q & HQ & Hx). set (B0 := insert x (diff (all_nodes f) Q)).
    assert (HB0 : blocking f B0).
    { intros Q' HQ'. destruct (mem x Q') eqn:Ex; [exists x; split; auto; unfold B0; rewrite mem_insert, Nat.eqb_refl; auto|].
      (* [Q'] is not inside of [Q] *)
      destruct (subset Q' Q) eqn:Es.
      - apply incl_subset in Es. destruct HQ as [_ Hm]. rewrite (Hm Q' HQ' Es) in Ex. congruence.
      - apply not_true_iff_false in Es. destruct (disjoint Q' (diff (all_nodes f) Q)) eqn:Ed.
        + exfalso. apply Es, incl_subset. intros y Hy. rewrite disjoint_iff in Ed. destruct (mem y Q) eqn:Ey; auto. exfalso.
          apply (Ed y); auto. rewrite mem_diff, (quorum_nodes f Q' HQ' y Hy), Ey. auto.
        + apply not_disjoint_meets in Ed. destruct Ed as (y & Hy & Hy'). exists y. split; auto. unfold B0. rewrite mem_insert, Hy'. apply orb_true_r. }
    destruct (minimal_below (blocking f) (blocking_dec f) B0 HB0) as (B & Hi & HB). exists B. split; auto.
    destruct HB as [HB _]. destruct (HB Q) as (y & Hy & HyQ); [apply HQ|]. assert (Hy' := Hi y Hy). unfold B0 in Hy'.
    rewrite mem_insert, orb_true_iff, mem_diff, HyQ, andb_false_r in Hy'. destruct Hy' as [Hy'|Hy']; [|discriminate].
    apply Nat.eqb_eq in Hy'. subst y. auto.
Qed.

(** ** correspondence *)
Section Transfer.
Variable f : fbas.
Variable K : bset.
Hypothesis HK : covers f K.
Let table := elements K.
Let g := shrunken_fbas K f.

Definition corresponds (P' P : bset -> Prop) : Prop :=
  (forall b, P' b <-> in_range table b /\ P (up table b)) /\ (forall B, P B -> incl_set B K).

Lemma table_nodup : NoDup table. Proof. apply elements_nodup. Qed.
Lemma table_sorted : StronglySorted lt table. Proof. apply elements_sorted. Qed.
Lemma down_in_range s : in_range table (down table s).
Proof. intros i Hi. exact (down_range table s i Hi). Qed.
Lemma up_in_K s : incl_set (up table s) K.
Proof. intros x Hx. apply elements_spec. eapply up_range; eauto. Qed.
Lemma up_down_K s : incl_set s K -> up table (down table s) = s.
Proof. intro H. apply up_down. intros x Hx. apply elements_spec; auto. Qed.
Lemma up_inj a b : in_range table a -> in_range table b -> up table a = up table b -> a = b.
Proof. intros Ha Hb E. rewrite <- (down_up table a), <- (down_up table b), E; auto using table_nodup. Qed.
Lemma up_down_inter s : up table (down table s) = inter s K.
Proof.
  apply bset_ext. intro x. apply eq_true_iff_eq. rewrite mem_up, mem_inter, andb_true_iff. split.
  - intros (i & Hi & E). apply mem_down in Hi. destruct Hi as (y & Hy & E'). replace x with y by congruence. split; auto.
    apply elements_spec. eapply nth_error_In; eauto.
  - intros [Hx HxK]. apply elements_spec, In_nth_error in HxK. destruct HxK as (i & E). exists i. split; auto. apply mem_down. eauto.
Qed.
Lemma meets_up a b : in_range table a -> (meets a b <-> meets (up table a) (up table b)).
Proof.
  intro Ha. split.
  - intros (i & Hi & Hi'). assert (Hl := Ha i Hi). apply nth_error_Some in Hl. destruct (nth_error table i) as [x|] eqn:E; [|congruence].
    exists x. rewrite !mem_up. split; exists i; auto.
  - intros (x & Hx & Hx'). apply mem_up in Hx, Hx'. destruct Hx as (i & Hi & E). destruct Hx' as (j & Hj & E').
    exists i. split; auto. rewrite (nth_error_inj table i j x); auto using table_nodup.
Qed.

Lemma corresponds_quorum : corresponds (minimal_quorum g) (minimal_quorum f).
Proof.
  split; auto. intro b. split.
  - intro H. assert (Hr : in_range table b) by (apply (shrunken_quorum_range K f); apply H). split; auto.
    apply (minimal_quorum_shrunken K f b Hr). exact H.
  - intros [Hr H]. apply (minimal_quorum_shrunken K f b Hr). exact H.
Qed.

Lemma quorum_exists : has_a_quorum g <-> has_a_quorum f.
Proof.
  destruct corresponds_quorum as [H H']. split; intros (Q & HQ); destruct (minimal_quorum_below _ Q HQ) as (mq & _ & Hm).
  - apply H in Hm. exists (up table mq). apply Hm.
  - exists (down table mq). apply H. split; [apply down_in_range|]. rewrite up_down_K; auto.
Qed.

(** from a monotone-like predicate to its minimal sets *)
Lemma corresponds_minimal (P' P : bset -> Prop) :
  (forall b, in_range table b -> (P' b <-> P (up table b))) ->
  (forall b, P' b -> P' (down table (up table b))) -> (forall B, P B -> P (inter B K)) ->
  corresponds (minimal P') (minimal P).
Proof.
  intros Hiff Hdown Hinter. split.
  - intro b. split.
    + intros [H1 H2]. assert (Hr : in_range table b).
      { assert (E : down table (up table b) = b).
        { apply H2; auto. intros i Hi. apply mem_down in Hi. destruct Hi as (x & Hx & E). apply mem_up in Hx. destruct Hx as (j & Hj & E').
          rewrite (nth_error_inj table i j x); auto using table_nodup. }
        rewrite <- E. apply down_in_range. }
      split; auto. split; [apply Hiff; auto|]. intros B HB Hi.
      assert (HBK : incl_set B K) by (intros x Hx; apply (up_in_K b); auto).
      rewrite <- (up_down_K B HBK). f_equal. apply H2.
      * apply Hiff; [apply down_in_range|]. rewrite up_down_K; auto.
      * rewrite <- (down_up table b) by (auto using table_nodup). apply down_incl. auto.
    + intros [Hr [H1 H2]]. split; [apply Hiff; auto|]. intros b' Hb' Hi.
      assert (Hr' : in_range table b') by (intros i H; apply Hr; auto).
      apply up_inj; auto. apply H2; [apply Hiff; auto|apply up_incl; auto].
  - intros B [H1 H2]. rewrite <- (H2 (inter B K)); auto.
    + intros x Hx. rewrite mem_inter, andb_true_iff in Hx. tauto.
    + intros x Hx. rewrite mem_inter, andb_true_iff in Hx. tauto.
Qed.

Lemma blocking_up b : blocking g b <-> blocking f (up table b).
Proof.
  destruct corresponds_quorum as [Hq Hin]. rewrite !blocking_minimal. split.
  - intros H Q HQ. assert (HQK := Hin Q HQ). rewrite <- (up_down_K Q HQK).
    apply meets_sym. apply (proj1 (meets_up _ _ (down_in_range Q))). apply meets_sym, H. apply Hq. split; [apply down_in_range|]. rewrite up_down_K; auto.
  - intros H Q' HQ'. apply Hq in HQ'. destruct HQ' as [Hr HQ']. apply meets_sym. apply (proj2 (meets_up _ b Hr)). apply meets_sym, H; auto.
Qed.

Lemma corresponds_blocking : corresponds (minimal_blocking g) (minimal_blocking f).
Proof.
  apply corresponds_minimal.
  - intros b _. apply blocking_up.
  - intros b H. apply blocking_up in H. apply blocking_up. rewrite up_down_K; auto. apply up_in_K.
  - intros B HB. apply blocking_inter; auto.
Qed.

Lemma splitting_up b : splitting g b <-> splitting f (up table b).
Proof.
  destruct corresponds_quorum as [Hq Hin]. split.
  - intros (Q1 & Q2 & H1 & H2 & Hne & Hi). apply Hq in H1, H2. destruct H1 as [R1 H1]. destruct H2 as [R2 H2].
    exists (up table Q1), (up table Q2). split; [auto|]. split; [auto|]. split.
    + intro E. apply Hne. apply up_inj; auto.
    + intros x Hx1 Hx2. apply mem_up in Hx1, Hx2. destruct Hx1 as (i & Hi1 & E1). destruct Hx2 as (j & Hj & E2).
      apply mem_up. exists i. split; auto. apply Hi; auto. rewrite (nth_error_inj table i j x); auto using table_nodup.
  - intros (Q1 & Q2 & H1 & H2 & Hne & Hi). exists (down table Q1), (down table Q2).
    assert (E1 := up_down_K Q1 (Hin Q1 H1)). assert (E2 := up_down_K Q2 (Hin Q2 H2)).
    split; [apply Hq; rewrite E1; split; auto; apply down_in_range|].
    split; [apply Hq; rewrite E2; split; auto; apply down_in_range|].
    split; [intro E; apply Hne; rewrite <- E1, <- E2, E; auto|].
    intros i Hi1 Hi2. apply mem_down in Hi1, Hi2. destruct Hi1 as (x & Hx & Ex). destruct Hi2 as (y & Hy & Ey).
    replace y with x in * by congruence. assert (Hm := Hi x Hx Hy). apply mem_up in Hm. destruct Hm as (j & Hj & Ej).
    rewrite (nth_error_inj table i j x); auto using table_nodup.
Qed.

Lemma corresponds_splitting : corresponds (minimal_splitting g) (minimal_splitting f).
Proof.
  apply corresponds_minimal.
  - intros b _. apply splitting_up.
  - intros b H. apply splitting_up in H. apply splitting_up. rewrite up_down_K; auto. apply up_in_K.
  - intros B HB. apply splitting_inter; auto.
Qed.

Lemma intersection_up : quorum_intersection g <-> quorum_intersection f.
Proof.
  destruct corresponds_quorum as [Hq Hin]. unfold quorum_intersection. split; intros [Hex H]; (split; [apply quorum_exists; auto|]).
  - intros A B HA HB. destruct (minimal_quorum_below f A HA) as (a & Ia & Ma). destruct (minimal_quorum_below f B HB) as (b & Ib & Mb).
    assert (Ea := up_down_K a (Hin a Ma)). assert (Eb := up_down_K b (Hin b Mb)).
    assert (Hm : meets (up table (down table a)) (up table (down table b))).
    { apply (proj1 (meets_up _ _ (down_in_range a))). apply H; apply (shrunken_quorum K f); try apply down_in_range; fold table; rewrite ?Ea, ?Eb; [apply Ma|apply Mb]. }
    rewrite Ea, Eb in Hm. destruct Hm as (x & Hx & Hx'). exists x; auto.
  - intros A B HA HB. assert (Ra := shrunken_quorum_range K f A HA). assert (Rb := shrunken_quorum_range K f B HB).
    apply (proj2 (meets_up _ _ Ra)). apply H; apply (shrunken_quorum K f); auto.
Qed.

(** ** lists of results *)
Lemma before_or_same_up a b : in_range table a -> in_range table b ->
  (before_or_same (up table a) (up table b) <-> before_or_same a b).
Proof.
  intros Ha Hb. unfold before_or_same. rewrite before_up by (auto using table_sorted). split.
  - intros [H|H]; auto. right. apply up_inj; auto.
  - intros [H|H]; auto. right. congruence.
Qed.

Lemma sorted_map {A B} (R : A -> A -> Prop) (R' : B -> B -> Prop) (h : A -> B) l :
  (forall a b, In a l -> In b l -> R a b -> R' (h a) (h b)) -> StronglySorted R l -> StronglySorted R' (map h l).
Proof.
  intros H Hs. induction Hs as [|a l Hs IH Ha]; simpl; constructor.
  - apply IH. intros; apply H; auto; right; auto.
  - rewrite Forall_forall in *. intros b Hb. apply in_map_iff in Hb. destruct Hb as (c & <- & Hc). apply H; auto; [left; auto|right; auto].
Qed.

Lemma corresponds_in (P' P : bset -> Prop) l : corresponds P' P -> (forall S, In S l <-> P' S) ->
  (forall s, In s l -> in_range table s) /\ forall S, In S (map (up table) l) <-> P S.
Proof.
  intros [H1 H2] Hl. split.
  - intros s Hs. apply Hl, H1 in Hs. tauto.
  - intro S. rewrite in_map_iff. split.
    + intros (s & <- & Hs). apply Hl, H1 in Hs. tauto.
    + intro HS. exists (down table S). assert (E := up_down_K S (H2 S HS)). split; auto. apply Hl, H1. split; [apply down_in_range|]. rewrite E. auto.
Qed.

Lemma corresponds_lists P' P l : corresponds P' P -> lists P' l ->
  (forall s, In s l -> in_range table s) /\ lists P (map (up table) l).
Proof.
  intros Hc [Hs Hl]. destruct (corresponds_in P' P l Hc Hl) as [Hr Hi]. split; auto. split; auto.
  eapply sorted_map; [|exact Hs]. intros a b Ha Hb. apply before_up; auto using table_sorted.
Qed.

Lemma corresponds_lists_weakly P' P l : corresponds P' P -> lists_weakly P' l ->
  (forall s, In s l -> in_range table s) /\ lists_weakly P (map (up table) l).
Proof.
  intros Hc [Hs Hl]. destruct (corresponds_in P' P l Hc Hl) as [Hr Hi]. split; auto. split; auto.
  eapply sorted_map; [|exact Hs]. intros a b Ha Hb. apply before_or_same_up; auto.
Qed.
End Transfer.
