(** The debug build never gives another answer, and when exactly it panics. *)
From Coq Require Import NArith.
From Verif Require Export P_Debug.
Local Open Scope list_scope.

(** [r] panics or is [r'] *)
Definition le {A} (r r' : res A) : Prop := forall x, r = Ok x -> r' = Ok x.
Lemma le_refl {A} (r : res A) : le r r. Proof. intros x H; exact H. Qed.
Lemma le_panic {A} (r : res A) : le Panic r. Proof. intros x H; discriminate. Qed.
Lemma le_eq {A} (r r' : res A) : r = r' -> le r r'. Proof. intros ->. apply le_refl. Qed.
Lemma le_bind {A B} (r r' : res A) (k k' : A -> res B) : le r r' -> (forall x, le (k x) (k' x)) -> le (bind r k) (bind r' k').
Proof. intros H Hk y Hy. destruct r as [x|]; [|discriminate]. rewrite (H x eq_refl). apply Hk, Hy. Qed.
Lemma le_map {A B} (h : A -> B) (r r' : res A) : le r r' -> le (res_map h r) (res_map h r').
Proof. intros H y Hy. destruct r as [x|]; [|discriminate]. rewrite (H x eq_refl). exact Hy. Qed.
(** a debug function below a total function *)
Lemma le_bind_ok {A B} (r : res A) (v : A) (k : A -> res B) (r' : res B) : le r (Ok v) -> le (k v) r' -> le (bind r k) r'.
Proof. intros H Hk y Hy. destruct r as [x|]; [|discriminate]. specialize (H x eq_refl). injection H as ->. apply Hk, Hy. Qed.
Lemma le_assert {A} b (r r' : res A) : le r r' -> le (assert b r) r'.
Proof. intro H. unfold assert. destruct b; [exact H|apply le_panic]. Qed.

Lemma check_le l : le (check_minimal l) (Ok l).
Proof. apply le_assert, le_refl. Qed.
Lemma remove_x_le l p : le (remove_non_minimal_x_d l p) (Ok (remove_non_minimal_x l p)).
Proof. apply check_le. Qed.
Lemma to_quorums_le q f : le (to_minimal_quorums_d q f) (Ok (to_minimal_quorums q f)).
Proof. unfold to_minimal_quorums_d, to_minimal_quorums. destruct (contains_duplicates q); [apply remove_x_le|apply le_refl]. Qed.
Lemma to_blocking_le q f : le (to_minimal_blocking_sets_d q f) (Ok (to_minimal_blocking_sets q f)).
Proof. unfold to_minimal_blocking_sets_d, to_minimal_blocking_sets. destruct (contains_duplicates q); [apply remove_x_le|apply le_refl]. Qed.

(** doubled thresholds *)
Lemma threshold_le q : le (splitting_threshold_d q) (Ok (splitting_threshold q)).
Proof. destruct q. apply le_assert, le_refl. Qed.
Lemma count_up_to_le {A} (p : A -> res bool) (h : A -> bool) l : (forall x, In x l -> le (p x) (Ok (h x))) ->
  forall k, le (count_up_to p k l) (Ok (List.length (firstn k (filter h l)))).
Proof.
  induction l as [|x l IH]; intros H k; cbn [count_up_to filter]; [rewrite firstn_nil; apply le_refl|].
  fold (count_up_to p). destruct k as [|k]; cbn [Nat.eqb]; [apply le_refl|].
  assert (IH' := IH (fun y Hy => H y (or_intror Hy))). apply (le_bind_ok _ (h x)); [apply H; left; auto|].
  destruct (h x); [|apply IH']. cbn [Nat.sub]. rewrite Nat.sub_0_r.
  apply (le_bind_ok _ (List.length (firstn k (filter h l)))); [apply IH'|apply le_refl].
Qed.
Lemma all_hold_le {A} (p : A -> res bool) (h : A -> bool) l : (forall x, In x l -> le (p x) (Ok (h x))) -> le (all_hold p l) (Ok (forallb h l)).
Proof.
  induction l as [|x l IH]; intros H; cbn [all_hold forallb]; [apply le_refl|]. apply (le_bind_ok _ (h x)); [apply H; left; auto|].
  destruct (h x); [|apply le_refl]. apply IH. intros y Hy. apply H. right; auto.
Qed.
Lemma slice_intersection_le q s : le (is_slice_intersection_d q s) (Ok (is_slice_intersection q s)).
Proof.
  induction q as [t vs is_ IH] using qset_ind'. cbn [is_slice_intersection_d is_slice_intersection].
  apply (le_bind_ok _ (splitting_threshold (QS t vs is_))); [apply threshold_le|].
  destruct (splitting_threshold (QS t vs is_) =? 0); [apply le_refl|].
  eapply le_bind_ok; [apply (count_up_to_le _ (fun x => is_slice_intersection x s)); intros x Hx; apply IH, Hx|apply le_refl].
Qed.
Lemma has_potential_le sel avail f : le (has_potential_d sel avail f) (Ok (has_potential sel avail f)).
Proof. apply all_hold_le. intros x _. apply slice_intersection_le. Qed.
Lemma intersection_le sel f parts : le (is_quorum_intersection_d sel f parts) (Ok (is_quorum_intersection sel f parts)).
Proof.
  unfold is_quorum_intersection_d, is_quorum_intersection. destruct (is_empty sel); [apply le_refl|].
  eapply le_bind_ok; [apply has_potential_le|apply le_refl].
Qed.
Lemma splitting_step_le f : forall unprocessed sel avail found parts changed,
  le (splitting_sets_finder_step_d f unprocessed sel avail found parts changed)
     (Ok (splitting_sets_finder_step f unprocessed sel avail found parts changed)).
Proof.
  induction unprocessed as [|x l IH]; intros sel avail found parts changed;
    cbn [splitting_sets_finder_step_d splitting_sets_finder_step]; (destruct (List.length parts <? 2); [apply le_refl|]);
    (apply (le_bind_ok _ (changed && is_quorum_intersection sel f parts)); [destruct changed; [apply intersection_le|apply le_refl]|]);
    (destruct (changed && is_quorum_intersection sel f parts); [apply le_refl|]).
  - apply le_refl.
  - eapply le_bind_ok; [apply IH|].
    destruct (splitting_sets_finder_step f l (insert x sel) avail found _ true) as [[s1 a1] f1].
    eapply le_bind_ok; [apply has_potential_le|]. destruct (has_potential (remove x s1) (remove x a1) f).
    + eapply le_bind_ok; [apply IH|]. destruct (splitting_sets_finder_step f l (remove x s1) (remove x a1) f1 _ false) as [[s2 a2] f2]. apply le_refl.
    + apply le_refl.
Qed.
Lemma mapM_le {A B} (p : A -> res B) (p' : A -> res B) l : (forall x, In x l -> le (p x) (p' x)) -> le (mapM p l) (mapM p' l).
Proof.
  induction l as [|x l IH]; intro H; cbn [mapM]; [apply le_refl|]. apply le_bind; [apply H; left; auto|]. intro y.
  apply le_bind; [apply IH; intros z Hz; apply H; right; auto|intro; apply le_refl].
Qed.
Lemma to_splitting_le q : le (to_splitting_sets_d q) (Ok (to_splitting_sets q)).
Proof.
  induction q as [t vs is_ IH] using qset_ind'. cbn [to_splitting_sets_d to_splitting_sets]. rewrite of_each_mapM.
  apply (le_bind_ok _ (map to_splitting_sets is_)).
  - rewrite <- (mapM_ok (fun x => Ok (to_splitting_sets x)) to_splitting_sets is_) by auto. apply mapM_le. intros x Hx. apply IH, Hx.
  - eapply le_bind_ok; [apply threshold_le|apply le_refl].
Qed.
Lemma to_minimal_splitting_le q : le (to_minimal_splitting_sets_d q) (Ok (to_minimal_splitting_sets q)).
Proof.
  unfold to_minimal_splitting_sets_d, to_minimal_splitting_sets. eapply le_bind_ok; [apply to_splitting_le|].
  rewrite remove_non_minimal_checked. destruct (contains_duplicates q); apply le_refl.
Qed.

Section Ext.
Variable E : ext.
Lemma minimal_sets_le f finder finder' : (forall c, le (finder c f) (finder' c f)) -> le (find_minimal_sets_d E f finder) (find_minimal_sets E f finder').
Proof.
  intro H. unfold find_minimal_sets_d, find_minimal_sets, find_sets. intros l Hl.
  destruct (finder (consensus_clusters E f) f) as [r|] eqn:Er; [|discriminate]. cbn [bind] in Hl. rewrite (H _ r Er).
  destruct (check_minimal r) as [r'|] eqn:Ec; [|discriminate]. apply check_le in Ec. injection Ec as ->. exact Hl.
Qed.
Lemma quorums_loop_le f : forall clusters found, le (minimal_quorums_finder_loop_d E f clusters found) (minimal_quorums_finder_loop E f clusters found).
Proof.
  induction clusters as [|c cl IH]; intro found; cbn [minimal_quorums_finder_loop_d minimal_quorums_finder_loop]; [apply le_refl|].
  apply le_bind; [apply le_refl|]. intros [q|].
  - eapply le_bind_ok; [apply to_quorums_le|apply IH].
  - destruct (minimal_quorums_finder_step _ _ _ _ _ _) as [[s a] r]. apply IH.
Qed.
Lemma quorums_le f : le (find_minimal_quorums_d E f) (find_minimal_quorums E f).
Proof. apply minimal_sets_le. intro c. apply quorums_loop_le. Qed.
Lemma blocking_cluster_le f c : le (blocking_sets_in_cluster_d E f c) (blocking_sets_in_cluster E f c).
Proof.
  unfold blocking_sets_in_cluster_d, blocking_sets_in_cluster. apply le_bind; [apply le_refl|]. intros [q|]; [apply to_blocking_le|].
  destruct (minimal_blocking_sets_finder_step _ _ _ _ _ _ _) as [[[s a] r] found]. apply le_refl.
Qed.
Lemma blocking_finder_le f c : le (minimal_blocking_sets_finder_d E c f) (minimal_blocking_sets_finder E c f).
Proof. apply le_bind; [apply mapM_le; intros x _; apply blocking_cluster_le|intro; apply le_refl]. Qed.
Lemma blocking_le f : le (find_minimal_blocking_sets_d E f) (find_minimal_blocking_sets E f).
Proof. apply minimal_sets_le. intro c. apply blocking_finder_le. Qed.
Lemma splitting_finder_le f mq : forall clusters, le (minimal_splitting_sets_finder_d E mq clusters f) (minimal_splitting_sets_finder E mq clusters f).
Proof.
  induction clusters as [|c cl IH]; cbn [minimal_splitting_sets_finder_d minimal_splitting_sets_finder]; [apply le_refl|].
  apply le_bind; [apply le_refl|]. intros [q|].
  - eapply le_bind_ok; [apply to_minimal_splitting_le|]. apply le_bind; [apply IH|intro; apply le_refl].
  - apply (le_bind_ok _ (let '(_, _, found) := splitting_sets_finder_step f (rank_sort E f (elements c)) bempty (of_list (rank_sort E f (elements c))) [] mq true in
      remove_non_minimal_node_sets found)).
    + eapply le_bind_ok; [apply splitting_step_le|]. destruct (splitting_sets_finder_step _ _ _ _ _ _ _) as [[s a] found].
      rewrite remove_non_minimal_checked. apply le_refl.
    + apply le_bind; [apply IH|intro; apply le_refl].
Qed.
Lemma splitting_le f mq : le (find_minimal_splitting_sets_d E f mq) (find_minimal_splitting_sets E f mq).
Proof. apply minimal_sets_le. intro c. apply splitting_finder_le. Qed.

Lemma mq_le a : le (minimal_quorums_shrunken_d E a) (minimal_quorums_shrunken E a).
Proof. unfold minimal_quorums_shrunken_d, minimal_quorums_shrunken. destruct (mq_cache a); [apply le_refl|]. apply le_bind; [apply quorums_le|intro; apply le_refl]. Qed.
Lemma mbs_le a : le (minimal_blocking_sets_shrunken_d E a) (minimal_blocking_sets_shrunken E a).
Proof. unfold minimal_blocking_sets_shrunken_d, minimal_blocking_sets_shrunken. destruct (mbs_cache a); [apply le_refl|]. apply le_bind; [apply blocking_le|intro; apply le_refl]. Qed.
Lemma hqi_le a : le (has_quorum_intersection_d E a) (has_quorum_intersection E a).
Proof. unfold has_quorum_intersection_d, has_quorum_intersection. destruct (hqi_cache a); [apply le_refl|]. apply le_bind; [apply mq_le|intro; apply le_refl]. Qed.
Lemma mss_le a : le (minimal_splitting_sets_shrunken_d E a) (minimal_splitting_sets_shrunken E a).
Proof.
  unfold minimal_splitting_sets_shrunken_d, minimal_splitting_sets_shrunken. apply le_bind; [apply mq_le|]. intros [mq a1].
  destruct (mss_cache a1); [apply le_refl|]. apply le_bind; [apply hqi_le|]. intros [h a2]. apply le_bind; [|intro; apply le_refl].
  destruct h; [apply splitting_le|apply le_refl].
Qed.
Lemma tt_le a : le (top_tier_shrunken_d E a) (top_tier_shrunken E a).
Proof.
  unfold top_tier_shrunken_d, top_tier_shrunken. destruct (negb (is_none (mq_cache a)) || is_none (mbs_cache a));
    (apply le_bind; [first [apply mq_le|apply mbs_le]|intro; apply le_refl]).
Qed.
Lemma perform_le a c : le (perform_d E a c) (perform E a c).
Proof.
  destruct c; cbn [perform_d perform]; try apply le_refl.
  - apply le_bind; [apply hqi_le|intro; apply le_refl].
  - unfold alternative_check_d, alternative_check. rewrite nonintersecting_checked. apply le_refl.
  - apply le_map, mq_le.
  - apply le_map, mbs_le.
  - apply le_map, mss_le.
  - apply le_bind; [apply tt_le|intro; apply le_refl].
Qed.
Lemma perform_all_le : forall cs a, le (perform_all_d E a cs) (perform_all E a cs).
Proof.
  induction cs as [|c cs IH]; intro a; cbn [perform_all_d perform_all]; [apply le_refl|].
  apply le_bind; [apply perform_le|]. intro r. apply le_bind; [apply IH|intro; apply le_refl].
Qed.
Lemma analyze_le f cs : le (analyze_d E f cs) (analyze E f cs).
Proof. unfold analyze_d, analyze. apply le_bind; [apply le_refl|]. intro a. apply le_map, perform_all_le. Qed.
End Ext.

(** ** blocking sets: the debug build panics exactly if the list is not minimal *)
Lemma map_injective {A B} (h : A -> B) l : NoDup (map h l) -> forall x y, In x l -> In y l -> h x = h y -> x = y.
Proof.
  induction l as [|a l IH]; cbn [map]; intros H x y Hx Hy Ee; [destruct Hx|]. inversion H as [|? ? Hn Hl]; subst.
  destruct Hx as [->|Hx], Hy as [->|Hy]; auto; exfalso; apply Hn; [rewrite Ee|rewrite <- Ee]; apply in_map; auto.
Qed.
Lemma unions_cons a p : unions (a :: p) = union a (unions p).
Proof.
  apply bset_ext. intro x. apply eq_true_iff_eq. rewrite mem_union, orb_true_iff, !mem_unions. split.
  - intros (B & [<-|HB] & Hx); [left; auto|right; exists B; auto].
  - intros [H|(B & HB & Hx)]; [exists a; split; [left|]; auto|exists B; split; [right|]; auto].
Qed.
Lemma incl_union a b p p' : incl_set a b -> incl_set p p' -> incl_set (union a p) (union b p').
Proof. intros H1 H2 x. rewrite !mem_union, !orb_true_iff. intros [H|H]; auto. Qed.
Lemma nodup_flat_heads {A B} (h : A -> list B) l : (forall a, In a l -> h a <> []) -> NoDup (flat_map h l) -> NoDup l.
Proof.
  induction l as [|a l IH]; intros Hn H; [constructor|]. cbn [flat_map] in H. constructor.
  - intro Ha. destruct (h a) as [|b bs] eqn:Eh; [apply (Hn a (or_introl eq_refl) Eh)|]. cbn in H. inversion H as [|? ? Hb _]; subst.
    apply Hb, in_or_app. right. apply in_flat_map. exists a. split; auto. rewrite Eh. left; auto.
  - apply IH; [intros x Hx; apply Hn; right; auto|]. apply NoDup_app_inv in H. tauto.
Qed.
Lemma product_clean : forall per, clean (map unions (product per)) -> product per <> [] -> Forall clean per.
Proof.
  induction per as [|l per IH]; intros H Hne; [constructor|]. cbn [product] in *.
  assert (Hp : product per <> []).
  { intro Ep. apply Hne. rewrite Ep. cbn. clear. induction l; auto. }
  destruct (product per) as [|p0 ps] eqn:Ep; [contradiction|]. rewrite <- Ep in *.
  assert (Hp0 : In p0 (product per)) by (rewrite Ep; left; auto).
  destruct l as [|a0 l0]; [contradiction Hne; reflexivity|]. set (l := a0 :: l0) in *.
  destruct H as [Hn Ha].
  assert (Hin : forall a p, In a l -> In p (product per) -> In (a :: p) (flat_map (fun x => map (cons x) (product per)) l)).
  { intros a p H1 H2. apply in_flat_map. exists a. split; auto. apply in_map; auto. }
  assert (Hinj := map_injective unions _ Hn).
  assert (Hc : forall a b p p', In a l -> In b l -> In p (product per) -> In p' (product per) -> incl_set (union a (unions p)) (union b (unions p')) -> a = b /\ p = p').
  { intros a b p p' H1 H2 H3 H4 Hi. assert (Ee : a :: p = b :: p'); [|injection Ee; auto].
    apply Hinj; auto. apply Ha; [apply in_map; auto|apply in_map; auto|]. rewrite !unions_cons. exact Hi. }
  assert (Hself : forall s, incl_set s s) by (intros s x Hx; exact Hx).
  constructor.
  - split.
    + apply (nodup_flat_heads (fun x => map (cons x) (product per))).
      * intros a _ Em. apply map_eq_nil in Em. congruence.
      * eapply NoDup_map_inv. exact Hn.
    + intros a b H1 H2 Hi. apply (Hc a b p0 p0); auto. apply incl_union; auto.
  - apply IH; [|congruence]. split.
    + apply NoDup_map_inj.
      * apply NoDup_map_inv in Hn. unfold l in Hn. cbn [flat_map] in Hn. apply NoDup_app_inv in Hn. destruct Hn as [Hn _]. eapply NoDup_map_inv. exact Hn.
      * intros p p' H1 H2 Eu. apply (Hc a0 a0 p p'); auto; try (left; auto). rewrite Eu. apply Hself.
    + intros a b H1 H2 Hi. apply in_map_iff in H1, H2. destruct H1 as (p & <- & H1). destruct H2 as (p' & <- & H2). f_equal.
      apply (Hc a0 a0 p p'); auto; try (left; auto). apply incl_union; auto.
Qed.

Section Blocking.
Variable E : ext.
Variable f : fbas.
Lemma cluster_clean c l : blocking_sets_in_cluster E f c = Ok l -> clean l -> blocking_sets_in_cluster_d E f c = Ok l.
Proof.
  unfold blocking_sets_in_cluster_d, blocking_sets_in_cluster. destruct (find_symmetric_cluster_in_consensus_cluster c f) as [[q|]|]; cbn [bind]; auto.
  unfold to_minimal_blocking_sets_d, to_minimal_blocking_sets. destruct (contains_duplicates q); auto.
  intros H Hc. injection H as <-. apply check_ok, Hc.
Qed.
Lemma blocking_sets_exact l : find_minimal_blocking_sets E f = Ok l ->
  (~ clean l -> find_minimal_blocking_sets_d E f = Panic) /\ (l <> [] -> clean l -> find_minimal_blocking_sets_d E f = Ok l).
Proof.
  intro Hl. split.
  - intro Hc. destruct (find_minimal_blocking_sets_d E f) as [l'|] eqn:Ed; [exfalso|reflexivity].
    assert (Hs := blocking_le E f l' Ed). rewrite Hl in Hs. injection Hs as <-. apply Hc.
    unfold find_minimal_blocking_sets_d, find_minimal_sets_d in Ed.
    destruct (find_sets E f (minimal_blocking_sets_finder_d E)) as [r|]; [|discriminate]. cbn [bind] in Ed.
    unfold check_minimal, assert in Ed. destruct (is_set_of_minimal_node_sets r) eqn:Ec; [|discriminate]. cbn [bind] in Ed. injection Ed as <-.
    apply checker_iff in Ec. eapply clean_perm; [symmetry; apply sort_sets_perm|exact Ec].
  - intros Hne Hc. unfold find_minimal_blocking_sets, find_minimal_sets, find_sets in Hl.
    destruct (minimal_blocking_sets_finder E (consensus_clusters E f) f) as [r|] eqn:Er; [|discriminate]. cbn in Hl. injection Hl as <-.
    assert (Hcr : clean r) by (eapply clean_perm; [apply sort_sets_perm|exact Hc]).
    unfold find_minimal_blocking_sets_d, find_minimal_sets_d, find_sets.
    assert (Ed : minimal_blocking_sets_finder_d E (consensus_clusters E f) f = Ok r).
    { unfold minimal_blocking_sets_finder_d, minimal_blocking_sets_finder in *.
      destruct (mapM (blocking_sets_in_cluster E f) (consensus_clusters E f)) as [per|] eqn:Em; [|discriminate]. cbn [bind] in Er. injection Er as <-.
      assert (Hper : Forall clean per).
      { unfold multi_cartesian_product in *. destruct per as [|l0 per]; [constructor|]. apply product_clean; auto.
        intro Ep. apply Hne. rewrite Ep. reflexivity. }
      assert (Em' : mapM (blocking_sets_in_cluster_d E f) (consensus_clusters E f) = Ok per); [|rewrite Em'; reflexivity].
      clear Hc Hne Hcr. revert per Em Hper. induction (consensus_clusters E f) as [|c cl IH]; intros per Em Hper; cbn [mapM] in *; auto.
      destruct (blocking_sets_in_cluster E f c) as [l|] eqn:El; [|discriminate]. cbn [bind] in Em.
      destruct (mapM (blocking_sets_in_cluster E f) cl) as [ls|]; [|discriminate]. cbn [bind] in Em. injection Em as <-.
      inversion Hper; subst. rewrite (cluster_clean c l El) by auto. cbn [bind]. rewrite (IH ls) by auto. reflexivity. }
    rewrite Ed. cbn [bind]. rewrite check_ok by exact Hcr. reflexivity.
Qed.
End Blocking.

(** an empty list, although the sets of one cluster are not minimal *)
Definition two_clusters : fbas := let q := QS 2 [1;1;0] [] in sample [q; q; QS 1 [2] [QS 0 [] []]].
Lemma empty_list_panics : exists f, wf_fbas f /\ find_minimal_blocking_sets std_ext f = Ok [] /\ find_minimal_blocking_sets_d std_ext f = Panic.
Proof. exists two_clusters. split; [apply wfb_ok; vm_compute; reflexivity|]. split; vm_compute; reflexivity. Qed.

(** ** a threshold that cannot be doubled *)
Definition big_fbas (t : nat) : fbas := sample [QS 1 [0] [QS (S (S (S t))) [1] []]; QS 0 [] []].
Definition big_new (t : nat) : res analysis := Eval vm_compute in analysis_new std_ext (big_fbas t).
Lemma big_analysis t : analysis_new std_ext (big_fbas t) = big_new t.
Proof. vm_compute. reflexivity. Qed.
Definition big_qset (t : nat) : qset := QS 1 [0] [QS (S (S (S t))) [] []].
Definition big_left (t : nat) : fbas := Eval vm_compute in match analysis_new std_ext (big_fbas t) with Ok a => fbas_shrunken a | Panic => fbas_new end.
Lemma big_clusters t : consensus_clusters std_ext (big_left t) = [of_list [0]].
Proof. vm_compute. reflexivity. Qed.
Lemma big_symmetric t : find_symmetric_cluster_in_consensus_cluster (of_list [0]) (big_left t) = Ok (Some (big_qset t)).
Proof. vm_compute. reflexivity. Qed.
Lemma big_splitting t mq : ~ (N.of_nat (S (S (S t))) < 2 ^ 63)%N -> find_minimal_splitting_sets_d std_ext (big_left t) mq = Panic.
Proof.
  intro H. unfold find_minimal_splitting_sets_d, find_minimal_sets_d, find_sets. rewrite big_clusters. cbn [minimal_splitting_sets_finder_d].
  rewrite big_symmetric. cbn [bind]. unfold to_minimal_splitting_sets_d. rewrite to_splitting_sets_d_panic; [reflexivity|].
  intro Hd. inversion Hd as [? ? ? _ Hi]; subst. inversion Hi as [|? ? Hq _]; subst. inversion Hq; subst. contradiction.
Qed.
Definition big_quorums (t : nat) : list bset * analysis :=
  Eval vm_compute in match bind (analysis_new std_ext (big_fbas t)) (minimal_quorums_shrunken_d std_ext) with Ok r => r | Panic => ([], mk_analysis fbas_new fbas_new (mk_sm [] []) None None None None) end.
Lemma big_debug t : ~ (N.of_nat (S (S (S t))) < 2 ^ 63)%N -> analyze_d std_ext (big_fbas t) [MinimalSplittingSets] = Panic.
Proof.
  intro H. unfold analyze_d. rewrite big_analysis. unfold big_new. cbn [bind perform_all_d perform_d].
  match goal with |- context [minimal_splitting_sets_shrunken_d std_ext ?a] => set (a0 := a) end.
  assert (E : minimal_splitting_sets_shrunken_d std_ext a0 = Panic); [|rewrite E; reflexivity].
  unfold minimal_splitting_sets_shrunken_d.
  assert (Eq : minimal_quorums_shrunken_d std_ext a0 = Ok (big_quorums t)) by (vm_compute; reflexivity).
  rewrite Eq. cbn [bind]. destruct (big_quorums t) as [mq a1] eqn:Eb. unfold big_quorums in Eb. injection Eb as Em Ea.
  assert (Eh : has_quorum_intersection_d std_ext a1 = Ok (true, set_hqi a1 (Some true))) by (subst a1; vm_compute; reflexivity).
  rewrite Eh. cbn [bind]. replace (fbas_shrunken a1) with (big_left t) by (subst a1; reflexivity).
  rewrite (big_splitting t mq H). subst a1. reflexivity.
Qed.
Lemma big_release t : analyze std_ext (big_fbas t) [MinimalSplittingSets] = Ok [AVec (mk_vec_result [] (Some [0]))].
Proof. vm_compute. reflexivity. Qed.
Lemma overflow_panics : exists f, wf_fbas f /\ (forall x q, node_of f x q -> no_repetitions q) /\ (exists r, analyze std_ext f [MinimalSplittingSets] = Ok [r]) /\ analyze_d std_ext f [MinimalSplittingSets] = Panic.
Proof.
  exists (big_fbas (N.to_nat (2 ^ 63))). split; [|split; [|split]].
  - assert (W : forall t, wf_fbas (big_fbas t)) by (intro t; apply wfb_ok; vm_compute; reflexivity). apply W.
  - assert (W : forall t, plain (big_fbas t)) by (intro t; apply plain_ok; vm_compute; reflexivity). apply W.
  - eexists. apply big_release.
  - apply big_debug. lia.
Qed.

(** a symmetric cluster whose thresholds cannot all be doubled *)
Lemma symmetric_panics (E : ext) (HE : ext_ok E) f (Hwf : wf_fbas f) q mq : satisfiable_cluster f q -> ~ can_double q -> find_minimal_splitting_sets_d E f mq = Panic.
Proof.
  intros Hs Hd. destruct (find_symmetric_clusters_iff E HE f Hwf) as (l & El & _ & Hl). apply Hl in Hs. clear Hl.
  unfold find_symmetric_clusters, find_sets, symmetric_clusters_finder in El. injection El as <-.
  apply in_flat_map in Hs. destruct Hs as (c & Hc & Hq).
  destruct (find_symmetric_cluster_cases E HE f Hwf c Hc) as [[_ Hno]|(q' & Ec & Ef & _)].
  { exfalso. apply find_symmetric_in_set_iff in Hq. apply (Hno q). exact Hq. }
  rewrite Ef in Hq. destruct Hq as [->|[]].
  unfold find_minimal_splitting_sets_d, find_minimal_sets_d, find_sets.
  assert (P : forall cl, In c cl -> minimal_splitting_sets_finder_d E mq cl f = Panic); [|rewrite (P _ Hc); reflexivity].
  induction cl as [|d cl IH]; [intros []|]; intros [->|Hin]; cbn [minimal_splitting_sets_finder_d].
  - rewrite Ec. cbn [bind]. unfold to_minimal_splitting_sets_d. rewrite to_splitting_sets_d_panic by exact Hd. reflexivity.
  - rewrite IH by exact Hin. destruct (find_symmetric_cluster_in_consensus_cluster d f) as [o|]; cbn [bind]; [|reflexivity].
    match goal with |- bind ?r _ = _ => destruct r end; reflexivity.
Qed.
Lemma big_cluster : let f := big_left (N.to_nat (2 ^ 63)) in wf_fbas f /\ satisfiable_cluster f (big_qset (N.to_nat (2 ^ 63))) /\
  ~ can_double (big_qset (N.to_nat (2 ^ 63))).
Proof.
  intro f. split; [|split].
  - assert (W : forall t, wf_fbas (big_left t)) by (intro t; apply wfb_ok; vm_compute; reflexivity). apply W.
  - assert (W : forall t, satisfiable_cluster (big_left t) (big_qset t)); [|apply W]. intro t.
    assert (Hw : wf_fbas (big_left t)) by (apply wfb_ok; vm_compute; reflexivity).
    apply (found_cluster_satisfiable std_ext std_ext_ok (big_left t) Hw (of_list [0])); [rewrite big_clusters; left; auto|vm_compute; reflexivity].
  - assert (W : forall t, ~ (N.of_nat (S (S (S t))) < 2 ^ 63)%N -> ~ can_double (big_qset t)); [|apply W; lia].
    intros t H Hd. inversion Hd as [? ? ? _ Hi]; subst. inversion Hi as [|? ? Hq _]; subst. inversion Hq; subst. contradiction.
Qed.

(** thresholds of an example *)
Fixpoint can_doubleb (q : qset) : bool := let 'QS t vs is_ := q in (N.of_nat t <? 2 ^ 63)%N && forallb can_doubleb is_.
Lemma can_doubleb_ok q : can_doubleb q = true -> can_double q.
Proof.
  induction q as [t vs is_ IH] using qset_ind'. cbn [can_doubleb]. intro H. apply andb_true_iff in H. destruct H as [Ht Hi].
  constructor; [apply N.ltb_lt, Ht|]. apply Forall_forall. rewrite forallb_forall in Hi. intros j Hj. apply IH; auto.
Qed.
Lemma doubling_ok f : forallb (fun n => can_doubleb (node_qset n)) (nodes f) = true -> doubling f.
Proof. intros H x q (n & Hn & <-). rewrite forallb_forall in H. apply nth_error_In in Hn. apply can_doubleb_ok, H, Hn. Qed.

(** a node outside of the relevant ones with a repetition and a threshold that cannot be doubled *)
Definition odd_outsider (t : nat) : fbas := sample [QS 2 [0; 1; 2] []; QS 2 [0; 1; 2] []; QS 2 [0; 1; 2] []; QS 1 [0; 1; 1] [QS (S (S (S t))) [3] []]].
Definition odd_analysis (t : nat) := Eval vm_compute in analyze_d std_ext (odd_outsider t) [MinimalSplittingSets; MinimalBlockingSets; TopTier].
Lemma odd_outsider_ok : let f := odd_outsider (N.to_nat (2 ^ 63)) in wf_fbas f /\
  (forall x y q, relevant f x -> relevant f y -> node_of f x q -> times_mentioned y q <= 1) /\
  (forall x q, relevant f x -> node_of f x q -> can_double q) /\
  (exists q, node_of f 3 q /\ ~ no_repetitions q /\ ~ can_double q) /\
  (exists a, analyze_d std_ext f [MinimalSplittingSets; MinimalBlockingSets; TopTier] = Ok a /\ List.length a = 3).
Proof.
  intro f. assert (W : forall t, wf_fbas (odd_outsider t)) by (intro t; apply wfb_ok; vm_compute; reflexivity).
  assert (R : forall t x q, relevant (odd_outsider t) x -> node_of (odd_outsider t) x q -> q = QS 2 [0; 1; 2] []).
  { intros t x q Hr (n & Hn & <-). apply (mem_relevant_iff std_ext _ x std_ext_ok (W t)) in Hr.
    assert (E : relevant_nodes std_ext (odd_outsider t) = of_list [0; 1; 2]) by (vm_compute; reflexivity). rewrite E, mem_of_list in Hr.
    destruct Hr as [<-|[<-|[<-|[]]]]; cbn in Hn; injection Hn as <-; reflexivity. }
  split; [apply W|]. split; [|split; [|split]].
  - intros x y q Hx _ Hn. rewrite (R _ x q Hx Hn). revert y. apply (proj2 (no_repetitions_nodup (QS 2 [0; 1; 2] []))), contains_duplicates_false. vm_compute. reflexivity.
  - intros x q Hx Hn. rewrite (R _ x q Hx Hn). constructor; [cbn; lia|constructor].
  - assert (G : forall t, ~ (N.of_nat (S (S (S t))) < 2 ^ 63)%N -> exists q, node_of (odd_outsider t) 3 q /\ ~ no_repetitions q /\ ~ can_double q).
    { intros t Ht. eexists. split; [eexists; split; reflexivity|]. split.
      - intro H. specialize (H 1). cbn in H. lia.
      - intro Hd. inversion Hd as [? ? ? _ Hi]; subst. inversion Hi as [|? ? Hq _]; subst. inversion Hq; subst. contradiction. }
    apply G. lia.
  - assert (G : forall t, exists a, analyze_d std_ext (odd_outsider t) [MinimalSplittingSets; MinimalBlockingSets; TopTier] = Ok a /\ List.length a = 3); [|apply G].
    intro t. assert (E : analyze_d std_ext (odd_outsider t) [MinimalSplittingSets; MinimalBlockingSets; TopTier] = odd_analysis t) by (vm_compute; reflexivity).
    rewrite E. eexists. split; reflexivity.
Qed.
