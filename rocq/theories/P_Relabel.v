(** Results of FBASs that differ only in their node ids. *)
From Verif Require Export P_Renumber P_ListOrder.
Local Open Scope list_scope.

Lemma relabel_renamed p q : renamed p q (relabel p q).
Proof.
  induction q as [t vs is_ IH] using qset_ind'. cbn [relabel]. econstructor; [reflexivity| |reflexivity].
  induction is_ as [|i is_ IHi]; constructor; auto.
  - apply IH. left; auto.
  - apply IHi. intros j Hj. apply IH. right; auto.
Qed.

Lemma relabelling_renumbering p f g : relabelling p f g -> renumbering p f g.
Proof.
  intros (H1 & H2 & H3 & H4). split; auto. split; auto. split; auto. intros x q Hq. exists (relabel p q). split; auto. apply relabel_renamed.
Qed.

Lemma relabel_mentions p q x : mentions x q -> mentions (p x) (relabel p q).
Proof.
  induction q as [t vs is_ IH] using qset_ind'. intro H. cbn [relabel]. apply mentions_inv in H. destruct H as [H|(i & Hi & H)].
  - constructor. apply in_map; auto.
  - eapply mentions_inner; [apply in_map; exact Hi|]. apply IH; auto.
Qed.

(** ** images of the sets drawn from a quorum set *)
Lemma image_union p a b : image p (union a b) = union (image p a) (image p b).
Proof.
  apply bset_ext. intro y. apply eq_true_iff_eq. rewrite mem_union, orb_true_iff, !mem_image. split.
  - intros (x & Hx & ->). rewrite mem_union, orb_true_iff in Hx. destruct Hx; [left|right]; eauto.
  - intros [(x & Hx & ->)|(x & Hx & ->)]; exists x; rewrite mem_union, Hx, ?orb_true_r; auto.
Qed.
Lemma image_unions p l : image p (unions l) = unions (map (image p) l).
Proof.
  apply bset_ext. intro y. apply eq_true_iff_eq. rewrite mem_unions, mem_image. split.
  - intros (x & Hx & ->). apply mem_unions in Hx. destruct Hx as (a & Ha & Hx). exists (image p a). split; [apply in_map; auto|].
    apply mem_image. eauto.
  - intros (b & Hb & Hy). apply in_map_iff in Hb. destruct Hb as (a & <- & Ha). apply mem_image in Hy.
    destruct Hy as (x & Hx & ->). exists x. split; auto. apply mem_unions. eauto.
Qed.
Lemma image_single p v : image p (of_list [v]) = of_list [p v].
Proof.
  apply bset_ext. intro y. apply eq_true_iff_eq. rewrite mem_image, mem_of_list. split.
  - intros (x & Hx & ->). apply mem_of_list in Hx. destruct Hx as [<-|[]]. left; auto.
  - intros [<-|[]]. exists v. split; auto. apply mem_of_list. left; auto.
Qed.

Lemma combinations_map {A B} (h : A -> B) l : forall k, combinations k (map h l) = map (map h) (combinations k l).
Proof.
  induction l as [|a l IH]; intros [|k]; simpl; auto. rewrite map_app, !IH, !map_map. reflexivity.
Qed.
Lemma product_map {A B} (h : A -> B) l : product (map (map h) l) = map (map h) (product l).
Proof.
  induction l as [|a l IH]; simpl; auto. rewrite IH. clear IH. generalize (product l). intro m.
  induction a as [|x a IHa]; simpl; auto. rewrite map_app, IHa, !map_map. reflexivity.
Qed.
Lemma mcp_map {A B} (h : A -> B) l : multi_cartesian_product (map (map h) l) = map (map h) (multi_cartesian_product l).
Proof. unfold multi_cartesian_product. destruct l; auto. apply (product_map h (l :: l0)). Qed.

Lemma flat_map_map' {A B C} (h : A -> B) (g : B -> list C) l : flat_map g (map h l) = flat_map (fun a => g (h a)) l.
Proof. induction l; simpl; auto. rewrite IHl. auto. Qed.
Lemma map_flat_map {A B C} (h : B -> C) (g : A -> list B) l : map h (flat_map g l) = flat_map (fun a => map h (g a)) l.
Proof. induction l; simpl; auto. rewrite map_app, IHl. auto. Qed.

Lemma combine_groups_image p k gs : combine_groups k (map (map (image p)) gs) = map (image p) (combine_groups k gs).
Proof.
  unfold combine_groups. rewrite combinations_map, flat_map_map', map_flat_map. apply flat_map_ext. intro c.
  rewrite mcp_map, !map_map. apply map_ext. intro l. rewrite image_unions. auto.
Qed.

Lemma entries_image p (G : qset -> list bset) vs is_ : (forall i, In i is_ -> G (relabel p i) = map (image p) (G i)) ->
  map (fun v => [of_list [v]]) (map p vs) ++ map G (map (relabel p) is_) =
  map (map (image p)) (map (fun v => [of_list [v]]) vs ++ map G is_).
Proof.
  intro H. rewrite map_app, !map_map. f_equal.
  - apply map_ext. intro v. cbn [map]. rewrite image_single. auto.
  - apply map_ext_in. auto.
Qed.

Lemma to_quorum_slices_relabel p q : to_quorum_slices (relabel p q) = map (image p) (to_quorum_slices q).
Proof.
  induction q as [t vs is_ IH] using qset_ind'. cbn [relabel to_quorum_slices]. rewrite entries_image by auto. apply combine_groups_image.
Qed.

Lemma blocking_threshold_relabel p t vs is_ : blocking_threshold (QS t (map p vs) (map (relabel p) is_)) = blocking_threshold (QS t vs is_).
Proof. unfold blocking_threshold. rewrite !map_length. auto. Qed.
Lemma splitting_threshold_relabel p t vs is_ : splitting_threshold (QS t (map p vs) (map (relabel p) is_)) = splitting_threshold (QS t vs is_).
Proof. unfold splitting_threshold. rewrite !map_length. auto. Qed.

Lemma to_blocking_sets_relabel p q : to_blocking_sets (relabel p q) = map (image p) (to_blocking_sets q).
Proof.
  induction q as [t vs is_ IH] using qset_ind'. cbn [relabel to_blocking_sets].
  rewrite blocking_threshold_relabel, entries_image by auto. apply combine_groups_image.
Qed.

Lemma contained_relabel p q : contained_nodes_with_duplicates (relabel p q) = map p (contained_nodes_with_duplicates q).
Proof.
  induction q as [t vs is_ IH] using qset_ind'. cbn [relabel contained_nodes_with_duplicates]. rewrite map_app. f_equal.
  rewrite flat_map_map', map_flat_map. induction is_ as [|i is_ IHi]; simpl; auto. rewrite IH by (left; auto). f_equal.
  apply IHi. intros j Hj. apply IH. right; auto.
Qed.

Section Relabel.
Variable p : nat -> nat.
Variables f g : fbas.
Hypothesis Hf : wf_fbas f.
Hypothesis Hr : relabelling p f g.

Let Hn : renumbering p f g := relabelling_renumbering p f g Hr.

Lemma relabel_qset x : x < number_of_nodes f -> qset_of g (p x) = relabel p (qset_of f x).
Proof. intro Hx. apply node_of_qset_of. apply Hr. apply qset_of_node; auto. Qed.

Lemma relabel_injective q : forall q', (forall x, mentions x q -> x < number_of_nodes f) -> (forall x, mentions x q' -> x < number_of_nodes f) ->
  relabel p q = relabel p q' -> q = q'.
Proof.
  assert (Hl : forall vs vs', (forall v, In v vs -> v < number_of_nodes f) -> (forall v, In v vs' -> v < number_of_nodes f) -> map p vs = map p vs' -> vs = vs').
  { induction vs as [|v vs IH]; intros [|v' vs'] H1 H2 E; simpl in E; try discriminate; auto. injection E as E1 E2. f_equal.
    - apply (p_inj p f g Hn); auto; [apply H1|apply H2]; left; auto.
    - apply IH; auto; intros; [apply H1|apply H2]; right; auto. }
  induction q as [t vs is_ IH] using qset_ind'. intros [t' vs' is'] H1 H2 E. cbn [relabel] in E. injection E as E0 E1 E2.
  f_equal; auto.
  - apply Hl; auto; intros v Hv; [apply H1|apply H2]; constructor; auto.
  - assert (G1 : forall i x, In i is_ -> mentions x i -> x < number_of_nodes f) by (intros i x Hi Hx; apply H1; eapply mentions_inner; eauto).
    assert (G2 : forall i x, In i is' -> mentions x i -> x < number_of_nodes f) by (intros i x Hi Hx; apply H2; eapply mentions_inner; eauto).
    clear - IH E2 G1 G2. revert is' E2 G2. induction is_ as [|i is_ IHi]; intros [|i' is'] E2 G2; simpl in E2; try discriminate; auto.
    injection E2 as Ea Eb. f_equal.
    + apply IH; auto; [left; auto| |]; intros x Hx; [eapply G1|eapply G2]; eauto; left; auto.
    + apply IHi; auto.
      * intros j Hj. apply IH. right; auto.
      * intros j x Hj. apply G1. right; auto.
      * intros j x Hj. apply G2. right; auto.
Qed.

Lemma qset_in_range x y : mentions y (qset_of f x) -> x < number_of_nodes f -> y < number_of_nodes f.
Proof. intros Hy Hx. eapply Hf; [apply qset_of_node; exact Hx|exact Hy]. Qed.

Lemma contained_nodes_relabel q : contained_nodes (relabel p q) = image p (contained_nodes q).
Proof.
  apply bset_ext. intro y. apply eq_true_iff_eq. rewrite contained_nodes_spec, mem_image. split.
  - intro H. destruct (renamed_mentions p q (relabel p q) y (relabel_renamed p q) H) as (x & Hx & ->). exists x. split; auto. apply contained_nodes_spec; auto.
  - intros (x & Hx & ->). apply relabel_mentions. apply contained_nodes_spec; auto.
Qed.

Lemma nodup_relabel q : (forall x, mentions x q -> x < number_of_nodes f) -> (nodup_qset (relabel p q) <-> nodup_qset q).
Proof.
  intro H. unfold nodup_qset. rewrite contained_relabel. split; intro Hd.
  - eapply NoDup_map_inv; eauto.
  - apply NoDup_map_inj; auto. intros a b Ha Hb. apply (p_inj p f g Hn); apply H; apply contained_list_spec; auto.
Qed.

Lemma duplicates_relabel q : (forall x, mentions x q -> x < number_of_nodes f) -> contains_duplicates (relabel p q) = contains_duplicates q.
Proof.
  intro H. assert (X := nodup_relabel q H). unfold nodup_qset in X. rewrite <- !contains_duplicates_false in X.
  destruct (contains_duplicates (relabel p q)), (contains_duplicates q); auto; intuition discriminate.
Qed.

Lemma slice_relabel q S : (forall x, mentions x q -> x < number_of_nodes f) -> within f S ->
  is_quorum_slice (relabel p q) (image p S) = is_quorum_slice q S.
Proof. intros H HS. apply (renamed_slice p f g Hn); auto. apply relabel_renamed. Qed.

Lemma to_splitting_sets_relabel q : (forall x, mentions x q -> x < number_of_nodes f) ->
  to_splitting_sets (relabel p q) = map (image p) (to_splitting_sets q).
Proof.
  induction q as [t vs is_ IH] using qset_ind'. intro H. cbn [relabel to_splitting_sets].
  rewrite splitting_threshold_relabel, entries_image, combine_groups_image.
  2:{ intros i Hi. apply IH; auto. intros x Hx. apply H. eapply mentions_inner; eauto. }
  assert (Hs : forall s, In s (combine_groups (splitting_threshold (QS t vs is_)) (map (fun node_id => [of_list [node_id]]) vs ++ map to_splitting_sets is_)) -> within f s).
  { intros s Hs x Hx. apply mem_all_nodes, H. refine (entries_mentions _ to_splitting_sets t vs is_ s _ Hs x Hx).
    intros i s' Hi Hs' y Hy. eapply to_splitting_sets_mentions; eauto. }
  destruct (combine_groups _ _) as [|s [|s1 l]]; auto. cbn [map].
  assert (E := slice_relabel (QS t vs is_) s H (Hs s (or_introl eq_refl))). cbn [relabel] in E. rewrite E.
  destruct (is_quorum_slice (QS t vs is_) s); auto.
Qed.

(** ** the consensus clusters *)
Lemma sat_relabel x S : x < number_of_nodes f -> within f S -> sat g (p x) (image p S) = sat f x S.
Proof.
  intros Hx HS. unfold sat. rewrite relabel_qset by auto. apply slice_relabel; auto. intros y Hy. eapply qset_in_range; eauto.
Qed.

Lemma closed_relabel S : within f S -> (closed f S <-> closed g (image p S)).
Proof.
  intro HS. split.
  - intros H y Hy. apply mem_image in Hy. destruct Hy as (x & Hx & ->). rewrite sat_relabel; auto. apply (within_lt f S); auto.
  - intros H x Hx. rewrite <- sat_relabel; auto; [|apply (within_lt f S); auto]. apply H. apply mem_image. eauto.
Qed.

Lemma closed_within h S : closed h S -> incl_set S (all_nodes h).
Proof. apply closed_nodes. Qed.

Lemma satisfiable_relabel : satisfiable_nodes g = image p (satisfiable_nodes f).
Proof.
  destruct (satisfiable_nodes_spec f) as [C1 M1]. destruct (satisfiable_nodes_spec g) as [C2 M2].
  assert (W1 := closed_within f _ C1). assert (W2 := closed_within g _ C2). apply incl_antisym.
  - rewrite <- (image_preimage p f g Hn (satisfiable_nodes g) W2). apply image_mono. apply M1. apply closed_relabel; [apply preimage_within|].
    rewrite (image_preimage p f g Hn); auto.
  - apply M2. apply closed_relabel; auto.
Qed.

Lemma trusts_relabel x y : trusts f x y -> trusts g (p x) (p y).
Proof. intros (q & Hq & Hy). exists (relabel p q). split; [apply Hr; auto|apply relabel_mentions; auto]. Qed.

Lemma trusts_back x z : x < number_of_nodes f -> trusts g (p x) z -> exists y, z = p y /\ y < number_of_nodes f /\ trusts f x y.
Proof.
  intros Hx (q & Hq & Hz). apply node_of_qset_of in Hq. rewrite relabel_qset in Hq by auto. subst q.
  destruct (renamed_mentions p _ _ z (relabel_renamed p _) Hz) as (y & Hy & ->). exists y. split; auto. split; [eapply qset_in_range; eauto|].
  exists (qset_of f x). split; auto. apply qset_of_node; auto.
Qed.

Lemma reach_relabel x y : trusts_transitively f x y -> trusts_transitively g (p x) (p y).
Proof.
  induction 1 as [x y H|x|x y z _ IH1 _ IH2]; [apply rt_step, trusts_relabel; auto|apply rt_refl|eapply rt_trans; eauto].
Qed.
Lemma reach_back x z : x < number_of_nodes f -> trusts_transitively g (p x) z -> exists y, z = p y /\ y < number_of_nodes f /\ trusts_transitively f x y.
Proof.
  intros Hx H. apply clos_rt_rtn1 in H. induction H as [|y z Hyz H IH].
  - exists x. split; auto. split; auto. apply rt_refl.
  - destruct IH as (w & -> & Hw & Hxw). destruct (trusts_back w z Hw Hyz) as (v & -> & Hv & Hwv). exists v. split; auto. split; auto.
    eapply rt_trans; eauto. apply rt_step; auto.
Qed.
Lemma linked_relabel x y : x < number_of_nodes f -> y < number_of_nodes f -> (linked f x y <-> linked g (p x) (p y)).
Proof.
  assert (H : forall x y, x < number_of_nodes f -> y < number_of_nodes f -> trusts_transitively g (p x) (p y) -> trusts_transitively f x y).
  { intros a b Ha Hb Hab. destruct (reach_back a (p b) Ha Hab) as (c & E & Hc & Hac). apply (p_inj p f g Hn) in E; auto. subst; auto. }
  intros Hx Hy. split; intros []; split; auto using reach_relabel.
Qed.

Section Ext.
Variables E E' : ext.
Hypothesis HE : ext_ok E.
Hypothesis HE' : ext_ok E'.

Let Hg : wf_fbas g := renumbering_wf p f g Hf Hn.

Lemma cluster_relabel c : In c (consensus_clusters E f) -> In (image p c) (consensus_clusters E' g).
Proof.
  intro Hc. destruct (cluster_quorum E f c Hc) as (q & Hq & Hi).
  assert (Wc := cluster_nodes E f c Hc).
  assert (Wq : within f q) by (apply quorum_nodes; apply Hq).
  assert (Hq' : minimal_quorum g (image p q)) by (apply (minimal_quorum_image p f g); auto).
  destruct (minimal_quorum_cluster E' HE' g Hg _ Hq') as (d & Hd & Hi').
  assert (Hx : exists x, mem x q = true) by apply Hq. destruct Hx as (x & Hx).
  assert (Wd := cluster_nodes E' g d Hd).
  assert (image p c = d); [|subst; auto].
  rewrite <- (image_preimage p f g Hn d Wd). f_equal. apply bset_ext. intro y. apply eq_true_iff_eq. rewrite mem_preimage.
  assert (Hlx : x < number_of_nodes f) by (apply (within_lt f q); auto).
  assert (Hpx : mem (p x) d = true) by (apply Hi'; apply mem_image; eauto).
  rewrite (cluster_class E HE f Hf c x y Hc (Hi x Hx)), (cluster_class E' HE' g Hg d (p x) (p y) Hd Hpx), satisfiable_relabel.
  assert (Ws : within f (satisfiable_nodes f)) by (apply closed_within, satisfiable_nodes_spec).
  split.
  - intros [H1 H2]. assert (Hy : y < number_of_nodes f) by (apply (within_lt f (satisfiable_nodes f)); auto).
    split; auto. rewrite (mem_image_p p f g Hn); auto. split; auto. apply linked_relabel; auto.
  - intros (Hy & H1 & H2). rewrite (mem_image_p p f g Hn) in H1; auto. split; auto. apply linked_relabel; auto.
Qed.

Lemma cluster_relabel_back d : In d (consensus_clusters E' g) -> exists c, In c (consensus_clusters E f) /\ d = image p c.
Proof.
  intro Hd. destruct (cluster_quorum E' g d Hd) as (q' & Hq' & Hi').
  destruct (minimal_quorum_from_image p f g Hf Hn q' Hq') as (q & Wq & -> & Hq).
  destruct (minimal_quorum_cluster E HE f Hf q Hq) as (c & Hc & Hi). exists c. split; auto.
  assert (Hx : exists x, mem x q = true) by apply Hq. destruct Hx as (x & Hx).
  apply (clusters_disjoint E' HE' g Hg d (image p c) (p x)); auto.
  - apply cluster_relabel; auto.
  - apply Hi'. apply mem_image. eauto.
  - apply mem_image. eauto.
Qed.

Lemma clusters_relabel : Permutation (map (image p) (consensus_clusters E f)) (consensus_clusters E' g).
Proof.
  apply NoDup_Permutation.
  - apply NoDup_map_inj; [apply clusters_nodup; auto|]. intros a b Ha Hb. apply (image_inj p f g Hn); eapply cluster_nodes; eauto.
  - apply clusters_nodup; auto.
  - intro d. rewrite in_map_iff. split.
    + intros (c & <- & Hc). apply cluster_relabel; auto.
    + intro Hd. destruct (cluster_relabel_back d Hd) as (c & Hc & ->). eauto.
Qed.

Lemma symmetric_relabel c : In c (consensus_clusters E f) ->
  (find_symmetric_cluster_in_consensus_cluster c f = Ok None /\ find_symmetric_cluster_in_consensus_cluster (image p c) g = Ok None) \/
  exists q, find_symmetric_cluster_in_consensus_cluster c f = Ok (Some q) /\
    find_symmetric_cluster_in_consensus_cluster (image p c) g = Ok (Some (relabel p q)) /\
    (forall x, mentions x q -> x < number_of_nodes f) /\ satisfiable_cluster f q.
Proof.
  intro Hc. assert (Hc' := cluster_relabel c Hc). assert (Wc := cluster_nodes E f c Hc).
  assert (Hx : exists x, mem x c = true).
  { destruct (cluster_quorum E f c Hc) as (q & (((x & Hx) & _) & _) & Hi). exists x. auto. }
  destruct Hx as (x0 & Hx0). assert (Hl0 : x0 < number_of_nodes f) by (apply (within_lt f c); auto).
  destruct (find_symmetric_cluster_cases E HE f Hf c Hc) as [[Es Hno]|(q & Es & Ef & Hq & Hall)];
    destruct (find_symmetric_cluster_cases E' HE' g Hg (image p c) Hc') as [[Es' Hno']|(q' & Es' & Ef' & Hq' & Hall')]; auto.
  - exfalso. apply (Hno (qset_of f x0)).
    assert (Hsame : forall x, mem x c = true -> qset_of f x = qset_of f x0).
    { intros x Hx. assert (Hl : x < number_of_nodes f) by (apply (within_lt f c); auto).
      apply relabel_injective.
      - intros y Hy. eapply qset_in_range; eauto.
      - intros y Hy. eapply qset_in_range; eauto.
      - rewrite <- !relabel_qset by auto. rewrite !Hall'; auto; apply mem_image; eauto. }
    assert (Hcn : contained_nodes (qset_of f x0) = c).
    { apply (image_inj p f g Hn).
      - intros y Hy. apply contained_nodes_spec in Hy. apply mem_all_nodes. eapply qset_in_range; eauto.
      - exact Wc.
      - rewrite <- contained_nodes_relabel, <- relabel_qset by auto. rewrite Hall'; auto. apply mem_image; eauto. }
    split.
    + exists x0. apply contained_nodes_spec. rewrite Hcn. auto.
    + intros x Hx. apply contained_nodes_spec in Hx. rewrite Hcn in Hx. auto.
  - exfalso. apply (Hno' (relabel p q)).
    assert (Hm : forall y, mentions y (relabel p q) -> mem y (image p c) = true).
    { intros y Hy. apply contained_nodes_spec in Hy. rewrite contained_nodes_relabel, Hq in Hy. auto. }
    split.
    + exists (p x0). apply contained_nodes_spec. rewrite contained_nodes_relabel, Hq. apply mem_image. eauto.
    + intros y Hy. assert (Hy' := Hm y Hy). split; auto. apply mem_image in Hy'. destruct Hy' as (x & Hx & ->).
      rewrite relabel_qset by (apply (within_lt f c); auto). rewrite Hall; auto.
  - right. exists q. split; auto. assert (q' = relabel p q).
    { rewrite <- (Hall' (p x0)) by (apply mem_image; eauto). rewrite relabel_qset by auto. rewrite Hall; auto. }
    subst q'. split; auto. split.
    + intros x Hx. apply contained_nodes_spec in Hx. rewrite Hq in Hx. apply (within_lt f c); auto.
    + apply (found_cluster_satisfiable E HE f Hf c q Hc Ef).
Qed.

Lemma image_diff a b : within f a -> within f b -> image p (diff a b) = diff (image p a) (image p b).
Proof.
  intros Ha Hb. apply bset_ext. intro y. apply eq_true_iff_eq. rewrite mem_diff, andb_true_iff, negb_true_iff, !mem_image. split.
  - intros (x & Hx & ->). rewrite mem_diff, andb_true_iff, negb_true_iff in Hx. destruct Hx as [H1 H2]. split; eauto.
    rewrite (mem_image_p p f g Hn); auto. apply (within_lt f a); auto.
  - intros [(x & Hx & ->) H2]. exists x. split; auto. rewrite mem_diff, Hx. rewrite (mem_image_p p f g Hn) in H2; auto; [rewrite H2; auto|].
    apply (within_lt f a); auto.
Qed.

Lemma contains_quorum_relabel S : within f S -> contains_quorum (image p S) g = contains_quorum S f.
Proof.
  intro HS. apply eq_true_iff_eq. rewrite !contains_quorum_iff. split.
  - intros (Q' & Hi & HQ'). destruct (quorum_from_image p f g Hf Hn Q' HQ') as (Q & W & -> & HQ). exists Q.
    split; [|auto]. apply (image_incl p f g Hn); auto.
  - intros (Q & Hi & HQ). exists (image p Q). split; [apply image_mono; auto|]. apply (quorum_image p f g); auto. intros x Hx; apply HS; auto.
Qed.

Lemma cblocking_relabel c B : within f c -> within f B -> (cblocking f c B <-> cblocking g (image p c) (image p B)).
Proof.
  intros Hc HB. unfold cblocking. rewrite (image_incl p f g Hn) by auto. rewrite <- image_diff by auto. rewrite contains_quorum_relabel; [tauto|].
  intros x Hx. rewrite mem_diff, andb_true_iff in Hx. apply Hc, Hx.
Qed.

(** ** blocking sets *)
Lemma same_sets_map l : same_sets_under p l (map (image p) l).
Proof. intro S'. rewrite in_map_iff. split; intros (S & H1 & H2); exists S; auto. Qed.

Lemma blocking_in_cluster_relabel c : In c (consensus_clusters E f) ->
  (forall q, satisfiable_cluster f q -> no_repetitions q) ->
  exists l l', blocking_sets_in_cluster E f c = Ok l /\ blocking_sets_in_cluster E' g (image p c) = Ok l' /\ same_sets_under p l l'.
Proof.
  intros Hc Hno. assert (Hc' := cluster_relabel c Hc). assert (Wc := cluster_nodes E f c Hc).
  destruct (symmetric_relabel c Hc) as [[Es Es']|(q & Es & Es' & Hq & Hs)].
  - destruct (nonsymmetric_blocking E HE f Hf c Hc Es) as (l & El & _ & Sl).
    destruct (nonsymmetric_blocking E' HE' g Hg (image p c) Hc' Es') as (l' & El' & _ & Sl').
    exists l, l'. split; auto. split; auto. apply (lists_image p f g Hn (minimal (cblocking f c)) (minimal (cblocking g (image p c)))); auto.
    + intros S [[H _] _] x Hx. auto.
    + intros S [[H _] _] x Hx. apply (image_within p f g Hn c); auto.
    + apply (minimal_image p f g Hn). intros S HS. apply cblocking_relabel; auto.
  - unfold blocking_sets_in_cluster. rewrite Es, Es'. cbn [bind]. eexists. eexists. split; [reflexivity|]. split; [reflexivity|].
    unfold to_minimal_blocking_sets. rewrite duplicates_relabel by auto.
    assert (Hcd : contains_duplicates q = false) by (apply contains_duplicates_false, no_repetitions_nodup; auto).
    rewrite Hcd, to_blocking_sets_relabel. apply same_sets_map.
Qed.

Lemma product_relabel per per' : Forall2 (same_sets_under p) per per' ->
  same_sets_under p (map unions (multi_cartesian_product per)) (map unions (multi_cartesian_product per')).
Proof.
  intros H S'. rewrite in_map_iff. split.
  - intros (ps' & <- & Hp'). apply mcp_spec in Hp'. destruct Hp' as [Hne Hp'].
    assert (Hex : exists ps, Forall2 (fun x xs => In x xs) ps per /\ ps' = map (image p) ps).
    { clear Hne. revert ps' Hp'. induction H as [|l l' per per' Hl H IH]; intros ps' Hp'; inversion Hp' as [|s' ? ps'' ? Hs' Hps]; subst.
      - exists []. auto.
      - destruct (IH ps'' Hps) as (ps & H1 & ->). apply Hl in Hs'. destruct Hs' as (s & Hs & ->). exists (s :: ps). split; auto. }
    destruct Hex as (ps & H1 & ->). exists (unions ps). split; [|rewrite image_unions; auto]. apply in_map_iff. exists ps. split; auto.
    apply mcp_spec. split; auto. intros ->. inversion H; subst. auto.
  - intros (S & HS & ->). apply in_map_iff in HS. destruct HS as (ps & <- & Hp). apply mcp_spec in Hp. destruct Hp as [Hne Hp].
    exists (map (image p) ps). split; [rewrite image_unions; auto|]. apply mcp_spec. split.
    + intros ->. inversion H; subst. auto.
    + clear Hne. revert ps Hp. induction H as [|l l' per per' Hl H IH]; intros ps Hp; inversion Hp as [|s ? ps' ? Hs Hps]; subst; constructor; auto.
      apply Hl. eauto.
Qed.

Lemma same_sets_sort l l' m m' : Permutation l' m' -> same_sets_under p l m' -> m = l -> same_sets_under p (sort_sets m) (sort_sets l').
Proof.
  intros P H -> S'. rewrite sort_sets_in. split.
  - intro HS. apply (Permutation_in _ P) in HS. apply H in HS. destruct HS as (S & HS & ->). exists S. rewrite sort_sets_in. auto.
  - intros (S & HS & ->). rewrite sort_sets_in in HS. apply (Permutation_in _ (Permutation_sym P)). apply H. eauto.
Qed.

Lemma relabel_blocking : (forall q, satisfiable_cluster f q -> no_repetitions q) ->
  exists l l', find_minimal_blocking_sets E f = Ok l /\ find_minimal_blocking_sets E' g = Ok l' /\ same_sets_under p l l'.
Proof.
  intro Hno. unfold find_minimal_blocking_sets, find_minimal_sets, find_sets, minimal_blocking_sets_finder.
  assert (Hmap : forall cl, incl cl (consensus_clusters E f) -> exists per per',
       mapM (blocking_sets_in_cluster E f) cl = Ok per /\ mapM (blocking_sets_in_cluster E' g) (map (image p) cl) = Ok per' /\ Forall2 (same_sets_under p) per per').
  { induction cl as [|c cl IH]; intro Hi; simpl.
    - exists [], []. auto.
    - destruct (blocking_in_cluster_relabel c) as (l & l' & El & El' & P); [apply Hi; left; auto|auto|].
      destruct IH as (per & per' & Ep & Ep' & Pp); [intros d Hd; apply Hi; right; auto|].
      rewrite El, El'. simpl. rewrite Ep, Ep'. simpl. exists (l :: per), (l' :: per'). auto. }
  destruct (Hmap (consensus_clusters E f) (fun c Hc => Hc)) as (per & per' & Ep & Ep' & Pp). rewrite Ep. simpl.
  destruct (mapM_perm (blocking_sets_in_cluster E' g) _ _ clusters_relabel per' Ep') as (per2 & E2' & P2).
  rewrite E2'. simpl. eexists. eexists. split; [reflexivity|]. split; [reflexivity|].
  apply (same_sets_sort (map unions (multi_cartesian_product per)) _ _ (map unions (multi_cartesian_product per'))); auto.
  - symmetry. unfold multi_cartesian_product. destruct per' as [|q per'].
    + apply Permutation_nil in P2. subst. auto.
    + destruct per2 as [|q2 per2]; [exfalso; symmetry in P2; apply Permutation_nil in P2; discriminate|]. apply product_perm; auto.
  - apply product_relabel; auto.
Qed.

(** ** splitting sets *)
Lemma inter_image a b : within f a -> within f b -> image p (inter a b) = inter (image p a) (image p b).
Proof.
  intros Ha Hb. apply bset_ext. intro y. apply eq_true_iff_eq. rewrite mem_inter, andb_true_iff, !mem_image. split.
  - intros (x & Hx & ->). rewrite mem_inter, andb_true_iff in Hx. destruct Hx as [H1 H2]. split; eauto.
  - intros [(x & Hx & ->) (z & Hy & Exy)]. apply (p_inj p f g Hn) in Exy; [|apply (within_lt f a); auto|apply (within_lt f b); auto]. subst z.
    exists x. rewrite mem_inter, Hx, Hy. auto.
Qed.

Lemma crossing_relabel mq mq' c T : (forall Q, In Q mq <-> minimal_quorum f Q) -> (forall Q, In Q mq' <-> minimal_quorum g Q) -> within f c -> within f T ->
  (crossing (filter (fun q => negb (disjoint q c)) mq) T <-> crossing (filter (fun q => negb (disjoint q (image p c))) mq') (image p T)).
Proof.
  intros Hm Hm' Hc HT.
  assert (Hd : forall Q, within f Q -> disjoint (image p Q) (image p c) = disjoint Q c).
  { intros Q HQ. apply eq_true_iff_eq. rewrite <- !not_false_iff_true, !not_disjoint_meets. rewrite <- (meets_image p f g Hn); tauto. }
  assert (Hw : forall Q, minimal_quorum f Q -> within f Q) by (intros Q HQ; apply quorum_nodes; apply HQ).
  split.
  - intros (Q1 & Q2 & H1 & H2 & Hne & ->). apply filter_In in H1, H2. destruct H1 as [H1 D1]. destruct H2 as [H2 D2]. apply Hm in H1, H2.
    exists (image p Q1), (image p Q2). split; [|split; [|split]].
    + apply filter_In. split; [apply Hm'; apply (minimal_quorum_image p f g); auto|]. rewrite Hd; auto.
    + apply filter_In. split; [apply Hm'; apply (minimal_quorum_image p f g); auto|]. rewrite Hd; auto.
    + intro X. apply Hne. apply (image_inj p f g Hn); auto.
    + apply inter_image; auto.
  - intros (Q1' & Q2' & H1 & H2 & Hne & ET). apply filter_In in H1, H2. destruct H1 as [H1 D1]. destruct H2 as [H2 D2]. apply Hm' in H1, H2.
    destruct (minimal_quorum_from_image p f g Hf Hn _ H1) as (Q1 & W1 & -> & M1). destruct (minimal_quorum_from_image p f g Hf Hn _ H2) as (Q2 & W2 & -> & M2).
    rewrite Hd in D1, D2 by auto. exists Q1, Q2. split; [apply filter_In; split; auto; apply Hm; auto|]. split; [apply filter_In; split; auto; apply Hm; auto|].
    split; [congruence|]. rewrite <- inter_image in ET by auto. apply (image_inj p f g Hn) in ET; auto. intros x Hx. rewrite mem_inter, andb_true_iff in Hx. apply W1, Hx.
Qed.

Lemma image_inhabited S : inhabited_set S <-> inhabited_set (image p S).
Proof.
  split; intros (x & Hx).
  - exists (p x). apply mem_image. eauto.
  - apply mem_image in Hx. destruct Hx as (y & Hy & _). exists y; auto.
Qed.

Lemma remove_non_minimal_relabel l : (forall s, In s l -> within f s) ->
  same_sets_under p (remove_non_minimal_node_sets l) (remove_non_minimal_node_sets (map (image p) l)).
Proof.
  intro Hw. apply (lists_image p f g Hn (minimal (fun x => In x l)) (minimal (fun x => In x (map (image p) l)))).
  - intros S [H _]. auto.
  - intros S [H _]. apply in_map_iff in H. destruct H as (s & <- & Hs). apply (image_within p f g Hn); auto.
  - apply (minimal_image p f g Hn). intros S HS. rewrite in_map_iff. split.
    + intro H. exists S. auto.
    + intros (s & Es & Hs). apply (image_inj p f g Hn) in Es; auto. subst; auto.
  - apply remove_non_minimal_exact.
  - apply remove_non_minimal_exact.
Qed.

Lemma splitting_in_cluster_relabel mq mq' c : find_minimal_quorums E f = Ok mq -> find_minimal_quorums E' g = Ok mq' -> In c (consensus_clusters E f) ->
  same_sets_under p (splitting_in_cluster f E mq c) (splitting_in_cluster g E' mq' (image p c)).
Proof.
  intros Hmq Hmq' Hc. assert (Hc' := cluster_relabel c Hc). assert (Wc := cluster_nodes E f c Hc).
  destruct (found_search_list E HE f Hf mq Hmq) as [M1 N1]. destruct (found_search_list E' HE' g Hg mq' Hmq') as [M2 N2].
  destruct (symmetric_relabel c Hc) as [[Es Es']|(q & Es & Es' & Hq & Hs)].
  - destruct (splitting_in_cluster_iff f Hf E mq c HE Hc Es) as [_ I1]; [intros Q HQ; apply M1 in HQ; apply HQ|apply N1; auto|].
    destruct (splitting_in_cluster_iff g Hg E' mq' (image p c) HE' Hc' Es') as [_ I2]; [intros Q HQ; apply M2 in HQ; apply HQ|apply N2; auto|].
    eapply (lists_image p f g Hn); [| | |exact I1|exact I2].
    + intros S [(_ & _ & H) _] x Hx. auto.
    + intros S [(_ & _ & H) _] x Hx. apply (image_within p f g Hn c); auto.
    + apply (minimal_image p f g Hn). intros S HS. rewrite <- crossing_relabel by eauto. rewrite <- image_inhabited, (image_incl p f g Hn) by auto. tauto.
  - unfold splitting_in_cluster. rewrite Es, Es'. unfold to_minimal_splitting_sets. rewrite duplicates_relabel, to_splitting_sets_relabel by auto.
    destruct (contains_duplicates q); [|apply same_sets_map]. apply remove_non_minimal_relabel.
    intros s Hin x Hx. apply mem_all_nodes, Hq. eapply to_splitting_sets_mentions; eauto.
Qed.

Lemma relabel_splitting mq mq' : find_minimal_quorums E f = Ok mq -> find_minimal_quorums E' g = Ok mq' ->
  exists l l', find_minimal_splitting_sets E f mq = Ok l /\ find_minimal_splitting_sets E' g mq' = Ok l' /\ same_sets_under p l l'.
Proof.
  intros Hmq Hmq'. rewrite (splitting_flat f Hf E mq HE), (splitting_flat g Hg E' mq' HE'). eexists. eexists. split; [reflexivity|]. split; [reflexivity|].
  eapply same_sets_sort; [apply flat_map_perm; [symmetry; apply clusters_relabel|reflexivity]| |reflexivity].
  intro S'. rewrite in_flat_map. split.
  - intros (d & Hd & HS). apply in_map_iff in Hd. destruct Hd as (c & <- & Hc). apply (splitting_in_cluster_relabel mq mq' c) in HS; auto.
    destruct HS as (S & HS & ->). exists S. split; auto. apply in_flat_map. eauto.
  - intros (S & HS & ->). apply in_flat_map in HS. destruct HS as (c & Hc & HS). exists (image p c). split; [apply in_map; auto|].
    apply (splitting_in_cluster_relabel mq mq' c); auto. eauto.
Qed.
End Ext.
End Relabel.
