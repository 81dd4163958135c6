(** Renumbering nodes renumbers the results. *)
From Verif Require Export Spec_Renumber P_Results P_Orders.
Local Open Scope list_scope.

Lemma mem_image p S y : mem y (image p S) = true <-> exists x, mem x S = true /\ y = p x.
Proof.
  unfold image. rewrite mem_of_list, in_map_iff. split; intros (x & H1 & H2).
  - exists x. rewrite <- elements_spec. auto.
  - exists x. rewrite elements_spec. auto.
Qed.

Lemma image_mono p a b : incl_set a b -> incl_set (image p a) (image p b).
Proof. intros H y Hy. apply mem_image in Hy. destruct Hy as (x & Hx & ->). apply mem_image. exists x. auto. Qed.

Lemma forall2_filter_length {A B} (R : A -> B -> Prop) (g : A -> bool) (h : B -> bool) l l' :
  Forall2 R l l' -> (forall a b, In a l -> R a b -> h b = g a) -> List.length (filter h l') = List.length (filter g l).
Proof.
  induction 1 as [|a b l l' Hab Hl IH]; intro H; simpl; auto.
  rewrite (H a b); [|left; auto|auto]. destruct (g a); simpl; rewrite IH; auto; intros a' b' Ha' Hr; apply H; auto; right; auto.
Qed.

Lemma filter_perm_length {A} (g : A -> bool) l l' : Permutation l l' -> List.length (filter g l) = List.length (filter g l').
Proof. induction 1; simpl; auto; try lia; repeat destruct (g _); simpl; lia. Qed.

Section Renumber.
Variable p : nat -> nat.
Variables f g : fbas.
Hypothesis Hf : wf_fbas f.
Hypothesis Hr : renumbering p f g.

Definition within (S : bset) : Prop := incl_set S (all_nodes f).

Lemma within_lt S x : within S -> mem x S = true -> x < number_of_nodes f.
Proof. intros H Hx. apply mem_all_nodes. auto. Qed.

Lemma p_inj x y : x < number_of_nodes f -> y < number_of_nodes f -> p x = p y -> x = y.
Proof. apply Hr. Qed.

Lemma p_onto y : y < number_of_nodes f -> exists x, x < number_of_nodes f /\ p x = y.
Proof.
  intro Hy. destruct Hr as (_ & H1 & H2 & _).
  assert (Hn : NoDup (map p (seq 0 (number_of_nodes f)))).
  { apply NoDup_map_inj; [apply seq_NoDup|]. intros a b Ha Hb. apply in_seq in Ha, Hb. apply H2; lia. }
  assert (Hi : incl (map p (seq 0 (number_of_nodes f))) (seq 0 (number_of_nodes f))).
  { intros z Hz. apply in_map_iff in Hz. destruct Hz as (a & <- & Ha). apply in_seq in Ha. apply in_seq. specialize (H1 a). lia. }
  assert (Hc : incl (seq 0 (number_of_nodes f)) (map p (seq 0 (number_of_nodes f)))).
  { apply (NoDup_length_incl Hn); auto. rewrite map_length. auto. }
  assert (Hin : In y (map p (seq 0 (number_of_nodes f)))) by (apply Hc, in_seq; lia).
  apply in_map_iff in Hin. destruct Hin as (x & Ex & Hx). apply in_seq in Hx. exists x. split; auto. lia.
Qed.

Lemma mem_image_p S x : within S -> x < number_of_nodes f -> mem (p x) (image p S) = mem x S.
Proof.
  intros HS Hx. apply eq_true_iff_eq. rewrite mem_image. split.
  - intros (y & Hy & E). rewrite (p_inj x y); auto. apply (within_lt S); auto.
  - intro H. eauto.
Qed.

Lemma image_within S : within S -> incl_set (image p S) (all_nodes g).
Proof.
  intros HS y Hy. apply mem_image in Hy. destruct Hy as (x & Hx & ->). apply mem_all_nodes. destruct Hr as (-> & H1 & _).
  apply H1. apply (within_lt S); auto.
Qed.

Definition preimage (S : bset) : bset := of_list (filter (fun x => mem (p x) S) (seq 0 (number_of_nodes f))).

Lemma mem_preimage S x : mem x (preimage S) = true <-> x < number_of_nodes f /\ mem (p x) S = true.
Proof. unfold preimage. rewrite mem_of_list, filter_In, in_seq. split; intros []; split; auto; lia. Qed.

Lemma preimage_within S : within (preimage S).
Proof. intros x Hx. apply mem_preimage in Hx. apply mem_all_nodes. tauto. Qed.

Lemma image_preimage S : incl_set S (all_nodes g) -> image p (preimage S) = S.
Proof.
  intro HS. apply bset_ext. intro y. apply eq_true_iff_eq. rewrite mem_image. split.
  - intros (x & Hx & ->). apply mem_preimage in Hx. tauto.
  - intro Hy. assert (Hlt : y < number_of_nodes f).
    { destruct Hr as (En & _). rewrite <- En. apply mem_all_nodes. auto. }
    destruct (p_onto y Hlt) as (x & Hx & <-). exists x. split; auto. apply mem_preimage. auto.
Qed.

Lemma image_incl a b : within a -> within b -> (incl_set (image p a) (image p b) <-> incl_set a b).
Proof.
  intros Ha Hb. split; [|apply image_mono]. intros H x Hx. rewrite <- (mem_image_p b x); auto.
  - apply H. apply mem_image. eauto.
  - apply (within_lt a); auto.
Qed.

Lemma image_inj a b : within a -> within b -> image p a = image p b -> a = b.
Proof.
  intros Ha Hb E. apply incl_antisym; apply image_incl; auto; rewrite E; intros x Hx; auto.
Qed.

Lemma renamed_slice q : forall q' S, (forall x, mentions x q -> x < number_of_nodes f) -> renamed p q q' -> within S ->
  is_quorum_slice q' (image p S) = is_quorum_slice q S.
Proof.
  induction q as [t vs is_ IH] using qset_ind'. intros q' S Hm Hren HS.
  inversion Hren as [? ? vs' ? is1 is' Pv Fi Pi]; subst. apply eq_true_iff_eq. rewrite !is_quorum_slice_matches. unfold matches.
  rewrite <- (filter_perm_length (fun x => mem x (image p S)) _ _ Pv), <- (filter_perm_length (fun i => is_quorum_slice i (image p S)) _ _ Pi).
  assert (E1 : List.length (filter (fun x => mem x (image p S)) (map p vs)) = List.length (filter (fun x => mem x S) vs)).
  { assert (Hv : forall v, In v vs -> v < number_of_nodes f) by (intros v Hv; apply Hm; constructor; auto).
    clear - Hv HS Hr. induction vs as [|v vs IH]; simpl; auto. rewrite mem_image_p; auto; [|apply Hv; left; auto].
    destruct (mem v S); simpl; rewrite IH; auto; intros; apply Hv; right; auto. }
  rewrite E1, (forall2_filter_length (renamed p) (fun i => is_quorum_slice i S) (fun i => is_quorum_slice i (image p S)) is_ is1 Fi); [tauto|].
  intros i i' Hi Hii. apply IH; auto. intros x Hx. apply Hm. eapply mentions_inner; eauto.
Qed.

Lemma quorum_image S : within S -> (quorum f S <-> quorum g (image p S)).
Proof.
  intro HS.
  assert (Hsat : forall x, x < number_of_nodes f -> sat g (p x) (image p S) = sat f x S).
  { intros x Hx. assert (Hn := qset_of_node f x Hx). destruct Hr as (_ & _ & _ & H). destruct (H x _ Hn) as (q' & Hq' & Hren).
    unfold sat. rewrite (node_of_qset_of g (p x) q' Hq'). apply renamed_slice; auto. intros y Hy. eapply Hf; eauto. }
  rewrite !quorum_closed. split.
  - intros [(x & Hx) Hc]. split.
    + exists (p x). apply mem_image. eauto.
    + intros y Hy. apply mem_image in Hy. destruct Hy as (z & Hz & ->). rewrite Hsat; [apply Hc; auto|]. apply (within_lt S); auto.
  - intros [(y & Hy) Hc]. apply mem_image in Hy. destruct Hy as (x & Hx & ->). split.
    + exists x; auto.
    + intros z Hz. rewrite <- Hsat; [|apply (within_lt S); auto]. apply Hc. apply mem_image. eauto.
Qed.

Lemma quorum_within S : quorum f S -> within S. Proof. intro H. apply quorum_nodes; auto. Qed.

(** properties of sets that correspond *)
Lemma minimal_image (P P' : bset -> Prop) : (forall S, within S -> (P S <-> P' (image p S))) ->
  forall S, within S -> (minimal P S <-> minimal P' (image p S)).
Proof.
  intros H S HS. split; intros [H1 H2]; split.
  - apply H; auto.
  - intros S' HS' Hi. assert (Hg : incl_set S' (all_nodes g)) by (intros x Hx; apply (image_within S); auto).
    rewrite <- (image_preimage S' Hg) in *. assert (Hw := preimage_within S'). apply H in HS'; auto.
    f_equal. apply H2; auto. apply image_incl; auto.
  - apply H; auto.
  - intros S' HS' Hi. assert (Hw : within S') by (intros x Hx; auto). apply image_inj; auto. apply H2; [apply H; auto|]. apply image_mono; auto.
Qed.

Lemma minimal_quorum_image S : within S -> (minimal_quorum f S <-> minimal_quorum g (image p S)).
Proof. apply minimal_image. apply quorum_image. Qed.

Lemma meets_image a b : within a -> within b -> (meets a b <-> meets (image p a) (image p b)).
Proof.
  intros Ha Hb. split.
  - intros (x & H1 & H2). exists (p x). split; apply mem_image; eauto.
  - intros (y & H1 & H2). apply mem_image in H1. destruct H1 as (x & H1 & ->). exists x. split; auto.
    rewrite <- (mem_image_p b x); auto. apply (within_lt a); auto.
Qed.

Lemma quorum_from_image Q' : quorum g Q' -> exists Q, within Q /\ Q' = image p Q /\ quorum f Q.
Proof.
  intro H. assert (Hg := quorum_nodes g Q' H). exists (preimage Q').
  assert (Hw := preimage_within Q'). split; auto. rewrite image_preimage by auto. split; auto.
  apply quorum_image; auto. rewrite image_preimage; auto.
Qed.

Lemma minimal_quorum_from_image Q' : minimal_quorum g Q' -> exists Q, within Q /\ Q' = image p Q /\ minimal_quorum f Q.
Proof.
  intro H. destruct (quorum_from_image Q' (proj1 H)) as (Q & Hw & -> & _). exists Q. split; auto. split; auto. apply minimal_quorum_image; auto.
Qed.

Lemma blocking_image B : within B -> (blocking f B <-> blocking g (image p B)).
Proof.
  intro HB. split.
  - intros H Q' HQ'. destruct (quorum_from_image Q' HQ') as (Q & Hw & -> & HQ). apply (proj1 (meets_image B Q HB Hw)); auto.
  - intros H Q HQ. assert (Hw := quorum_within Q HQ). apply (proj2 (meets_image B Q HB Hw)). apply H. apply quorum_image; auto.
Qed.

Lemma splitting_image S : within S -> (splitting f S <-> splitting g (image p S)).
Proof.
  intro HS. split.
  - intros (Q1 & Q2 & H1 & H2 & Hne & Hi). assert (W1 := quorum_within Q1 (proj1 H1)). assert (W2 := quorum_within Q2 (proj1 H2)).
    exists (image p Q1), (image p Q2). split; [apply minimal_quorum_image; auto|]. split; [apply minimal_quorum_image; auto|]. split.
    + intro E. apply Hne. apply image_inj; auto.
    + intros y Hy1 Hy2. apply mem_image in Hy1. destruct Hy1 as (x & Hx & ->). rewrite mem_image_p in *; auto; apply (within_lt Q1); auto.
  - intros (Q1' & Q2' & H1 & H2 & Hne & Hi).
    destruct (minimal_quorum_from_image Q1' H1) as (Q1 & W1 & -> & M1). destruct (minimal_quorum_from_image Q2' H2) as (Q2 & W2 & -> & M2).
    exists Q1, Q2. split; auto. split; auto. split; [congruence|]. intros x Hx1 Hx2.
    assert (Hx := within_lt Q1 x W1 Hx1). rewrite <- (mem_image_p S x); auto. apply Hi; rewrite mem_image_p; auto.
Qed.

Lemma renamed_mentions q : forall q' y, renamed p q q' -> mentions y q' -> exists x, mentions x q /\ y = p x.
Proof.
  induction q as [t vs is_ IH] using qset_ind'. intros q' y Hren Hy. inversion Hren as [? ? vs' ? is1 is' Pv Fi Pi]; subst.
  apply mentions_inv in Hy. destruct Hy as [Hy|(i' & Hi' & Hy)].
  - apply (Permutation_in _ (Permutation_sym Pv)) in Hy. apply in_map_iff in Hy. destruct Hy as (x & <- & Hx). exists x. split; auto. constructor; auto.
  - apply (Permutation_in _ (Permutation_sym Pi)) in Hi'. destruct (Forall2_in_r _ _ _ i' Fi Hi') as (i & Hi & Hii).
    destruct (IH i Hi i' y Hii Hy) as (x & Hx & ->). exists x. split; auto. eapply mentions_inner; eauto.
Qed.

Lemma renumbering_wf : wf_fbas g.
Proof.
  intros x q y Hx Hy. assert (Hlt := node_of_range g x q Hx). destruct Hr as (En & H1 & H2 & H3). rewrite En in *.
  destruct (p_onto x Hlt) as (z & Hz & <-). assert (Hn := qset_of_node f z Hz). destruct (H3 z _ Hn) as (q' & Hq' & Hren).
  assert (q' = q) by (eapply node_of_fun; eauto). subst q'.
  destruct (renamed_mentions _ q y Hren Hy) as (w & Hw & ->). apply H1. eapply Hf; eauto.
Qed.

Lemma intersection_image : quorum_intersection f <-> quorum_intersection g.
Proof.
  split; intros [(Q & HQ) H]; split.
  - exists (image p Q). apply quorum_image; auto. apply quorum_within; auto.
  - intros Q1' Q2' H1 H2. destruct (quorum_from_image Q1' H1) as (Q1 & W1 & -> & M1). destruct (quorum_from_image Q2' H2) as (Q2 & W2 & -> & M2).
    apply (proj1 (meets_image Q1 Q2 W1 W2)); auto.
  - destruct (quorum_from_image Q HQ) as (Q0 & _ & _ & H0). eauto.
  - intros Q1 Q2 H1 H2. assert (W1 := quorum_within Q1 H1). assert (W2 := quorum_within Q2 H2). apply (proj2 (meets_image Q1 Q2 W1 W2)). apply H; apply quorum_image; auto.
Qed.

Lemma lists_image (P P' : bset -> Prop) l l' :
  (forall S, P S -> within S) -> (forall S', P' S' -> incl_set S' (all_nodes g)) ->
  (forall S, within S -> (P S <-> P' (image p S))) ->
  (forall S, In S l <-> P S) -> (forall S, In S l' <-> P' S) -> same_sets_under p l l'.
Proof.
  intros Hw Hw' H Hl Hl' S'. rewrite Hl'. split.
  - intro HS. assert (Hg := Hw' S' HS). exists (preimage S'). rewrite image_preimage by auto. split; auto.
    apply Hl. apply H; [apply preimage_within|]. rewrite image_preimage; auto.
  - intros (S & HS & ->). apply Hl in HS. apply H; auto.
Qed.
End Renumber.

Lemma renumber_quorums E E' p f g : ext_ok E -> ext_ok E' -> wf_fbas f -> renumbering p f g ->
  exists l l', find_minimal_quorums E f = Ok l /\ find_minimal_quorums E' g = Ok l' /\ same_sets_under p l l'.
Proof.
  intros HE HE' Hwf Hr. destruct (find_minimal_quorums_spec E HE f Hwf) as (l & El & Hl & _).
  destruct (find_minimal_quorums_spec E' HE' g (renumbering_wf p f g Hwf Hr)) as (l' & El' & Hl' & _).
  exists l, l'. split; auto. split; auto. apply (lists_image p f g Hr (minimal_quorum f) (minimal_quorum g)); auto.
  - intros S HS. apply quorum_nodes. apply HS.
  - intros S HS. apply quorum_nodes. apply HS.
  - intros S HS. apply minimal_quorum_image; auto.
Qed.

Lemma renumber_quorum_ex p f g : wf_fbas f -> renumbering p f g -> (exists Q, quorum f Q) -> exists Q, quorum g Q.
Proof.
  intros Hwf Hr (Q & HQ). exists (image p Q). apply (quorum_image p f g); auto. apply quorum_nodes; auto.
Qed.

Lemma renumber_blocking E E' p f g : ext_ok E -> ext_ok E' -> wf_fbas f -> renumbering p f g ->
  (forall q, satisfiable_cluster f q -> no_repetitions q /\ sane q) ->
  (forall q, satisfiable_cluster g q -> no_repetitions q /\ sane q) ->
  (exists Q, quorum f Q) ->
  exists l l', find_minimal_blocking_sets E f = Ok l /\ find_minimal_blocking_sets E' g = Ok l' /\ same_sets_under p l l'.
Proof.
  intros HE HE' Hwf Hr Hg1 Hg2 Hex. assert (Hwg := renumbering_wf p f g Hwf Hr).
  destruct (find_minimal_blocking_sets_spec E HE f Hwf Hg1 Hex) as (l & El & _ & Hl).
  destruct (find_minimal_blocking_sets_spec E' HE' g Hwg Hg2 (renumber_quorum_ex p f g Hwf Hr Hex)) as (l' & El' & _ & Hl').
  exists l, l'. split; auto. split; auto. apply (lists_image p f g Hr (minimal_blocking f) (minimal_blocking g)); auto.
  - intros S HS x Hx. apply mem_all_nodes. eapply minimal_blocking_in_range; eauto.
  - intros S HS x Hx. apply mem_all_nodes. eapply minimal_blocking_in_range; eauto.
  - intros S HS. apply (minimal_image p f g); auto. intros; apply blocking_image; auto.
Qed.

Lemma renumber_splitting E E' p f g mq mq' : ext_ok E -> ext_ok E' -> wf_fbas f -> renumbering p f g -> quorum_intersection f ->
  (forall q, satisfiable_cluster f q -> no_repetitions q /\ (splittable q \/ rigid q)) ->
  (forall q, satisfiable_cluster g q -> no_repetitions q /\ (splittable q \/ rigid q)) ->
  find_minimal_quorums E f = Ok mq -> find_minimal_quorums E' g = Ok mq' ->
  exists l l', find_minimal_splitting_sets E f mq = Ok l /\ find_minimal_splitting_sets E' g mq' = Ok l' /\ same_sets_under p l l'.
Proof.
  intros HE HE' Hwf Hr HQI Hg1 Hg2 Hmq Hmq'. assert (Hwg := renumbering_wf p f g Hwf Hr).
  destruct (find_minimal_quorums_spec E HE f Hwf) as (k & Ek & Hk & _ & Sk). rewrite Hmq in Ek. inversion Ek; subst k.
  destruct (find_minimal_quorums_spec E' HE' g Hwg) as (k' & Ek' & Hk' & _ & Sk'). rewrite Hmq' in Ek'. inversion Ek'; subst k'.
  destruct (find_minimal_splitting_sets_spec E HE f Hwf mq HQI) as (l & El & _ & Hl); auto.
  { apply sorted_before_nodup, Sk. intros q Hq. apply no_repetitions_nodup. apply Hg1; auto. }
  destruct (find_minimal_splitting_sets_spec E' HE' g Hwg mq') as (l' & El' & _ & Hl'); auto.
  { apply (intersection_image p f g); auto. }
  { apply sorted_before_nodup, Sk'. intros q Hq. apply no_repetitions_nodup. apply Hg2; auto. }
  exists l, l'. split; auto. split; auto. apply (lists_image p f g Hr (minimal_splitting f) (minimal_splitting g)); auto.
  - intros S HS x Hx. apply mem_all_nodes. eapply minimal_splitting_in_range; eauto.
  - intros S HS x Hx. apply mem_all_nodes. eapply minimal_splitting_in_range; eauto.
  - intros S HS. apply (minimal_image p f g); auto. intros; apply splitting_image; auto.
Qed.

Lemma renumber_intersection E E' p f g : ext_ok E -> ext_ok E' -> wf_fbas f -> renumbering p f g ->
  exists b, analyze E f [HasQuorumIntersection] = Ok [ABool b] /\ analyze E' g [HasQuorumIntersection] = Ok [ABool b].
Proof.
  intros HE HE' Hwf Hr. assert (Hwg := renumbering_wf p f g Hwf Hr).
  destruct (analyze_ok E HE f Hwf [HasQuorumIntersection]) as (a & Ea & Ca); [repeat constructor|].
  destruct (analyze_ok E' HE' g Hwg [HasQuorumIntersection]) as (a' & Ea' & Ca'); [repeat constructor|].
  inversion Ca as [|? x ? ? Hx Hn]; subst. destruct Hx as (b & -> & Hb). inversion Hn; subst.
  inversion Ca' as [|? x' ? ? Hx' Hn']; subst. destruct Hx' as (b' & -> & Hb'). inversion Hn'; subst.
  exists b. split; auto. rewrite Ea'. do 3 f_equal. apply eq_true_iff_eq. rewrite Hb, Hb'. symmetry. apply (intersection_image p f g); auto.
Qed.
