(** Proofs about [merge_quorum_set]: what satisfies a merged quorum set. *)
From Coq Require Import Lia.
From Verif Require Export P_MergeExact.
Local Open Scope list_scope.

Section Ok.
Context (f : fbas) (gs : list grouping) (G : groupings) (HG : groupings_ok f gs G)
        (Hr : groups_of f gs) (Hd : disjoint_groups gs).

Lemma single_reduced q q' : qset_of_fbas f q -> merge_quorum_set G q = Ok q' -> (reduced gs q <-> exists v, validators q' = [v]).
Proof.
  intros Hq Em. unfold reduced. split.
  - intros [x Hx]. apply (stands_for_iff_single f gs G HG Hr Hd q q' Hq Em) in Hx as (v & Hv & _). eauto.
  - intros [v Hv]. destruct (merge_mentions f gs G HG Hd q q' v Hq Em) as (y & Hy & Hrep).
    { destruct q'. cbn in Hv. subst. apply mentions_here. now left. }
    exists y. apply (stands_for_iff_single f gs G HG Hr Hd q q' Hq Em). exists v. auto.
Qed.
Lemma met_by_members q q' v R M : qset_of_fbas f q -> merge_quorum_set G q = Ok q' -> validators q' = [v] -> met gs q ->
  members_of f gs R M -> mem v R = true -> is_quorum_slice q M = true.
Proof.
  intros Hq Em Hv Hmet HM HvR. destruct (proj2 (single_reduced q q' Hq Em) (ex_intro _ v Hv)) as [x Hx].
  pose proof (proj1 (stands_for_iff_single f gs G HG Hr Hd q q' Hq Em x) Hx) as (w & Hw & Hlt & Hrep).
  assert (w = v) by congruence. subst w. apply is_quorum_slice_iff.
  refine (slice_mono _ _ q _ (Hmet x Hx)). intros y Hy. apply HM.
  assert (Hy' : together gs y x) by (destruct Hy as [->|(g & H1 & H2 & H3)]; [now left|right; exists g; auto]).
  apply (together_represents f gs G HG Hr Hd v y x) in Hy' as [Hly Hry]; auto. split; auto. exists v. auto.
Qed.

Lemma matches_back t vs is_ vs' is' R M : qset_of_fbas f (QS t vs is_) -> members_of f gs R M ->
  Forall2 (fun x r => represents gs r x) vs vs' -> Forall2 (fun i i' => merge_quorum_set G i = Ok i') is_ is' ->
  (forall i, In i is_ -> met gs i) ->
  (forall i i', In i is_ -> merge_quorum_set G i = Ok i' -> single i' = false -> is_quorum_slice i' R = true -> is_quorum_slice i M = true) ->
  matches R (vs' ++ heads is') (filter (fun i => negb (single i)) is') <= matches M vs is_.
Proof.
  intros Hq HM HF Ei Hmet Hi. unfold matches. rewrite filter_app, app_length.
  assert (H1 : List.length (filter (fun x => mem x R) vs') <= List.length (filter (fun x => mem x M) vs)).
  { assert (Hv : forall x, In x vs -> x < number_of_nodes f) by (intros x Hx; apply Hq; now left). clear -HF HM Hv.
    induction HF as [|x r vs vs' Hrep HF IH]; [cbn; lia|]. cbn.
    assert (IH' := IH (fun y Hy => Hv y (or_intror Hy))). destruct (mem r R) eqn:Er; [|destruct (mem x M); cbn; lia].
    assert (mem x M = true) as -> by (apply HM; split; [apply Hv; now left|eauto]). cbn. lia. }
  assert (H2 : List.length (filter (fun x => mem x R) (heads is')) + List.length (filter (fun i => is_quorum_slice i R) (filter (fun i => negb (single i)) is')) <=
               List.length (filter (fun i => is_quorum_slice i M) is_)); [|lia].
  assert (Hqi : forall i, In i is_ -> qset_of_fbas f i) by (intros i H; eapply qset_of_fbas_inner; eauto).
  unfold heads. clear H1 HF Hq. induction Ei as [|i i' l l' Em Ei IHl]; [cbn; lia|].
  assert (IHl' := IHl (fun j Hj => Hmet j (or_intror Hj)) (fun j j' Hj => Hi j j' (or_intror Hj)) (fun j Hj => Hqi j (or_intror Hj))).
  cbn [filter]. destruct (single i') eqn:E1; cbn [negb flat_map filter].
  - apply single_spec in E1 as (t' & v & is2 & ->). cbn [validators]. rewrite filter_app, app_length. cbn [filter].
    destruct (mem v R) eqn:Ev; [|destruct (is_quorum_slice i M); cbn [List.length]; lia].
    rewrite (met_by_members i _ v R M (Hqi i (or_introl eq_refl)) Em eq_refl (Hmet i (or_introl eq_refl)) HM Ev). cbn [List.length]. lia.
  - destruct (is_quorum_slice i' R) eqn:Er; [|destruct (is_quorum_slice i M); cbn [List.length]; lia].
    rewrite (Hi i i' (or_introl eq_refl) Em E1 Er). cbn [List.length]. lia.
Qed.

Lemma back_unreduced q : forall q' R M, qset_of_fbas f q -> (forall i, inside i q -> met gs i) -> merge_quorum_set G q = Ok q' ->
  members_of f gs R M -> single q' = false -> is_quorum_slice q' R = true -> is_quorum_slice q M = true.
Proof.
  induction q as [t vs is_ IH] using qset_ind'. intros q' R M Hq Hmet Em HM Es Hs.
  apply merge_quorum_set_inv in Em as (vs' & is' & Ev & Ei & ->).
  destruct (merge_nodes_ok f gs G HG Hd vs) as (vs2 & Ev2 & HF); [intros y Hy; apply Hq; now left|]. rewrite Ev in Ev2. inversion Ev2; subst vs2.
  apply mapM_inv in Ei.
  destruct (collapse_cases t (vs' ++ heads is') (filter (fun i => negb (single i)) is')) as [[E _]|(v & _ & _ & E)]; rewrite E in Es, Hs; [|discriminate].
  apply is_quorum_slice_matches in Hs as [Ht Hm]. apply is_quorum_slice_matches. split; auto.
  eapply Nat.le_trans; [exact Hm|]. apply (matches_back t); auto.
  - intros i Hi. apply Hmet. now apply inside_here.
  - intros i i' Hi Em E1. refine (IH i Hi i' R M _ _ Em HM E1).
    + eapply qset_of_fbas_inner; eauto.
    + intros j Hj. apply Hmet. eapply inside_deeper; eauto.
Qed.

Lemma back q q' R M : qset_of_fbas f q -> (forall i, inside i q -> met gs i) -> met gs q -> wholly gs q -> merge_quorum_set G q = Ok q' ->
  members_of f gs R M -> is_quorum_slice q' R = true -> is_quorum_slice q M = true.
Proof.
  intros Hq Hin Hmet Hw Em HM Hs. destruct (single q') eqn:E1; [|eapply back_unreduced; eauto].
  apply single_spec in E1 as (t' & v & is2 & ->). assert (is2 = []) as ->.
  { assert (Hred : reduced gs q) by (apply (single_reduced q _ Hq Em); exists v; reflexivity).
    specialize (Hw Hred). destruct q as [t vs is_]. apply merge_quorum_set_inv in Em as (vs' & is' & _ & Ei & Ec).
    assert (is2 = filter (fun i => negb (single i)) is') as ->.
    { pose proof (collapse_inner t (vs' ++ heads is') (filter (fun i => negb (single i)) is')) as H. rewrite <- Ec in H. now cbn in H. }
    apply mapM_inv in Ei. cbn in Hw.
    assert (Hqi : forall i, In i is_ -> qset_of_fbas f i) by (intros i H; eapply qset_of_fbas_inner; eauto).
    clear -Ei Hw Hqi HG Hd Hr. induction Ei as [|i i' l l' Em Ei IH]; [reflexivity|]. cbn [filter].
    destruct (proj1 (single_reduced i i' (Hqi i (or_introl eq_refl)) Em) (Hw i (or_introl eq_refl))) as [w Ew].
    assert (single i' = true) as -> by (unfold single; now rewrite Ew). cbn. apply IH; intros; [apply Hw|apply Hqi]; now right. }
  apply is_quorum_slice_matches in Hs as [Ht Hm]. unfold matches in Hm. cbn in Hm. destruct (mem v R) eqn:Ev.
  - now apply (met_by_members q _ v R M Hq Em eq_refl).
  - cbn in Hm. lia.
Qed.
End Ok.

Lemma image_members f gs S R : groups_of f gs -> disjoint_groups gs -> (forall x, mem x S = true -> x < number_of_nodes f) ->
  whole_groups gs S -> group_image gs S R -> members_of f gs R S.
Proof.
  intros Hr Hd HS Hw HR x. destruct (groupings_new_ok f gs Hr Hd) as (G & _ & HG). split.
  - intros Hx. split; auto. destruct (merge_node_total f gs G HG Hd x (HS x Hx)) as (r & _ & Hrep). exists r. split; auto. apply HR. eauto.
  - intros (Hlt & r & Hrep & Hin). apply HR in Hin as (y & Hy & HyS). apply (Hw y x HyS).
    apply (together_represents f gs G HG Hr Hd r y x); auto.
Qed.
Lemma merged_same f gs q : groups_of f gs -> disjoint_groups gs -> ids_known f q ->
  (forall i, inside i q -> kept gs i) -> (forall i, inside i q -> met gs i) -> met gs q -> wholly gs q ->
  forall S : bset, (forall x, mem x S = true -> x < number_of_nodes f) -> whole_groups gs S ->
  exists G q' R, groupings_new gs f = Ok G /\ merge_quorum_set G q = Ok q' /\ merge_node_set G S = Ok R /\
    group_image gs S R /\ (slice (fun x => mem x S = true) q <-> slice (fun x => mem x R = true) q').
Proof.
  intros Hr Hd Hq Hk Hm Hmq Hw S HS HwS. destruct (groupings_new_ok f gs Hr Hd) as (G & EG & HG).
  destruct (merge_quorum_set_total f gs G HG Hd q Hq) as [q' Eq']. destruct (merge_node_set_spec f gs G HG Hd S HS) as (R & ER & HR).
  exists G, q', R. split; auto. split; auto. split; auto. split; auto. rewrite <- !is_quorum_slice_iff. split; intros H.
  - now apply (preserves_kept f gs G HG Hr Hd q q' S R Hq).
  - apply (back f gs G HG Hr Hd q q' R S); auto. now apply image_members.
Qed.
Lemma flat_met gs t vs : 1 <= t <= List.length vs -> met gs (QS t vs []).
Proof.
  intros [H1 H2] x Hx. apply stands_for_iff in Hx as [_ Hall].
  apply slice_intro with (vs' := vs) (is' := []); auto using subseq_refl; [|intros ? []|cbn; lia].
  intros v Hv. apply Hall. now left.
Qed.
Lemma merged_two_level f gs q : groups_of f gs -> disjoint_groups gs -> ids_known f q -> two_level q ->
  (forall i, In i (inner_quorum_sets q) -> 1 <= threshold i <= List.length (validators i)) -> ~ reduced gs q ->
  forall S : bset, (forall x, mem x S = true -> x < number_of_nodes f) -> whole_groups gs S ->
  exists G q' R, groupings_new gs f = Ok G /\ merge_quorum_set G q = Ok q' /\ merge_node_set G S = Ok R /\
    group_image gs S R /\ (slice (fun x => mem x S = true) q <-> slice (fun x => mem x R = true) q').
Proof.
  intros Hr Hd Hq H2 Ht Hn. apply merged_same; auto.
  - apply (separable_kept f); auto. now apply two_level_separable.
  - intros i Hi. inversion Hi as [t vs is_ Hin|t vs is_ j Hj Hin]; subst; specialize (H2 _ ltac:(eassumption)).
    + specialize (Ht i Hin). destruct H2. now apply flat_met.
    + destruct H2. inversion Hin; subst; contradiction.
  - intros x Hx. exfalso. apply Hn. now exists x.
  - intros Hx. contradiction.
Qed.

(** three of three become one of two *)
Definition three_of_three : qset := QS 3 [0;1] [QS 1 [2;3] []].
Definition first_two : list grouping := [mk_grouping "a"%string [0;1]].
Lemma first_two_ok : groups_of flat first_two /\ disjoint_groups first_two.
Proof.
  split.
  - intros g x [<-|[]] [<-|[<-|[]]]; vm_compute; lia.
  - intros i j gi gj x Hi Hj _ _. destruct i as [|[|i]], j as [|[|j]]; cbn in *; congruence.
Qed.
Lemma merging_weakens : exists G q' R, groupings_new first_two flat = Ok G /\ merge_quorum_set G three_of_three = Ok q' /\
  merge_node_set G (of_list [2]) = Ok R /\ q' = QS 1 [0] [QS 1 [2;3] []] /\
  whole_groups first_two (of_list [2]) /\ ~ slice (fun x => mem x (of_list [2]) = true) three_of_three /\ slice (fun x => mem x R = true) q'.
Proof.
  do 3 eexists. split; [vm_compute; reflexivity|]. split; [vm_compute; reflexivity|]. split; [vm_compute; reflexivity|]. split; [reflexivity|].
  split; [|split].
  - intros x y Hx [<-|(g & [<-|[]] & [<-|[<-|[]]] & _)]; auto; vm_compute in Hx; discriminate.
  - rewrite <- is_quorum_slice_iff. vm_compute. discriminate.
  - apply is_quorum_slice_iff. vm_compute. reflexivity.
Qed.
Lemma known_in_flat q : forallb (fun x => x <? number_of_nodes flat) (elements (contained_nodes q)) = true -> ids_known flat q.
Proof.
  intros Hb x Hx. apply contained_nodes_spec in Hx. rewrite forallb_forall in Hb. apply Nat.ltb_lt. apply Hb. now apply elements_spec.
Qed.
Lemma merging_weakened : exists f gs q (S : bset) G q' R, groups_of f gs /\ disjoint_groups gs /\ ids_known f q /\
  (forall x, mem x S = true -> x < number_of_nodes f) /\ whole_groups gs S /\
  groupings_new gs f = Ok G /\ merge_quorum_set G q = Ok q' /\ merge_node_set G S = Ok R /\
  q = QS 3 [0;1] [QS 1 [2;3] []] /\ q' = QS 1 [0] [QS 1 [2;3] []] /\
  ~ slice (fun x => mem x S = true) q /\ slice (fun x => mem x R = true) q'.
Proof.
  destruct merging_weakens as (G & q' & R & H1 & H2 & H3 & H4 & H5 & H6 & H7). exists flat, first_two, three_of_three, (of_list [2]), G, q', R.
  destruct first_two_ok as [Ha Hb]. split; auto. split; auto. split; [apply known_in_flat; vm_compute; reflexivity|].
  split; [|split; [|repeat split]]; auto.
  intros x Hx. rewrite mem_of_list in Hx. destruct Hx as [<-|[]]. vm_compute. lia.
Qed.

(** an organization that counts as one of three *)
Definition two_and_group : qset := QS 2 [2;3] [QS 2 [0;1] []].
Lemma two_and_group_ok : groups_of flat first_two /\ disjoint_groups first_two /\ ids_known flat two_and_group /\ two_level two_and_group /\
  ~ reduced first_two two_and_group /\ whole_groups first_two (of_list [0;1;2]) /\
  slice (fun x => mem x (of_list [0;1;2]) = true) two_and_group /\
  exists G, groupings_new first_two flat = Ok G /\ merge_quorum_set G two_and_group = Ok (QS 2 [2;3;0] []).
Proof.
  destruct first_two_ok as [Ha Hb]. split; auto. split; auto. split; [apply known_in_flat; vm_compute; reflexivity|].
  split; [intros i [<-|[]]; constructor|]. split; [|split; [|split]].
  - intros [x Hx]. apply stands_for_iff in Hx as [_ H].
    assert (H2 : together first_two x 2) by (apply H; left; now left). assert (H3 : together first_two x 3) by (apply H; left; right; now left).
    destruct (together_meet flat first_two 2 3 x Ha Hb H2 H3) as [E|(g & [<-|[]] & [E|[E|[]]] & _)]; discriminate.
  - intros x y Hx [<-|(g & [<-|[]] & _ & [<-|[<-|[]]])]; auto; vm_compute; reflexivity.
  - apply is_quorum_slice_iff. vm_compute. reflexivity.
  - eexists. split; vm_compute; reflexivity.
Qed.

Lemma merge_lone f gs G i q' x : groupings_ok f gs G -> groups_of f gs -> disjoint_groups gs -> ids_known f i -> stands_for gs i x ->
  merge_quorum_set G (QS 1 [] [i]) = Ok q' -> exists v, q' = QS 1 [v] [] /\ x < number_of_nodes f /\ represents gs v x.
Proof.
  intros HG Hr Hd Hi Hst Em. destruct (merge_quorum_set_total f gs G HG Hd i Hi) as [i' Ei].
  pose proof (proj1 (stands_for_iff_single f gs G HG Hr Hd i i' Hi Ei x) Hst) as (v & Hv & Hx & Hrep).
  apply merge_quorum_set_inv in Em as (vs' & is' & Ev & Eis & ->). cbn in Ev, Eis. rewrite Ei in Eis. cbn in Eis.
  inversion Ev; inversion Eis; subst. exists v. split; auto. unfold heads. cbn [filter].
  assert (single i' = true) as -> by (unfold single; now rewrite Hv). cbn [negb flat_map app]. rewrite Hv. cbn. now rewrite Nat.eqb_refl.
Qed.
Lemma lone_slice (P : nat -> Prop) i : slice P (QS 1 [] [i]) <-> slice P i.
Proof.
  split; intros H.
  - inversion H as [t vs is_ vs' is' Ht Hv Hi Hv' Hi' Hc]; subst. assert (vs' = []) by (inversion Hv; auto). subst.
    destruct is' as [|j is']; [cbn in Hc; lia|]. assert (In j [i]) as [<-|[]] by (eapply subseq_in; [exact Hi|now left]).
    apply Hi'. now left.
  - apply slice_intro with (vs' := []) (is' := [i]); auto using subseq_refl; [intros ? []|intros j [<-|[]]; auto].
Qed.
(** the group of a node as a set *)
Lemma group_set f gs x : groups_of f gs -> disjoint_groups gs -> x < number_of_nodes f ->
  exists S : bset, forall y, mem y S = true <-> together gs x y.
Proof.
  intros Hr Hd Hx. destruct (groupings_new_ok f gs Hr Hd) as (G & _ & HG). destruct (merge_node_total f gs G HG Hd x Hx) as (v & Ev & Hrep).
  exists (of_list (filter (fun y => match merge_node G y with Ok w => w =? v | Panic => false end) (seq 0 (number_of_nodes f)))).
  intros y. rewrite mem_of_list, filter_In, in_seq.
  assert (Hsym : together gs x y <-> together gs y x).
  { split; (intros [->|(g & H1 & H2 & H3)]; [now left|right; exists g; auto]). }
  rewrite Hsym, (together_represents f gs G HG Hr Hd v y x Hx Hrep). split.
  - intros [[_ Hy] E]. cbn in Hy. split; auto. apply (merge_node_represents f gs G HG Hd y v Hy).
    destruct (merge_node G y) as [w|]; [|discriminate]. apply Nat.eqb_eq in E. now subst.
  - intros [Hy Hry]. split; [lia|]. apply (merge_node_represents f gs G HG Hd y v Hy) in Hry. rewrite Hry. apply Nat.eqb_refl.
Qed.
Lemma together_sym gs x y : together gs x y -> together gs y x.
Proof. intros [->|(g & H1 & H2 & H3)]; [now left|right; exists g; auto]. Qed.

Lemma same_met f gs i : groups_of f gs -> disjoint_groups gs -> ids_known f i -> same_when_merged f gs (QS 1 [] [i]) -> met gs i.
Proof.
  intros Hr Hd Hi Hs x Hx. destruct (groupings_new_ok f gs Hr Hd) as (G & EG & HG).
  destruct (merge_quorum_set_total f gs G HG Hd i Hi) as [i' Ei].
  pose proof (proj1 (stands_for_iff_single f gs G HG Hr Hd i i' Hi Ei x) Hx) as (_ & _ & Hlt & _).
  destruct (group_set f gs x Hr Hd Hlt) as [S HS].
  destruct (Hs S) as (G' & q' & R & EG' & Em & ER & HR & Hiff).
  - intros y Hy. apply HS in Hy. apply (together_bound f gs Hr y x Hlt). now apply together_sym.
  - intros y z Hy Hz. apply HS. apply HS in Hy. apply (together_meet f gs x z y); auto. now apply together_sym.
  - rewrite EG in EG'. inversion EG'; subst G'. destruct (merge_lone f gs G i q' x HG Hr Hd Hi Hx Em) as (v & -> & _ & Hrep).
    apply (slice_mono (fun y => mem y S = true)); [intros y; apply HS|]. apply lone_slice, Hiff.
    apply slice_intro with (vs' := [v]) (is' := []); auto using subseq_refl; [|intros ? []].
    intros w [<-|[]]. apply HR. exists x. split; auto. apply HS. now left.
Qed.
Lemma same_kept f gs i : groups_of f gs -> disjoint_groups gs -> ids_known f i -> same_when_merged f gs (QS 1 [] [i]) -> kept gs i.
Proof.
  intros Hr Hd Hi Hs x S Hx Hsl. destruct (groupings_new_ok f gs Hr Hd) as (G & EG & HG).
  destruct (merge_quorum_set_total f gs G HG Hd i Hi) as [i' Ei].
  pose proof (proj1 (stands_for_iff_single f gs G HG Hr Hd i i' Hi Ei x) Hx) as (_ & _ & Hlt & _).
  (* all nodes of the groups in S *)
  set (S0 := inter S (all_nodes f)).
  assert (HS0 : forall y, mem y S0 = true <-> mem y S = true /\ y < number_of_nodes f).
  { intros y. unfold S0. rewrite mem_inter, andb_true_iff, mem_all_nodes. tauto. }
  assert (HW : exists W : bset, forall y, mem y W = true <-> exists z, mem z S0 = true /\ together gs z y).
  { assert (Hb : forall l, (forall z, In z l -> z < number_of_nodes f) -> exists W : bset, forall y, mem y W = true <-> exists z, In z l /\ together gs z y).
    { induction l as [|z l IH]; intros Hl.
      - exists bempty. intros y. rewrite mem_empty. split; [discriminate|]. intros (z & [] & _).
      - destruct IH as [W HW]; [intros; apply Hl; now right|]. destruct (group_set f gs z Hr Hd (Hl z (or_introl eq_refl))) as [Z HZ].
        exists (union Z W). intros y. rewrite mem_union, orb_true_iff, HZ, HW. split.
        + intros [H|(z' & Hz' & H)]; [exists z; split; auto; now left|exists z'; split; auto; now right].
        + intros (z' & [<-|Hz'] & H); eauto. }
    destruct (Hb (elements S0)) as [W HW].
    - intros z Hz. apply elements_spec, HS0 in Hz. tauto.
    - exists W. intros y. rewrite HW. split; intros (z & Hz & H); exists z; (split; [now apply elements_spec|auto]). }
  destruct HW as [W HW].
  destruct (Hs W) as (G' & q' & R & EG' & Em & ER & HR & Hiff).
  - intros y Hy. apply HW in Hy as (z & Hz & Ht). apply HS0 in Hz as [_ Hz]. apply (together_bound f gs Hr y z Hz). now apply together_sym.
  - intros y z Hy Hz. apply HW in Hy as (u & Hu & Ht). apply HW. exists u. split; auto. apply (together_meet f gs u z y); auto. now apply together_sym.
  - rewrite EG in EG'. inversion EG'; subst G'. destruct (merge_lone f gs G i q' x HG Hr Hd Hi Hx Em) as (v & -> & _ & Hrep).
    assert (HsW : slice (fun y => mem y W = true) (QS 1 [] [i])).
    { apply lone_slice. refine (slice_local_pred _ _ i _ Hsl). intros y Hm Hy. apply HW. exists y. split; [|now left]. apply HS0. split; auto. }
    apply Hiff, is_quorum_slice_iff, is_quorum_slice_matches in HsW as [_ Hm]. unfold matches in Hm. cbn in Hm.
    destruct (mem v R) eqn:Ev; [|cbn in Hm; lia]. apply HR in Ev as (y & Hry & Hy). apply HW in Hy as (z & Hz & Ht).
    apply HS0 in Hz as [Hz Hzl]. exists z. split; auto.
    assert (Hyl : y < number_of_nodes f) by (apply (together_bound f gs Hr y z Hzl); now apply together_sym).
    apply (together_meet f gs x z y); auto; [|now apply together_sym].
    apply (together_represents f gs G HG Hr Hd v y x); auto.
Qed.

Lemma lone_stands gs i x : stands_for gs (QS 1 [] [i]) x -> exists y, stands_for gs i y /\ together gs x y.
Proof.
  intros H. apply stands_for_iff in H as [(y & Hy) H]. pose proof (H y Hy) as Ht. destruct Hy as [[]|(j & [<-|[]] & Hy)]. eauto.
Qed.
Lemma lone_same f gs i : groups_of f gs -> disjoint_groups gs -> ids_known f i ->
  (forall j, inside j i -> kept gs j /\ met gs j) -> kept gs i -> met gs i -> same_when_merged f gs (QS 1 [] [i]).
Proof.
  intros Hr Hd Hi Hin Hk Hm.
  assert (Hall : forall j, inside j (QS 1 [] [i]) -> kept gs j /\ met gs j).
  { intros j Hj. inversion Hj as [? ? ? H|? ? ? k Hk' H]; subst; [destruct H as [<-|[]]; auto|]. destruct Hk' as [<-|[]]. auto. }
  intros S HS HwS. apply merged_same; auto.
  - intros x Hx. apply mentions_inv in Hx as [[]|(j & [<-|[]] & Hx)]. auto.
  - intros j Hj. now apply Hall.
  - intros j Hj. now apply Hall.
  - intros x Hx. apply lone_slice. destruct (lone_stands gs i x Hx) as (y & Hy & Ht).
    apply (slice_mono (together gs y)); [|now apply Hm]. intros z Hz. apply (together_meet f gs x z y); auto. now apply together_sym.
  - intros [x Hx] j [<-|[]]. destruct (lone_stands gs i x Hx) as (y & Hy & _). now exists y.
Qed.
Lemma same_exact f gs q : groups_of f gs -> disjoint_groups gs -> ids_known f q ->
  ((forall i, inside i q -> kept gs i /\ met gs i) <-> (forall i, inside i q -> same_when_merged f gs (QS 1 [] [i]))).
Proof.
  intros Hr Hd Hq. split; intros H i Hi; pose proof (ids_known_inside f i q Hi Hq) as Hk.
  - apply lone_same; auto; try (now apply H). intros j Hj. apply H. eapply inside_trans; eauto.
  - split; [apply (same_kept f)|apply (same_met f)]; auto.
Qed.

(** what is shown for a symmetric cluster of which every quorum contains nodes 0 and 1 *)
Definition tight : fbas := sample [three_of_three; three_of_three; three_of_three; three_of_three].
Lemma shown_weaker : exists f gs q G p, wf_fbas f /\ groups_of f gs /\ disjoint_groups gs /\
  analyze std_ext f [SymmetricClusters] = Ok [AQsets [q]] /\ groupings_new gs f = Ok G /\ into_pretty_quorum_set q f (Some G) = Ok p /\
  p = PQS 1 ["a"%string] [PQS 1 ["n2"%string; "n3"%string] []] /\
  forall Q, quorum f Q -> mem 0 Q = true /\ mem 1 Q = true.
Proof.
  exists tight, first_two, three_of_three. do 2 eexists. destruct first_two_ok as [_ Hd]. split; [apply wfb_ok; vm_compute; reflexivity|].
  split; [intros g x [<-|[]] [<-|[<-|[]]]; vm_compute; lia|]. split; [exact Hd|]. split; [vm_compute; reflexivity|].
  split; [vm_compute; reflexivity|]. split; [vm_compute; reflexivity|]. split; [reflexivity|].
  intros Q [[x Hx] HQ]. destruct (HQ x Hx) as (q & Hn & Hs).
  assert (q = three_of_three) as ->.
  { destruct Hn as (n & Hn & <-). do 4 (destruct x as [|x]; [vm_compute in Hn; inversion Hn; reflexivity|]). vm_compute in Hn. destruct x; discriminate. }
  apply is_quorum_slice_iff, is_quorum_slice_matches in Hs as [_ Hm]. unfold matches in Hm. cbn [filter] in Hm.
  destruct (mem 0 Q), (mem 1 Q), (is_quorum_slice _ Q); cbn in Hm; lia || auto.
Qed.
