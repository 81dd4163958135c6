(** Proofs about [merge_quorum_set]: which inner quorum sets are reduced to a group, and when nothing is lost. *)
From Coq Require Import Lia.
From Verif Require Export P_MergeQset P_ThGroupings Spec_Merging.
Local Open Scope list_scope.

Lemma some_of_iff {A} (P : A -> Prop) l : some_of P l <-> exists a, In a l /\ P a.
Proof.
  unfold some_of. induction l as [|a l IH]; cbn.
  - split; [intros []|intros (a & [] & _)].
  - rewrite IH. split.
    + intros [H|(b & Hb & H)]; eauto.
    + intros (b & [<-|Hb] & H); eauto.
Qed.
(** [y] is one of those that decide whether [q] is reduced *)
Definition counts (gs : list grouping) (q : qset) (y : nat) : Prop :=
  In y (validators q) \/ exists i, In i (inner_quorum_sets q) /\ stands_for gs i y.
Lemma stands_for_iff gs q x : stands_for gs q x <-> (exists y, counts gs q y) /\ forall y, counts gs q y -> together gs x y.
Proof.
  destruct q as [t vs is_]. cbn [stands_for]. unfold counts. cbn [validators inner_quorum_sets]. split; intros [(y & Hy) H].
  - rewrite some_of_iff in Hy. split; [eauto|]. intros z Hz. apply H. now rewrite some_of_iff.
  - split; [exists y; now rewrite some_of_iff|]. intros z Hz. apply H. now rewrite some_of_iff in Hz.
Qed.

Section Ok.
Context (f : fbas) (gs : list grouping) (G : groupings) (HG : groupings_ok f gs G)
        (Hr : groups_of f gs) (Hd : disjoint_groups gs).

Lemma together_bound x y : y < number_of_nodes f -> together gs x y -> x < number_of_nodes f.
Proof. intros Hy [->|(g & Hg & Hx & _)]; eauto. Qed.
Lemma together_represents r x y : y < number_of_nodes f -> represents gs r y -> (together gs x y <-> x < number_of_nodes f /\ represents gs r x).
Proof.
  intros Hy Hrep. assert (Ey : merge_node G y = Ok r) by (apply (merge_node_represents f gs G HG Hd); auto). split.
  - intros H. pose proof (together_bound x y Hy H) as Hx. split; auto. apply (merge_node_represents f gs G HG Hd); auto.
    rewrite <- Ey. now apply (merge_same f gs G HG Hd).
  - intros [Hx Hrx]. apply (merge_same f gs G HG Hd); auto. rewrite Ey. apply (merge_node_represents f gs G HG Hd); auto.
Qed.

Lemma stands_for_iff_single q : forall q', qset_of_fbas f q -> merge_quorum_set G q = Ok q' ->
  forall x, stands_for gs q x <-> exists v, validators q' = [v] /\ x < number_of_nodes f /\ represents gs v x.
Proof.
  induction q as [t vs is_ IH] using qset_ind'. intros q' Hq Em x.
  apply merge_quorum_set_inv in Em as (vs' & is' & Ev & Ei & ->).
  destruct (merge_nodes_ok f gs G HG Hd vs) as (vs2 & Ev2 & HF); [intros y Hy; apply Hq; now left|]. rewrite Ev in Ev2. inversion Ev2; subst vs2.
  apply mapM_inv in Ei.
  assert (Hqi : forall i, In i is_ -> qset_of_fbas f i) by (intros i Hi; eapply qset_of_fbas_inner; eauto).
  set (L := vs' ++ heads is').
  assert (H1 : forall y, counts gs (QS t vs is_) y -> exists r, In r L /\ y < number_of_nodes f /\ represents gs r y).
  { intros y [Hy|(i & Hi & Hs)]; cbn [validators inner_quorum_sets] in *.
    - destruct (Forall2_in_l _ _ _ _ HF Hy) as (r & Hr' & Hrep). exists r. split; [apply in_or_app; now left|]. split; auto. apply Hq. now left.
    - destruct (Forall2_in_l _ _ _ _ Ei Hi) as (i' & Hi' & Em). destruct (proj1 (IH i Hi i' (Hqi i Hi) Em y) Hs) as (v & Hv & Hlt & Hrep).
      exists v. split; auto. apply in_or_app. right. unfold heads. apply in_flat_map. exists i'. split; [|rewrite Hv; now left].
      apply filter_In. split; auto. unfold single. now rewrite Hv. }
  assert (H2 : forall r, In r L -> exists y, counts gs (QS t vs is_) y /\ y < number_of_nodes f /\ represents gs r y).
  { intros r Hin. apply in_app_or in Hin as [Hin|Hin].
    - destruct (Forall2_in_r _ _ _ _ HF Hin) as (y & Hy & Hrep). exists y. split; [now left|]. split; auto. apply Hq. now left.
    - unfold heads in Hin. apply in_flat_map in Hin as (i' & Hi' & Hv). apply filter_In in Hi' as [Hi' Es].
      apply single_spec in Es as (t' & v & j & ->). destruct Hv as [<-|[]].
      destruct (Forall2_in_r _ _ _ _ Ei Hi') as (i & Hi & Em).
      destruct (merge_mentions f gs G HG Hd i _ v (Hqi i Hi) Em) as (y & Hy & Hrep); [apply mentions_here; now left|].
      assert (y < number_of_nodes f) by now apply (Hqi i Hi).
      exists y. split; auto. right. exists i. split; auto. apply (IH i Hi _ (Hqi i Hi) Em). exists v. split; [reflexivity|]. auto. }
  rewrite stands_for_iff.
  transitivity (L <> [] /\ forall r, In r L -> x < number_of_nodes f /\ represents gs r x).
  - split; intros [Ha Hb].
    + split.
      * destruct Ha as (y & Hy). destruct (H1 y Hy) as (r & Hin & _). intros E. rewrite E in Hin. destruct Hin.
      * intros r Hin. destruct (H2 r Hin) as (y & Hy & Hlt & Hrep). apply (together_represents r x y); auto.
    + split.
      * destruct L as [|r L']; [congruence|]. destruct (H2 r (or_introl eq_refl)) as (y & Hy & _). eauto.
      * intros y Hy. destruct (H1 y Hy) as (r & Hin & Hlt & Hrep). apply (together_represents r x y); auto.
  - destruct (collapse_cases t L (filter (fun i => negb (single i)) is')) as [[-> Hn]|(v & Hv & Hall & ->)]; cbn [validators].
    + split.
      * intros [Ha Hb]. destruct L as [|r L'] eqn:EL; [congruence|]. exists r. split.
        { destruct L' as [|r' L'']; auto. exfalso. apply Hn. exists r. split; [discriminate|]. split; [discriminate|].
          intros w Hw. eapply (represents_fun gs Hd); [apply (Hb w Hw)|apply (Hb r); now left]. }
        apply Hb. now left.
      * intros (v & -> & Hx). split; [discriminate|]. intros r [<-|[]]. auto.
    + split.
      * intros [_ Hb]. eauto.
      * intros (w & [= <-] & Hx). split; [intros E; rewrite E in Hv; destruct Hv|]. intros r Hin. rewrite (Hall r Hin). auto.
Qed.

Lemma preserves_kept q : forall q' S R, qset_of_fbas f q -> (forall i, inside i q -> kept gs i) -> merge_quorum_set G q = Ok q' ->
  group_image gs S R -> is_quorum_slice q S = true -> is_quorum_slice q' R = true.
Proof.
  induction q as [t vs is_ IH] using qset_ind'. intros q' S R Hq Hl Em Hg Hs.
  apply merge_quorum_set_inv in Em as (vs' & is' & Ev & Ei & ->).
  destruct (merge_nodes_ok f gs G HG Hd vs) as (vs2 & Ev2 & HF); [intros y Hy; apply Hq; now left|]. rewrite Ev in Ev2. inversion Ev2; subst vs2.
  apply mapM_inv in Ei. apply is_quorum_slice_matches in Hs as [Ht Hm].
  set (inner := filter (fun i => negb (single i)) is').
  assert (Hq' : forall i, In i is_ -> qset_of_fbas f i) by (intros i Hi; eapply qset_of_fbas_inner; eauto).
  assert (Hl1 : forall i, In i is_ -> forall j, inside j i -> kept gs j) by (intros i Hi j Hj; apply Hl; eapply inside_deeper; eauto).
  assert (Hl2 : forall i, In i is_ -> kept gs i) by (intros i Hi; apply Hl; now apply inside_here).
  assert (Hcount : t <= matches R (vs' ++ heads is') inner).
  { unfold matches in *. rewrite filter_app, app_length.
    pose proof (count_image gs S R vs vs' Hg HF).
    assert (List.length (filter (fun i => is_quorum_slice i S) is_) <=
            List.length (filter (fun x => mem x R) (heads is')) + List.length (filter (fun i => is_quorum_slice i R) inner)); [|lia].
    unfold inner. clear -HG Hd Hr Ei IH Hl1 Hl2 Hg Hq'. unfold heads.
    induction Ei as [|i i' l l' Em Ei IHl]; [cbn; lia|].
    assert (IHl' : List.length (filter (fun i => is_quorum_slice i S) l) <=
       List.length (filter (fun x => mem x R) (flat_map validators (filter single l'))) +
       List.length (filter (fun i => is_quorum_slice i R) (filter (fun i => negb (single i)) l'))).
    { apply IHl; intros; [eapply IH|eapply Hq'|eapply Hl1|eapply Hl2]; eauto; now right. }
    cbn [filter]. destruct (is_quorum_slice i S) eqn:Es.
    + destruct (single i') eqn:E1; cbn [negb].
      * apply single_spec in E1 as (t' & v & is2 & ->).
        assert (Hi : qset_of_fbas f i) by (apply Hq'; now left).
        destruct (merge_mentions f gs G HG Hd i _ v Hi Em) as (y & Hy & Hrep); [apply mentions_here; now left|].
        assert (Hst : stands_for gs i y) by (apply (stands_for_iff_single i _ Hi Em); exists v; split; [reflexivity|]; split; auto).
        destruct (Hl2 i (or_introl eq_refl) y S Hst) as (z & Hz & Htg); [now apply is_quorum_slice_iff|].
        assert (mem v R = true) as Hv.
        { apply Hg. exists z. split; auto. apply (together_represents v z y); auto.
          destruct Htg as [->|(g & H1 & H2 & H3)]; [now left|right; exists g; auto]. }
        cbn [flat_map validators]. rewrite filter_app, app_length. cbn [filter]. rewrite Hv. cbn. lia.
      * assert (Es' : is_quorum_slice i' R = true) by (refine (IH i (or_introl eq_refl) i' S R _ _ Em Hg Es); [apply Hq'|apply Hl1]; now left).
        cbn [filter]. rewrite Es'. cbn [List.length]. lia.
    + destruct (single i'); cbn [negb flat_map filter]; [rewrite filter_app, app_length; lia|].
      destruct (is_quorum_slice i' R); cbn [List.length]; lia. }
  destruct (collapse_cases t (vs' ++ heads is') inner) as [[-> _]|(v & Hv & Hall & ->)].
  - apply is_quorum_slice_matches. auto.
  - apply is_quorum_slice_matches. split; [lia|]. unfold matches in *. cbn [filter].
    destruct (mem v R) eqn:Ev'; [cbn; lia|].
    assert (filter (fun x => mem x R) (vs' ++ heads is') = []) as E0.
    { destruct (filter (fun x => mem x R) (vs' ++ heads is')) as [|w l] eqn:E0; auto.
      assert (Hw : In w (w :: l)) by now left. rewrite <- E0 in Hw. apply filter_In in Hw as [Hw1 Hw2].
      rewrite (Hall w Hw1) in Hw2. congruence. }
    rewrite E0 in Hcount. cbn in *. lia.
Qed.
End Ok.

Lemma kept_preserved f gs q : groups_of f gs -> disjoint_groups gs -> ids_known f q ->
  (forall i, inside i q -> kept gs i) -> preserved f gs q.
Proof.
  intros Hr Hd Hq Hk S HS Hs. destruct (groupings_new_ok f gs Hr Hd) as (G & EG & HG).
  destruct (merge_quorum_set_total f gs G HG Hd q Hq) as [q' Eq']. destruct (merge_node_set_spec f gs G HG Hd S HS) as (R & ER & HR).
  exists G, q', R. split; auto. split; auto. split; auto. split; auto. apply is_quorum_slice_iff.
  apply (preserves_kept f gs G HG Hr Hd q q' S R Hq); auto. now apply is_quorum_slice_iff.
Qed.
Lemma ids_known_inside f i q : inside i q -> ids_known f q -> ids_known f i.
Proof.
  induction 1 as [t vs is_ Hi|t vs is_ j Hj Hi IH]; intros Hq x Hx.
  - apply Hq. eapply mentions_inner; eauto.
  - apply IH; auto. intros y Hy. apply Hq. eapply mentions_inner; eauto.
Qed.
Lemma inside_trans i j q : inside i j -> inside j q -> inside i q.
Proof. intros Hi. induction 1 as [t vs is_ Hj|t vs is_ k Hk Hj IH]; [eapply inside_deeper; eauto|eapply inside_deeper; eauto]. Qed.

Lemma preserved_kept f gs i : groups_of f gs -> disjoint_groups gs -> ids_known f i -> preserved f gs (QS 1 [] [i]) -> kept gs i.
Proof.
  intros Hr Hd Hi Hp x S Hst Hs. set (S' := inter S (all_nodes f)).
  assert (HS' : forall y, mem y S' = true <-> mem y S = true /\ y < number_of_nodes f).
  { intros y. unfold S'. rewrite mem_inter, andb_true_iff, mem_all_nodes. tauto. }
  assert (Hs' : slice (fun y => mem y S' = true) i).
  { apply is_quorum_slice_iff in Hs. apply is_quorum_slice_iff. rewrite <- Hs. apply is_quorum_slice_local. intros y Hy.
    apply Hi in Hy. apply Bool.eq_true_iff_eq. rewrite HS'. tauto. }
  destruct (Hp S') as (G & q' & R & EG & Em & ER & HR & Hs2).
  - intros y Hy. now apply HS'.
  - apply slice_intro with (vs' := []) (is' := [i]); auto using subseq_refl. intros j [<-|[]]. auto.
  - destruct (groupings_new_ok f gs Hr Hd) as (G' & EG' & HG). rewrite EG in EG'. inversion EG'; subst G'.
    destruct (merge_quorum_set_total f gs G HG Hd i Hi) as [i' Ei].
    pose proof (proj1 (stands_for_iff_single f gs G HG Hr Hd i i' Hi Ei x) Hst) as (v & Hv & Hx & Hrep).
    apply merge_quorum_set_inv in Em as (vs' & is' & Ev & Eis & ->). cbn in Ev, Eis. rewrite Ei in Eis. cbn in Eis.
    inversion Ev; inversion Eis; subst. unfold heads in Hs2. cbn [filter] in Hs2.
    assert (single i' = true) as E1 by (unfold single; now rewrite Hv). rewrite E1 in Hs2. cbn [negb flat_map app] in Hs2. rewrite Hv in Hs2.
    cbn in Hs2. rewrite Nat.eqb_refl in Hs2. cbn in Hs2. apply is_quorum_slice_iff, is_quorum_slice_matches in Hs2 as [_ Hm].
    unfold matches in Hm. cbn in Hm. destruct (mem v R) eqn:Em; [|cbn in Hm; lia].
    apply HR in Em as (y & Hry & Hy). apply HS' in Hy as [Hy Hlt]. exists y. split; auto.
    apply (together_represents f gs G HG Hr Hd v x y); auto.
Qed.

Lemma kept_exact f gs q : groups_of f gs -> disjoint_groups gs -> ids_known f q ->
  ((forall i, inside i q -> kept gs i) <-> (forall i, inside i q -> preserved f gs (QS 1 [] [i]))).
Proof.
  intros Hr Hd Hq. split; intros H i Hi.
  - apply kept_preserved; auto.
    + intros x Hx. apply mentions_inv in Hx as [[]|(j & [<-|[]] & Hx)]. revert x Hx. now apply (ids_known_inside f i q).
    + intros j Hj. inversion Hj as [? ? ? Hin|? ? ? k Hk Hin]; subst.
      * destruct Hin as [<-|[]]. auto.
      * destruct Hk as [<-|[]]. apply H. eapply inside_trans; eauto.
  - apply (preserved_kept f); auto. now apply (ids_known_inside f i q).
Qed.

Lemma together_meet f gs x y z : groups_of f gs -> disjoint_groups gs -> together gs z x -> together gs z y -> together gs x y.
Proof.
  intros Hr Hd [->|(g & Hg & Hz & Hx)] [->|(g' & Hg' & Hz' & Hy)]; [now left|right; exists g'; auto|right; exists g; auto|].
  right. exists g. split; auto. split; auto. apply In_nth_error in Hg as [j Hj]. apply In_nth_error in Hg' as [j' Hj'].
  assert (j = j') by eauto. congruence.
Qed.
Lemma separable_kept f gs q : groups_of f gs -> disjoint_groups gs -> separable gs q -> forall i, inside i q -> kept gs i.
Proof.
  intros Hr Hd. induction q as [t vs is_ IH] using qset_ind'. inversion 1 as [t0 vs0 is0 H1 H2]; subst. intros i Hi.
  inversion Hi as [? ? ? Hin|? ? ? j Hj Hin]; subst; [|eapply IH; eauto].
  intros x S Hst Hs. apply stands_for_iff in Hst as [_ Hall]. destruct (H2 i Hin) as [He|(a & b & Ha & Hb & Hne & Hng)].
  - inversion Hs as [t' vi ii vs' is' Ht Hv Hi' Hv' Hi2 Hc]; subst. cbn in He. subst ii.
    assert (is' = []) by (inversion Hi'; auto). subst is'. destruct vs' as [|v vs']; [cbn in Hc; lia|].
    exists v. split; [apply Hv'; now left|]. apply Hall. left. cbn. eapply subseq_in; eauto. now left.
  - exfalso. assert (together gs a b) as [?|?]; auto. apply (together_meet f gs a b x); auto; apply Hall; now left.
Qed.

Lemma reduced_exact f gs q : groups_of f gs -> disjoint_groups gs -> ids_known f q ->
  exists G q', groupings_new gs f = Ok G /\ merge_quorum_set G q = Ok q' /\
    forall x, stands_for gs q x <-> exists v, validators q' = [v] /\ x < number_of_nodes f /\ represents gs v x.
Proof.
  intros Hr Hd Hq. destruct (groupings_new_ok f gs Hr Hd) as (G & EG & HG).
  destruct (merge_quorum_set_total f gs G HG Hd q Hq) as [q' Eq']. exists G, q'. split; auto. split; auto.
  now apply (stands_for_iff_single f gs G HG Hr Hd).
Qed.

(** an inner quorum set that is reduced to node 0 and cannot be satisfied without it *)
Definition chained : qset := QS 1 [] [QS 2 [0] [QS 1 [1;2] []]].
Lemma chained_kept : stands_for [] (QS 2 [0] [QS 1 [1;2] []]) 0 /\ ~ separable [] chained /\
  (forall i, inside i chained -> kept [] i) /\ ~ kept [] (QS 1 [0] [QS 1 [1;2] []]).
Proof.
  assert (Hn : forall x, ~ stands_for [] (QS 1 [1;2] []) x).
  { intros x Hx. apply stands_for_iff in Hx as [_ H].
    destruct (H 1) as [->|(g & [] & _)]; [left; now left|]. destruct (H 2) as [E|(g & [] & _)]; [left; right; now left|discriminate]. }
  assert (Hs : forall t x, stands_for [] (QS t [0] [QS 1 [1;2] []]) x <-> x = 0).
  { intros t x. rewrite stands_for_iff. split.
    - intros [_ H]. destruct (H 0) as [->|(g & [] & _)]; [left; now left|reflexivity].
    - intros ->. split; [exists 0; left; now left|]. intros y [[<-|[]]|(i & [<-|[]] & Hy)]; [now left|]. now apply Hn in Hy. }
  assert (Hone : kept [] (QS 1 [1;2] [])) by (intros x S Hx; now apply Hn in Hx).
  split; [now apply Hs|]. split; [|split].
  - inversion 1 as [t vs is_ H1 H2]; subst. destruct (H2 _ (or_introl eq_refl)) as [E|(x & y & [<-|[]] & [<-|[]] & Hne & _)]; [discriminate|congruence].
  - intros i Hi. inversion Hi as [? ? ? Hin|? ? ? j Hj Hin]; subst.
    + destruct Hin as [<-|[]]. intros x S Hx Hsl. apply Hs in Hx as ->. exists 0. split; [|now left].
      apply is_quorum_slice_iff, is_quorum_slice_matches in Hsl as [_ Hm]. unfold matches in Hm. cbn [filter] in Hm.
      destruct (mem 0 S); auto. destruct (is_quorum_slice _ S); cbn in Hm; lia.
    + destruct Hj as [<-|[]]. inversion Hin as [? ? ? Hin'|? ? ? j' Hj' Hin']; subst.
      * destruct Hin' as [<-|[]]. exact Hone.
      * destruct Hj' as [<-|[]]. inversion Hin'; subst; contradiction.
  - intros H. destruct (H 0 (of_list [1])) as (y & Hy & [<-|(g & [] & _)]).
    + now apply Hs.
    + apply is_quorum_slice_iff. vm_compute. reflexivity.
    + vm_compute in Hy. discriminate.
Qed.
