(** Statements of [Th_Groupings.v]. *)
From Verif Require Export P_Results Examples.
Local Open Scope list_scope.

(** ** C27 *)
Lemma find_first {A} (p : A -> bool) l a : find p l = Some a <->
  p a = true /\ exists pre post, l = pre ++ a :: post /\ forall b, In b pre -> p b = false.
Proof.
  induction l as [|b l IH]; cbn [find].
  - split; [discriminate|]. intros (_ & pre & post & E & _). destruct pre; discriminate.
  - destruct (p b) eqn:Eb.
    + split.
      * intros [= ->]. split; auto. exists [], l. split; auto. intros ? [].
      * intros (Ha & pre & post & E & Hpre). destruct pre as [|c pre]; inversion E; subst; auto.
        rewrite (Hpre c) in Eb by now left. discriminate.
    + rewrite IH. split.
      * intros (Ha & pre & post & -> & Hpre). split; auto. exists (b :: pre), post. split; auto. intros c [<-|Hc]; auto.
      * intros (Ha & pre & post & E & Hpre). destruct pre as [|c pre]; inversion E; subst; [congruence|]. split; auto.
        exists pre, post. split; auto. intros d Hd. apply Hpre. now right.
Qed.
Lemma find_none_iff {A} (p : A -> bool) l : find p l = None <-> forall b, In b l -> p b = false.
Proof.
  split; [apply find_none|]. intros H. destruct (find p l) eqn:E; auto. apply find_some in E as [Hi Hp]. rewrite H in Hp; auto. discriminate.
Qed.

Definition consistent (f : fbas) (gs : list grouping) (G : groupings) : Prop :=
  g_groupings G = gs /\
  (forall x, merge_node G x = Panic <-> number_of_nodes f <= x) /\
  (forall x r, x < number_of_nodes f -> (merge_node G x = Ok r <-> represents gs r x)) /\
  (forall x y, x < number_of_nodes f -> y < number_of_nodes f -> (merge_node G x = merge_node G y <-> x = y \/ same_group gs x y)) /\
  (forall x r, merge_node G x = Ok r -> merge_node G r = Ok r) /\
  (forall x g, get_by_member G x = Ok (Some g) <-> In g gs /\ member x g) /\
  (forall x, get_by_member G x = Ok None <-> forall g, In g gs -> ~ member x g).

Lemma groupings_consistent f gs : groups_of f gs -> disjoint_groups gs -> exists G, groupings_new gs f = Ok G /\ consistent f gs G.
Proof.
  intros Hr Hd. destruct (groupings_new_ok f gs Hr Hd) as (G & EG & HG). exists G. split; auto. unfold consistent.
  split; [apply (go_groups _ _ _ HG)|]. split; [intros; now apply (merge_node_panic f gs)|].
  split; [intros; now apply (merge_node_represents f gs)|]. split; [intros; now apply (merge_same f gs)|].
  split; [intros x r; now apply (merge_idem f gs)|]. split.
  - intros x g. apply (get_by_member_spec f gs G HG Hd x (Some g)).
  - intros x. apply (get_by_member_spec f gs G HG Hd x None).
Qed.

Lemma get_by_name_spec gs f G name : groupings_new gs f = Ok G ->
  match get_by_name G name with
  | Some g => g_name g = name /\ exists pre post, gs = pre ++ g :: post /\ forall g', In g' pre -> g_name g' <> name
  | None => forall g, In g gs -> g_name g <> name
  end.
Proof.
  unfold groupings_new. intros H. destruct (add_groups 0 gs _) as [st|]; cbn [bind] in H; [|discriminate].
  assert (E : g_groupings G = gs) by (inversion H; auto). unfold get_by_name. rewrite E.
  destruct (find (fun org => String.eqb (g_name org) name) gs) as [g|] eqn:Ef.
  - apply find_first in Ef as (Hn & pre & post & -> & Hp). apply String.eqb_eq in Hn. split; auto.
    exists pre, post. split; auto. intros g' Hg'. apply String.eqb_neq. now apply Hp.
  - rewrite find_none_iff in Ef. intros g Hg. apply String.eqb_neq. now apply Ef.
Qed.

(** construction panics exactly if a member other than the first of its group is no node *)
Lemma add_members_panic r k vs : forall ids m, add_members r k vs (ids, m) = Panic <-> exists v, In v vs /\ List.length ids <= v.
Proof.
  induction vs as [|v vs IH]; intros ids m; cbn [add_members].
  - split; [discriminate|]. intros (v & [] & _).
  - unfold assert. destruct (Nat.ltb_spec v (List.length ids)).
    + rewrite IH. rewrite update_length. split; intros (w & Hw & Hl); exists w; split; auto; [now right|].
      destruct Hw as [->|Hw]; auto. lia.
    + split; auto. intros _. exists v. split; [now left|auto].
Qed.
Lemma add_members_length r k vs : forall ids m ids' m', add_members r k vs (ids, m) = Ok (ids', m') -> List.length ids' = List.length ids.
Proof.
  induction vs as [|v vs IH]; intros ids m ids' m'; cbn [add_members]; [intros [= <- <-]; auto|].
  unfold assert. destruct (v <? List.length ids); [|discriminate]. intros H. apply IH in H. now rewrite update_length in H.
Qed.
Lemma add_groups_panic gs : forall k ids m, add_groups k gs (ids, m) = Panic <->
  exists g r rest v, In g gs /\ g_validators g = r :: rest /\ In v rest /\ List.length ids <= v.
Proof.
  induction gs as [|g gs IH]; intros k ids m; cbn [add_groups].
  - split; [discriminate|]. intros (g & r & rest & v & [] & _).
  - destruct (g_validators g) as [|r vs] eqn:Ev; cbn [bind fst snd].
    + rewrite IH. split; intros (g' & r & rest & v & Hg & H); exists g', r, rest, v; (split; [|exact H]); [now right|].
      destruct Hg as [<-|Hg]; auto. destruct H as (H & _). congruence.
    + destruct (add_members r k vs (ids, (r, k) :: m)) as [[ids' m']|] eqn:Em; cbn [bind].
      * rewrite IH. rewrite (add_members_length _ _ _ _ _ _ _ Em).
        split; intros (g' & r' & rest & v & Hg & H); exists g', r', rest, v; (split; [|exact H]); [now right|].
        destruct Hg as [<-|Hg]; auto. destruct H as (H & Hv & Hl). rewrite Ev in H. inversion H; subst.
        assert (add_members r' k rest (ids, (r', k) :: m) = Panic) by (apply add_members_panic; eauto). congruence.
      * split; auto. intros _. apply add_members_panic in Em as (v & Hv & Hl). exists g, r, vs, v. split; [now left|auto].
Qed.
Lemma groupings_new_panic gs f : groupings_new gs f = Panic <->
  exists g r rest v, In g gs /\ g_validators g = r :: rest /\ In v rest /\ number_of_nodes f <= v.
Proof.
  unfold groupings_new. pose proof (add_groups_panic gs 0 (seq 0 (number_of_nodes f)) []) as H. rewrite seq_length in H. rewrite <- H.
  destruct (add_groups 0 gs _); cbn [bind]; split; congruence.
Qed.

(** two groups that overlap *)
Definition overlap : list grouping := [mk_grouping "a"%string [0;1]; mk_grouping "b"%string [1;0]].
Lemma overlapping_groups : exists f G, groupings_new overlap f = Ok G /\ groups_of f overlap /\
  merge_node G 0 = Ok 1 /\ merge_node G 1 = Ok 0.
Proof.
  exists flat. eexists. split; [vm_compute; reflexivity|]. split; [|vm_compute; auto].
  intros g x [<-|[<-|[]]] [<-|[<-|[]]]; vm_compute; lia.
Qed.

(** ** C28 *)
Lemma separable_lossless f gs G q : groups_of f gs -> disjoint_groups gs -> groupings_new gs f = Ok G -> ids_known f q ->
  separable gs q -> lossless G q.
Proof.
  intros Hr Hd EG. destruct (groupings_new_ok f gs Hr Hd) as (G' & EG' & HG). rewrite EG in EG'. inversion EG'; subst G'.
  induction q as [t vs is_ IH] using qset_ind'. intros Hq. inversion 1 as [t0 vs0 is0 H1 H2]; subst.
  assert (Hqi : forall i, In i is_ -> ids_known f i) by (intros i Hi x Hx; apply Hq; eapply mentions_inner; eauto).
  constructor.
  - intros i Hi. apply IH; auto.
  - intros i i' Hi Em Es. destruct (H2 i Hi) as [He|(x & y & Hx & Hy & Hne & Hng)].
    + destruct i as [ti vi ii]. cbn in He. subst ii. apply merge_quorum_set_inv in Em as (a & b & _ & Eb & ->). cbn in Eb.
      inversion Eb; subst. apply collapse_inner.
    + exfalso. destruct i as [ti vi ii]. cbn [validators] in Hx, Hy.
      apply merge_quorum_set_inv in Em as (a & b & Ea & Eb & ->).
      assert (Hx' : x < number_of_nodes f) by (apply (Hqi _ Hi); now left).
      assert (Hy' : y < number_of_nodes f) by (apply (Hqi _ Hi); now left).
      apply mapM_inv in Ea. destruct (Forall2_in_l _ _ _ _ Ea Hx) as (rx & Hrx & Erx). destruct (Forall2_in_l _ _ _ _ Ea Hy) as (ry & Hry & Ery).
      assert (Hneq : rx <> ry).
      { intros ->. assert (E : merge_node G x = merge_node G y) by congruence. apply (merge_same f gs G HG Hd) in E; auto. tauto. }
      assert (Hin : forall z, In z a -> In z (a ++ heads b)) by (intros; apply in_or_app; now left).
      destruct (collapse_cases ti (a ++ heads b) (filter (fun i => negb (single i)) b)) as [[E _]|(v & _ & Hall & _)].
      * rewrite E in Es. apply single_spec in Es as (t' & v & is' & [= _ Ev _]).
        assert (rx = v) by (specialize (Hin rx Hrx); rewrite Ev in Hin; destruct Hin as [|[]]; auto).
        assert (ry = v) by (specialize (Hin ry Hry); rewrite Ev in Hin; destruct Hin as [|[]]; auto). congruence.
      * assert (rx = v) by auto. assert (ry = v) by auto. congruence.
Qed.
Lemma two_level_separable gs q : two_level q -> separable gs q.
Proof.
  destruct q as [t vs is_]. unfold two_level. cbn. intros H. constructor.
  - intros i Hi. destruct (H i Hi). constructor; intros ? [].
  - intros i Hi. left. now destruct (H i Hi).
Qed.
Lemma merge_preserves_slices f gs q (S : bset) : groups_of f gs -> disjoint_groups gs -> ids_known f q ->
  separable gs q -> (forall x, mem x S = true -> x < number_of_nodes f) ->
  slice (fun x => mem x S = true) q ->
  exists G q' R, groupings_new gs f = Ok G /\ merge_quorum_set G q = Ok q' /\ merge_node_set G S = Ok R /\
    group_image gs S R /\ slice (fun x => mem x R = true) q'.
Proof.
  intros Hr Hd Hq Hsep HS Hs. destruct (groupings_new_ok f gs Hr Hd) as (G & EG & HG).
  destruct (merge_quorum_set_total f gs G HG Hd q Hq) as [q' Eq']. destruct (merge_node_set_spec f gs G HG Hd S HS) as (R & ER & HR).
  exists G, q', R. split; auto. split; auto. split; auto. split; auto. apply is_quorum_slice_iff.
  apply (merge_preserves f gs G HG Hd q q' S R Hq); auto.
  - now apply (separable_lossless f gs).
  - now apply is_quorum_slice_iff.
Qed.
Definition deep : qset := QS 1 [] [QS 1 [0] [QS 1 [1;2] []]].
Lemma merge_loses : exists f G q' R, ids_known f deep /\ groupings_new [] f = Ok G /\ merge_quorum_set G deep = Ok q' /\
  merge_node_set G (of_list [1]) = Ok R /\ slice (fun x => mem x (of_list [1]) = true) deep /\ ~ slice (fun x => mem x R = true) q'.
Proof.
  exists flat. do 3 eexists. split.
  - intros x Hx. apply contained_nodes_spec in Hx.
    assert (Hb : forallb (fun x => x <? number_of_nodes flat) (elements (contained_nodes deep)) = true) by (vm_compute; reflexivity).
    rewrite forallb_forall in Hb. apply Nat.ltb_lt. apply Hb. now apply elements_spec.
  - split; [vm_compute; reflexivity|]. split; [vm_compute; reflexivity|]. split; [vm_compute; reflexivity|].
    rewrite <- !is_quorum_slice_iff. split; vm_compute; [auto|discriminate].
Qed.

(** ** C31 *)
Lemma pretty_by_key f r l : vr_unwrap r = Ok l -> (forall s x, In s l -> mem x s = true -> x < number_of_nodes f) ->
  exists ll, vr_into_pretty_vec_vec r f None = Ok ll /\ Forall2 (shown_list f []) l ll.
Proof. intros. now apply (pretty_vec_vec_ok f None r l I). Qed.
Lemma pretty_by_group f gs r l : groups_of f gs -> disjoint_groups gs ->
  vr_unwrap r = Ok l -> (forall s x, In s l -> mem x s = true -> x < number_of_nodes f) ->
  exists G ll, groupings_new gs f = Ok G /\ vr_into_pretty_vec_vec r f (Some G) = Ok ll /\ Forall2 (shown_list f gs) l ll.
Proof.
  intros Hr Hd Hu Hl. destruct (groupings_new_ok f gs Hr Hd) as (G & EG & HG). pose proof (go_groups _ _ _ HG) as Eg.
  destruct (pretty_vec_vec_ok f (Some G) r l) as (ll & E & HF); auto.
  - cbn. rewrite Eg. auto.
  - exists G, ll. cbn in HF. rewrite Eg in HF. auto.
Qed.
Lemma pretty_qset_by_key f q : ids_known f q -> exists p, into_pretty_quorum_set q f None = Ok p /\ shown_qset f [] q p.
Proof. intros H. now apply pretty_none_ok. Qed.
Lemma pretty_qset_by_group f gs q : groups_of f gs -> disjoint_groups gs -> ids_known f q ->
  exists G q' p, groupings_new gs f = Ok G /\ merge_quorum_set G q = Ok q' /\
    into_pretty_quorum_set q f (Some G) = Ok p /\ shown_qset f gs q' p.
Proof.
  intros Hr Hd Hq. destruct (groupings_new_ok f gs Hr Hd) as (G & EG & HG). pose proof (go_groups _ _ _ HG) as Eg.
  destruct (into_pretty_quorum_set_ok f G q) as (q' & p & H1 & H2 & H3); rewrite ?Eg; auto.
  exists G, q', p. rewrite Eg in H3. auto.
Qed.

(** ** names to ids (C25) *)
Lemma from_public_keys_spec names f id : keys_ok f ->
  (In id (from_public_keys names f) <-> exists n, nth_error (nodes f) id = Some n /\ In (node_pk n) names).
Proof.
  intros Hk. unfold from_public_keys. rewrite filter_map_in. split.
  - intros (name & Hn & E). apply Hk in E. destruct (nth_error (nodes f) id) as [n|]; [|discriminate]. exists n. split; auto.
    cbn in E. congruence.
  - intros (n & Hn & Hi). exists (node_pk n). split; auto. apply Hk. rewrite Hn. reflexivity.
Qed.
Lemma from_grouping_names_spec names f gs G id : keys_ok f -> groupings_new gs f = Ok G ->
  (In id (from_grouping_names names f G) <-> exists name, In name names /\ meant_by f gs name id).
Proof.
  intros Hk EG. unfold from_grouping_names. rewrite in_flat_map.
  assert (H : forall name, In id (match get_by_name G name with
      | Some org => g_validators org | None => match get_node_id f name with Some id => [id] | None => [] end end) <-> meant_by f gs name id).
  { intros name. pose proof (get_by_name_spec gs f G name EG) as Hg. unfold meant_by.
    destruct (get_by_name G name) as [g|].
    - destruct Hg as (Hn & pre & post & E & Hp). split.
      + intros Hi. left. exists pre, g, post. auto.
      + intros [(pre' & g' & post' & E' & Hn' & Hp' & Hm)|(Hno & _)].
        * assert (Eg : g = g'); [|subst g'; exact Hm].
          assert (F1 : find (fun o => String.eqb (g_name o) name) gs = Some g).
          { apply find_first. split; [now apply String.eqb_eq|]. exists pre, post. split; auto. intros b Hb. apply String.eqb_neq. auto. }
          assert (F2 : find (fun o => String.eqb (g_name o) name) gs = Some g').
          { apply find_first. split; [now apply String.eqb_eq|]. exists pre', post'. split; auto. intros b Hb. apply String.eqb_neq. auto. }
          congruence.
        * exfalso. apply (Hno g); auto. rewrite E. apply in_or_app. right. now left.
    - split.
      + intros Hi. right. split; auto. destruct (get_node_id f name) as [i|] eqn:Ei; [|contradiction].
        destruct Hi as [<-|[]]. apply Hk in Ei. destruct (nth_error (nodes f) i) as [n|]; [|discriminate]. exists n. split; auto.
        cbn in Ei. congruence.
      + intros [(pre & g & post & E & Hn & _)|(_ & n & Hn & En)].
        * exfalso. apply (Hg g); auto. rewrite E. apply in_or_app. right. now left.
        * assert (Ei : get_node_id f name = Some id) by (apply Hk; rewrite Hn; cbn; congruence). rewrite Ei. now left. }
  split; intros (name & Hn & Hi); exists name; (split; [auto|]); now apply H.
Qed.
Lemma without_nodes_by_name f gs r l names : keys_ok f -> vr_unwrap r = Ok l ->
  (exists r' l', vr_without_nodes_pretty r names f None = Ok r' /\ vr_unwrap r' = Ok l' /\
     Forall2 (fun s s' => forall x, mem x s' = true <-> mem x s = true /\ ~ exists name, In name names /\ meant_by f [] name x) l l') /\
  (forall G, groupings_new gs f = Ok G ->
   exists r' l', vr_without_nodes_pretty r names f (Some G) = Ok r' /\ vr_unwrap r' = Ok l' /\
     Forall2 (fun s s' => forall x, mem x s' = true <-> mem x s = true /\ ~ exists name, In name names /\ meant_by f gs name x) l l').
Proof.
  intros Hk Hu. destruct (accessors r l Hu) as [_ Ha].
  assert (Hgen : forall (P : nat -> Prop) F, (forall x, In x F <-> P x) ->
     Forall2 (fun s s' => forall x, mem x s' = true <-> mem x s = true /\ ~ P x) l (map (fun s => diff s (of_list F)) l)).
  { intros P F HF. clear -HF. induction l as [|s l IH]; cbn; constructor; auto. intros x. rewrite mem_diff, andb_true_iff, negb_true_iff.
    rewrite <- HF, <- mem_of_list, <- not_true_iff_false. tauto. }
  split.
  - destruct (Ha (from_public_keys names f)) as (r' & E1 & E2). exists r', (map (fun s => diff s (of_list (from_public_keys names f))) l).
    split; [exact E1|]. split; auto. apply Hgen. intros x. rewrite from_public_keys_spec by auto. unfold meant_by. split.
    + intros (n & Hn & Hi). exists (node_pk n). split; auto. right. split; [intros ? []|]. eauto.
    + intros (name & Hn & [(pre & g & post & E & _)|(_ & n & Hnn & <-)]); [destruct pre; discriminate|]. eauto.
  - intros G EG. destruct (Ha (from_grouping_names names f G)) as (r' & E1 & E2).
    exists r', (map (fun s => diff s (of_list (from_grouping_names names f G))) l).
    split; [exact E1|]. split; auto. apply Hgen. intros x. now apply from_grouping_names_spec.
Qed.
