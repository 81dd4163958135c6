(** Proofs about [merge_quorum_set] and about names shown to users. *)
From Coq Require Import Lia.
From Verif Require Export P_Groupings P_QuorumSet.
Local Open Scope list_scope.

Lemma merge_quorum_set_unfold g t vs is_ :
  merge_quorum_set g (QS t vs is_) =
  (vs' <- mapM (merge_node g) vs ;;
   merged <- mapM (merge_quorum_set g) is_ ;;
   new_validators <- mapM (fun i => unwrap (nth_error (validators i) 0)) (filter single merged) ;;
   Ok (collapse t (vs' ++ new_validators) (filter (fun i => negb (single i)) merged))).
Proof.
  cbn [merge_quorum_set]. destruct (mapM (merge_node g) vs) as [vs'|]; cbn [bind]; [|reflexivity].
  match goal with |- bind ?a _ = _ => assert (a = mapM (merge_quorum_set g) is_) as -> end; [|reflexivity].
  induction is_ as [|i l IH]; cbn [mapM]; [reflexivity|]. now rewrite IH.
Qed.

Definition heads (l : list qset) : list nat := flat_map validators (filter single l).
Lemma single_spec q : single q = true <-> exists t v is_, q = QS t [v] is_.
Proof.
  destruct q as [t vs is_]. unfold single. cbn. rewrite Nat.eqb_eq. split.
  - destruct vs as [|v [|]]; try discriminate. eauto.
  - intros (t' & v & is' & [= -> -> ->]). reflexivity.
Qed.
Lemma heads_ok l : mapM (fun i => unwrap (nth_error (validators i) 0)) (filter single l) = Ok (heads l).
Proof.
  unfold heads. induction l as [|q l IH]; [reflexivity|]. cbn [filter]. destruct (single q) eqn:E; [|exact IH].
  apply single_spec in E as (t & v & is_ & ->). cbn [mapM]. rewrite IH. reflexivity.
Qed.

Lemma merge_quorum_set_inv g t vs is_ q' : merge_quorum_set g (QS t vs is_) = Ok q' <->
  exists vs' is', mapM (merge_node g) vs = Ok vs' /\ mapM (merge_quorum_set g) is_ = Ok is' /\
    q' = collapse t (vs' ++ heads is') (filter (fun i => negb (single i)) is').
Proof.
  rewrite merge_quorum_set_unfold. split.
  - intros E. destruct (mapM (merge_node g) vs) as [vs'|]; [|discriminate].
    destruct (mapM (merge_quorum_set g) is_) as [is'|]; [|discriminate]. cbn [bind] in E.
    rewrite heads_ok in E. cbn [bind] in E. inversion E; subst. eauto.
  - intros (vs' & is' & -> & -> & ->). cbn [bind]. rewrite heads_ok. reflexivity.
Qed.

Lemma collapse_cases t vs is_ :
  (collapse t vs is_ = QS t vs is_ /\ ~ (exists v, vs <> [] /\ vs <> [v] /\ forall w, In w vs -> w = v)) \/
  (exists v, In v vs /\ (forall w, In w vs -> w = v) /\ collapse t vs is_ = QS 1 [v] is_).
Proof.
  destruct vs as [|v vs]; [left; split; auto; intros (w & H & _); congruence|]. cbn [collapse].
  destruct (forallb (fun w => w =? v) (v :: vs)) eqn:E.
  - right. exists v. rewrite forallb_forall in E. split; [now left|]. split; [|reflexivity].
    intros w Hw. apply Nat.eqb_eq. now apply E.
  - left. split; [reflexivity|]. intros (w & _ & _ & Hw). apply not_true_iff_false in E. apply E. apply forallb_forall.
    intros x Hx. apply Nat.eqb_eq. rewrite (Hw x Hx). symmetry. apply Hw. now left.
Qed.

(** inner sets that become single validators have nothing else inside *)
Inductive lossless (g : groupings) : qset -> Prop :=
| lossless_intro t vs is_ : (forall i, In i is_ -> lossless g i) ->
    (forall i i', In i is_ -> merge_quorum_set g i = Ok i' -> single i' = true -> inner_quorum_sets i' = []) ->
    lossless g (QS t vs is_).

Lemma collapse_inner t vs is_ : inner_quorum_sets (collapse t vs is_) = is_.
Proof. destruct (collapse_cases t vs is_) as [[-> _]|(v & _ & _ & ->)]; reflexivity. Qed.

Lemma two_level_lossless g q : two_level q -> lossless g q.
Proof.
  assert (H1 : forall i, one_level i -> lossless g i) by (intros i [t vs]; constructor; [intros ? []|intros ? ? []]).
  destruct q as [t vs is_]. intros H. unfold two_level in H. cbn in H. constructor; [auto|].
  intros i i' Hi Em _. specialize (H i Hi). destruct H as [t' vs'].
  apply merge_quorum_set_inv in Em as (a & b & _ & Eb & ->). cbn in Eb. inversion Eb; subst. apply collapse_inner.
Qed.

Section Ok.
Context (f : fbas) (gs : list grouping) (G : groupings) (HG : groupings_ok f gs G)
        (Hr : groups_of f gs) (Hd : disjoint_groups gs).
Definition qset_of_fbas (q : qset) : Prop := forall x, mentions x q -> x < number_of_nodes f.

Lemma qset_of_fbas_inner t vs is_ i : qset_of_fbas (QS t vs is_) -> In i is_ -> qset_of_fbas i.
Proof. intros H Hi x Hx. apply H. eapply mentions_inner; eauto. Qed.

Lemma merge_nodes_ok l : (forall x, In x l -> x < number_of_nodes f) ->
  exists l', mapM (merge_node G) l = Ok l' /\ Forall2 (fun x r => represents gs r x) l l'.
Proof.
  intros H. destruct (mapM (merge_node G) l) as [l'|] eqn:E.
  - exists l'. split; auto. apply mapM_inv in E. clear -E H HG Hr Hd. induction E; constructor.
    + apply (merge_node_represents f gs G HG Hd); auto. apply H. now left.
    + apply IHE. intros; apply H. now right.
  - apply mapM_panic in E as (x & Hx & Ex). apply (merge_node_panic f gs G HG) in Ex. specialize (H x Hx). lia.
Qed.

Lemma merge_quorum_set_total q : qset_of_fbas q -> exists q', merge_quorum_set G q = Ok q'.
Proof.
  induction q as [t vs is_ IH] using qset_ind'. intros H.
  destruct (merge_nodes_ok vs) as (vs' & Ev & _); [intros x Hx; apply H; now left|].
  assert (exists is', mapM (merge_quorum_set G) is_ = Ok is') as [is' Ei].
  { destruct (mapM (merge_quorum_set G) is_) as [is'|] eqn:E; [eauto|]. apply mapM_panic in E as (i & Hi & Ex).
    destruct (IH i Hi) as [i' Ei]; [eapply qset_of_fbas_inner; eauto|]. congruence. }
  eexists. apply merge_quorum_set_inv. eauto.
Qed.

(** ids after merging are representatives *)
Lemma merge_mentions q : forall q' x, qset_of_fbas q -> merge_quorum_set G q = Ok q' -> mentions x q' ->
  exists y, mentions y q /\ represents gs x y.
Proof.
  induction q as [t vs is_ IH] using qset_ind'. intros q' x H Em Hx.
  apply merge_quorum_set_inv in Em as (vs' & is' & Ev & Ei & ->).
  destruct (merge_nodes_ok vs) as (vs2 & Ev2 & HF); [intros y Hy; apply H; now left|]. rewrite Ev in Ev2. inversion Ev2; subst vs2.
  apply mapM_inv in Ei.
  assert (Hin : mentions x (QS t (vs' ++ heads is') (filter (fun i => negb (single i)) is'))).
  { destruct (collapse_cases t (vs' ++ heads is') (filter (fun i => negb (single i)) is')) as [[E _]|(v & Hv & _ & E)];
      rewrite E in Hx; auto.
    apply mentions_inv in Hx as [[<-|[]]|Hx]; apply mentions_inv; auto. }
  assert (Hinner : (exists i', In i' is' /\ mentions x i') -> exists y, mentions y (QS t vs is_) /\ represents gs x y).
  { intros (i' & Hi' & Hm). destruct (Forall2_in_r _ _ _ _ Ei Hi') as (i & Hi & Em).
    destruct (IH i Hi i' x) as (y & Hy & Hrep); auto; [eapply qset_of_fbas_inner; eauto|]. exists y. split; auto.
    eapply mentions_inner; eauto. }
  apply mentions_inv in Hin as [Hin|(i' & Hi' & Hm)].
  - apply in_app_or in Hin as [Hin|Hin].
    + destruct (Forall2_in_r _ _ _ _ HF Hin) as (y & Hy & Hrep). exists y. split; auto. now left.
    + apply Hinner. unfold heads in Hin. apply in_flat_map in Hin as (i' & Hi' & Hv). apply filter_In in Hi' as [Hi' _].
      exists i'. split; auto. destruct i'. now left.
  - apply Hinner. apply filter_In in Hi' as [Hi' _]. eauto.
Qed.

Lemma count_image S R vs vs' : group_image gs S R -> Forall2 (fun x r => represents gs r x) vs vs' ->
  List.length (filter (fun x => mem x S) vs) <= List.length (filter (fun x => mem x R) vs').
Proof.
  intros Hg. induction 1 as [|x r vs vs' Hrep HF IH]; cbn; auto.
  destruct (mem x S) eqn:Ex; [|destruct (mem r R); cbn; lia].
  assert (mem r R = true) as -> by (apply Hg; eauto). cbn. lia.
Qed.

Lemma merge_preserves q : forall q' S R, qset_of_fbas q -> lossless G q -> merge_quorum_set G q = Ok q' ->
  group_image gs S R -> is_quorum_slice q S = true -> is_quorum_slice q' R = true.
Proof.
  induction q as [t vs is_ IH] using qset_ind'. intros q' S R Hq Hl Em Hg Hs.
  apply merge_quorum_set_inv in Em as (vs' & is' & Ev & Ei & ->).
  destruct (merge_nodes_ok vs) as (vs2 & Ev2 & HF); [intros y Hy; apply Hq; now left|]. rewrite Ev in Ev2. inversion Ev2; subst vs2.
  apply mapM_inv in Ei. apply is_quorum_slice_matches in Hs as [Ht Hm].
  inversion Hl as [t0 vs0 is0 Hl1 Hl2]; subst t0 vs0 is0.
  set (inner := filter (fun i => negb (single i)) is').
  assert (Hcount : t <= matches R (vs' ++ heads is') inner).
  { unfold matches in *. rewrite filter_app, app_length.
    pose proof (count_image S R vs vs' Hg HF).
    assert (List.length (filter (fun i => is_quorum_slice i S) is_) <=
            List.length (filter (fun x => mem x R) (heads is')) + List.length (filter (fun i => is_quorum_slice i R) inner)); [|lia].
    assert (Hq' : forall i, In i is_ -> qset_of_fbas i) by (intros i Hi; eapply qset_of_fbas_inner; eauto).
    unfold inner. clear -Ei IH Hl1 Hl2 Hg Hq'. unfold heads.
    induction Ei as [|i i' l l' Em Ei IHl]; [cbn; lia|].
    assert (IHl' : List.length (filter (fun i => is_quorum_slice i S) l) <=
       List.length (filter (fun x => mem x R) (flat_map validators (filter single l'))) +
       List.length (filter (fun i => is_quorum_slice i R) (filter (fun i => negb (single i)) l'))).
    { apply IHl; intros; [eapply IH|eapply Hl1|eapply Hl2|eapply Hq']; eauto; now right. }
    cbn [filter]. destruct (is_quorum_slice i S) eqn:Es.
    + assert (Es' : is_quorum_slice i' R = true) by (refine (IH i (or_introl eq_refl) i' S R _ _ Em Hg Es); [apply Hq'|apply Hl1]; now left).
      destruct (single i') eqn:E1; cbn [negb].
      * pose proof (Hl2 i i' (or_introl eq_refl) Em E1) as Hnil.
        apply single_spec in E1 as (t' & v & is' & ->). cbn in Hnil. subst is'.
        apply is_quorum_slice_matches in Es' as [Ht' Hm']. unfold matches in Hm'. cbn in Hm'.
        cbn [flat_map validators]. rewrite filter_app, app_length. cbn [filter].
        destruct (mem v R); cbn in *; lia.
      * cbn [filter]. rewrite Es'. cbn [List.length]. lia.
    + destruct (single i'); cbn [negb flat_map filter]; [rewrite filter_app, app_length; lia|].
      destruct (is_quorum_slice i' R); cbn [List.length]; lia. }
  destruct (collapse_cases t (vs' ++ heads is') inner) as [[-> _]|(v & Hv & Hall & ->)].
  - apply is_quorum_slice_matches. auto.
  - apply is_quorum_slice_matches. split; [lia|]. unfold matches in *. cbn [filter].
    destruct (mem v R) eqn:Ev'; [cbn; lia|].
    assert (filter (fun x => mem x R) (vs' ++ heads is') = []) as E0.
    { destruct (filter (fun x => mem x R) (vs' ++ heads is')) as [|w l] eqn:E0; auto.
      assert (Hw : In w (w :: l)) by now left. rewrite <- E0 in Hw. apply filter_In in Hw as [Hw1 Hw2].
      rewrite (Hall w Hw1) in Hw2. congruence. }
    rewrite E0 in Hcount. cbn in *. lia.
Qed.

(** merging again changes nothing *)
Inductive merged_form : qset -> Prop :=
| merged_form_intro t vs is_ : (forall v, In v vs -> merge_node G v = Ok v) -> collapse t vs is_ = QS t vs is_ ->
    (forall i, In i is_ -> single i = false /\ merged_form i) -> merged_form (QS t vs is_).

Lemma merged_form_fix q : merged_form q -> merge_quorum_set G q = Ok q.
Proof.
  induction q as [t vs is_ IH] using qset_ind'. inversion 1 as [t0 vs0 is0 Hv Hc Hi]; subst.
  apply merge_quorum_set_inv. exists vs, is_. split; [|split].
  - clear -Hv. induction vs as [|v vs IHv]; cbn; auto. rewrite (Hv v (or_introl eq_refl)). cbn. rewrite IHv; auto.
    intros; apply Hv; now right.
  - clear -IH Hi. induction is_ as [|i l IHl]; cbn; auto. rewrite (IH i (or_introl eq_refl)); [|apply Hi; now left]. cbn. rewrite IHl; auto.
    + intros; apply IH; auto. now right.
    + intros; apply Hi. now right.
  - assert (filter single is_ = []) as E1.
    { clear -Hi. induction is_ as [|i l IHl]; cbn; auto. destruct (Hi i (or_introl eq_refl)) as [-> _]. apply IHl. intros; apply Hi; now right. }
    assert (filter (fun i => negb (single i)) is_ = is_) as E2.
    { clear -Hi. induction is_ as [|i l IHl]; cbn; auto. destruct (Hi i (or_introl eq_refl)) as [-> _]. cbn. rewrite IHl; auto. intros; apply Hi; now right. }
    unfold heads. rewrite E1, E2. cbn. now rewrite app_nil_r.
Qed.

Lemma collapse_idem t vs is_ : exists t' vs', collapse t vs is_ = QS t' vs' is_ /\ collapse t' vs' is_ = QS t' vs' is_ /\
  forall v, In v vs' -> In v vs.
Proof.
  destruct (collapse_cases t vs is_) as [[E _]|(v & Hv & Hall & E)]; rewrite E.
  - exists t, vs. auto.
  - exists 1, [v]. split; auto. split; [cbn; rewrite Nat.eqb_refl; reflexivity|]. intros w [<-|[]]. auto.
Qed.

Lemma merge_merged_form q : forall q', qset_of_fbas q -> merge_quorum_set G q = Ok q' -> merged_form q'.
Proof.
  induction q as [t vs is_ IH] using qset_ind'. intros q' Hq Em.
  pose proof (merge_mentions (QS t vs is_) q') as Hmen.
  assert (Hfix : forall v, mentions v q' -> merge_node G v = Ok v).
  { intros v Hv. destruct (Hmen v Hq Em Hv) as (y & Hy & Hrep).
    apply (merge_node_represents f gs G HG Hd).
    - apply (represents_range f gs Hr v y); auto.
    - apply (represents_idem gs v y); auto. }
  apply merge_quorum_set_inv in Em as (vs' & is' & Ev & Ei & ->).
  destruct (collapse_idem t (vs' ++ heads is') (filter (fun i => negb (single i)) is')) as (t2 & vs2 & E & E2 & Hsub).
  rewrite E in *. constructor; auto.
  - intros v Hv. apply Hfix. now left.
  - intros i Hi. apply filter_In in Hi as [Hi Hs]. split; [now apply negb_true_iff|]. apply mapM_inv in Ei.
    destruct (Forall2_in_r _ _ _ _ Ei Hi) as (i0 & Hi0 & Em). eapply IH; eauto. eapply qset_of_fbas_inner; eauto.
Qed.
End Ok.

(** ** names *)
Definition group_list (g : option groupings) : list grouping := match g with Some G => g_groupings G | None => [] end.
Definition names_ok (f : fbas) (g : option groupings) : Prop :=
  match g with Some G => groupings_ok f (g_groupings G) G /\ groups_of f (g_groupings G) /\ disjoint_groups (g_groupings G) | None => True end.

Lemma to_public_key_ok f x : x < number_of_nodes f -> exists n, nth_error (nodes f) x = Some n /\ to_public_key f x = Ok (node_pk n).
Proof.
  intros Hx. unfold to_public_key. destruct (nth_error (nodes f) x) as [n|] eqn:E.
  - exists n. auto.
  - apply nth_error_None in E. unfold number_of_nodes in Hx. lia.
Qed.

Lemma mapM_exists {A B} (k : A -> res B) (P : A -> B -> Prop) l : (forall x, In x l -> exists y, k x = Ok y /\ P x y) ->
  exists l', mapM k l = Ok l' /\ Forall2 P l l'.
Proof.
  induction l as [|a l IH]; intros H; cbn; [exists []; auto|].
  destruct (H a (or_introl eq_refl)) as (y & -> & Hy). destruct IH as (l' & -> & Hl); [intros; apply H; now right|].
  exists (y :: l'). auto.
Qed.

Lemma to_names_ok f g l : names_ok f g -> (forall x, In x l -> x < number_of_nodes f) ->
  exists names, to_names l f g = Ok names /\ Forall2 (shown_as f (group_list g)) l names.
Proof.
  intros Hg Hx. destruct g as [G|]; cbn [to_names group_list].
  - destruct Hg as (HG & Hr & Hd). apply mapM_exists. intros x Hin. unfold to_grouping_name.
    destruct (group_dec (g_groupings G) x) as [(j & g & Hj & Hm)|Hn].
    + assert (get_by_member G x = Ok (Some g)) as ->.
      { apply (get_by_member_spec f (g_groupings G)); auto. split; auto. eapply nth_error_In; eauto. }
      cbn. exists (g_name g). split; auto. left. exists g. split; auto. eapply nth_error_In; eauto.
    + assert (get_by_member G x = Ok None) as -> by (apply (get_by_member_spec f (g_groupings G)); auto).
      cbn. destruct (to_public_key_ok f x (Hx x Hin)) as (n & Hn' & ->). exists (node_pk n). split; auto. right. eauto.
  - apply mapM_exists. intros x Hin. destruct (to_public_key_ok f x (Hx x Hin)) as (n & Hn' & ->).
    exists (node_pk n). split; auto. right. split; [intros ? []|eauto].
Qed.

Lemma pretty_set_ok f g s : names_ok f g -> (forall x, mem x s = true -> x < number_of_nodes f) ->
  exists names, sr_into_pretty_vec s f g = Ok names /\ shown_list f (group_list g) s names.
Proof.
  intros Hg Hs. unfold sr_into_pretty_vec. destruct (to_names_ok f g (elements s) Hg) as (names & E & HF).
  - intros x Hx. apply Hs. now apply elements_spec.
  - exists names. split; auto. exists (elements s). split; [apply elements_sorted|]. split; auto. intros; apply elements_spec.
Qed.

Lemma vr_unwrap_inv r l : vr_unwrap r = Ok l ->
  match vr_unshrink_table r with
  | Some t => Forall2 (fun s s' => unshrink_set_with t s = Ok s') (node_sets r) l
  | None => l = node_sets r
  end.
Proof.
  unfold vr_unwrap, vr_unshrink. destruct (vr_unshrink_table r) as [t|]; cbn.
  - destruct (unshrink_sets_with t (node_sets r)) as [l0|] eqn:E; cbn; [|discriminate]. intros [= <-]. now apply mapM_inv.
  - now intros [= <-].
Qed.

Lemma pretty_vec_vec_ok f g r l : names_ok f g -> vr_unwrap r = Ok l ->
  (forall s x, In s l -> mem x s = true -> x < number_of_nodes f) ->
  exists ll, vr_into_pretty_vec_vec r f g = Ok ll /\ Forall2 (shown_list f (group_list g)) l ll.
Proof.
  intros Hg Hu Hl. apply vr_unwrap_inv in Hu. unfold vr_into_pretty_vec_vec.
  destruct (vr_unshrink_table r) as [t|].
  - induction Hu as [|s s' sets l Es Hu IH]; cbn [mapM]; [exists []; auto|]. rewrite Es. cbn [bind].
    destruct (pretty_set_ok f g s' Hg) as (names & -> & Hn); [intros x; apply Hl; now left|].
    destruct IH as (ll & -> & HF); [intros; eapply Hl; eauto; now right|]. exists (names :: ll). split; auto.
  - subst l. apply mapM_exists. intros s Hs. cbn [bind]. destruct (pretty_set_ok f g s Hg) as (names & -> & Hn); [intros x; apply Hl; auto|]. eauto.
Qed.

Lemma qset_depth_inner t vs is_ i : In i is_ -> qset_depth i < qset_depth (QS t vs is_).
Proof.
  cbn [qset_depth]. induction is_ as [|a l IH]; [contradiction|]. intros [->|H]; cbn; [lia|]. specialize (IH H). lia.
Qed.

Lemma pretty_none_ok f n : forall q, qset_depth q <= n -> qset_of_fbas f q ->
  exists p, pretty_quorum_set n q f None = Ok p /\ shown_qset f [] q p.
Proof.
  induction n as [|n IH]; intros [t vs is_] Hd Hq; [cbn in Hd; lia|]. cbn [pretty_quorum_set bind].
  destruct (to_names_ok f None vs I) as (names & -> & HF); [intros x Hx; apply Hq; now left|]. cbn [bind].
  destruct (mapM_exists (fun i => pretty_quorum_set n i f None) (shown_qset f []) is_) as (ps & -> & HF').
  - intros i Hi. apply IH; [|eapply qset_of_fbas_inner; eauto]. pose proof (qset_depth_inner t vs is_ i Hi). lia.
  - cbn. eexists. split; [reflexivity|]. constructor; auto.
Qed.

Lemma pretty_merged_ok f G n : groupings_ok f (g_groupings G) G -> groups_of f (g_groupings G) -> disjoint_groups (g_groupings G) ->
  forall q, qset_depth q <= n -> qset_of_fbas f q -> merged_form G q ->
  exists p, pretty_quorum_set n q f (Some G) = Ok p /\ shown_qset f (g_groupings G) q p.
Proof.
  intros HG Hr Hd. induction n as [|n IH]; intros [t vs is_] Hdep Hq Hm; [cbn in Hdep; lia|]. cbn [pretty_quorum_set].
  rewrite (merged_form_fix G _ Hm). cbn [bind].
  destruct (to_names_ok f (Some G) vs) as (names & -> & HF); [cbn; auto|intros x Hx; apply Hq; now left|]. cbn [bind].
  inversion Hm as [t0 vs0 is0 _ _ Hi]; subst.
  destruct (mapM_exists (fun i => pretty_quorum_set n i f (Some G)) (shown_qset f (g_groupings G)) is_) as (ps & -> & HF').
  - intros i Hin. apply IH; [|eapply qset_of_fbas_inner; eauto|apply Hi; auto]. pose proof (qset_depth_inner t vs is_ i Hin). lia.
  - cbn. eexists. split; [reflexivity|]. constructor; auto.
Qed.

Lemma max_le_all l : forall a, (forall x, In x l -> x <= a) -> fold_right Nat.max 0 l <= a.
Proof. induction l as [|b l IH]; cbn; intros a H; [lia|]. apply Nat.max_lub; [apply H; now left|apply IH; intros; apply H; now right]. Qed.
Lemma merge_depth G q : forall q', merge_quorum_set G q = Ok q' -> qset_depth q' <= qset_depth q.
Proof.
  induction q as [t vs is_ IH] using qset_ind'. intros q' Em. apply merge_quorum_set_inv in Em as (vs' & is' & _ & Ei & ->).
  destruct (collapse_idem t (vs' ++ heads is') (filter (fun i => negb (single i)) is')) as (t2 & vs2 & -> & _).
  cbn [qset_depth]. apply le_n_S. apply max_le_all. intros d Hdd. apply in_map_iff in Hdd as (i & <- & Hi).
  apply filter_In in Hi as [Hi _]. apply mapM_inv in Ei. destruct (Forall2_in_r _ _ _ _ Ei Hi) as (i0 & Hi0 & Em).
  pose proof (qset_depth_inner t vs is_ i0 Hi0). cbn [qset_depth] in H. specialize (IH i0 Hi0 i Em). lia.
Qed.

Lemma into_pretty_quorum_set_ok f G q : groupings_ok f (g_groupings G) G -> groups_of f (g_groupings G) -> disjoint_groups (g_groupings G) ->
  qset_of_fbas f q -> exists q' p, merge_quorum_set G q = Ok q' /\ into_pretty_quorum_set q f (Some G) = Ok p /\ shown_qset f (g_groupings G) q' p.
Proof.
  intros HG Hr Hd Hq. destruct (merge_quorum_set_total f _ G HG Hd q Hq) as [q' Em].
  pose proof (merge_merged_form f _ G HG Hr Hd q q' Hq Em) as Hm.
  assert (Hq' : qset_of_fbas f q').
  { intros x Hx. destruct (merge_mentions f _ G HG Hd q q' x Hq Em Hx) as (y & Hy & Hrep). eapply represents_range; eauto. }
  destruct (pretty_merged_ok f G (qset_depth q) HG Hr Hd q' (merge_depth G q q' Em) Hq' Hm) as (p & Ep & Hp).
  exists q', p. split; auto. split; auto. unfold into_pretty_quorum_set.
  destruct (qset_depth q) as [|n]; [discriminate|]. cbn [pretty_quorum_set] in *. rewrite (merged_form_fix G _ Hm) in Ep. now rewrite Em.
Qed.
