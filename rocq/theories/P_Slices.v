(** [combine_groups] and [to_quorum_slices]. *)
From Verif Require Export P_QuorumSet.
Local Open Scope list_scope.

Lemma Forall2_map_l {A B C} (R : B -> C -> Prop) (g : A -> B) l l' :
  Forall2 R (map g l) l' <-> Forall2 (fun a c => R (g a) c) l l'.
Proof.
  revert l'. induction l as [|a l IH]; intros l'; simpl.
  - split; inversion 1; constructor.
  - split; inversion 1; subst; constructor; auto; apply IH; auto.
Qed.

Lemma Forall2_map_r {A B C} (R : C -> B -> Prop) (g : A -> B) l l' :
  Forall2 R l' (map g l) <-> Forall2 (fun c a => R c (g a)) l' l.
Proof.
  revert l'. induction l as [|a l IH]; intros l'; simpl.
  - split; inversion 1; constructor.
  - split; inversion 1; subst; constructor; auto; apply IH; auto.
Qed.

Lemma Forall2_impl {A B} (R R' : A -> B -> Prop) l l' : (forall a b, R a b -> R' a b) -> Forall2 R l l' -> Forall2 R' l l'.
Proof. induction 2; constructor; auto. Qed.

Lemma Forall2_in_l {A B} (R : A -> B -> Prop) l l' x : Forall2 R l l' -> In x l -> exists y, In y l' /\ R x y.
Proof. induction 1; simpl; intros H'; destruct H'; subst; firstorder. Qed.

Lemma Forall2_in_r {A B} (R : A -> B -> Prop) l l' y : Forall2 R l l' -> In y l' -> exists x, In x l /\ R x y.
Proof. induction 1; simpl; intros H'; destruct H'; subst; firstorder. Qed.

Lemma Forall2_exists {A B} (R : A -> B -> Prop) l' : (forall b, In b l' -> exists a, R a b) -> exists l, Forall2 R l l'.
Proof.
  induction l' as [|b l' IH]; intro H.
  - exists []. constructor.
  - destruct (H b (or_introl eq_refl)) as (a & Ha).
    destruct IH as (l & Hl); [intros; apply H; right; auto|]. exists (a :: l). constructor; auto.
Qed.

(** The sets obtained from [k] entries of a quorum set, an entry being a validator or a choice
    from [G] of an inner set. *)
Lemma combine_entries_spec k (G : qset -> list bset) vs is_ s :
  In s (combine_groups k (map (fun v => [of_list [v]]) vs ++ map G is_)) <->
  exists vs' is' ps, subseq vs' vs /\ subseq is' is_ /\ List.length vs' + List.length is' = k /\ 1 <= k /\
    Forall2 (fun s i => In s (G i)) ps is' /\ s = unions (map (fun v => of_list [v]) vs' ++ ps).
Proof.
  rewrite combine_groups_spec. split.
  - intros (c & p & Hc & Hl & Hn & Hp & ->).
    apply subseq_app_inv in Hc. destruct Hc as (c1 & c2 & -> & H1 & H2).
    apply subseq_map_inv in H1. destruct H1 as (vs' & Hvs & ->).
    apply subseq_map_inv in H2. destruct H2 as (is' & His & ->).
    apply Forall2_app_inv_r in Hp. destruct Hp as (p1 & p2 & Hp1 & Hp2 & ->).
    apply (proj1 (Forall2_map_r _ _ _ _)) in Hp1. apply (proj1 (Forall2_map_r _ _ _ _)) in Hp2.
    assert (E : p1 = map (fun v => of_list [v]) vs').
    { clear - Hp1. induction Hp1 as [|a v l l' Hav Hp IH]; [reflexivity|].
      destruct Hav as [<-|[]]. rewrite IH. reflexivity. }
    subst p1. rewrite app_length, !map_length in Hl.
    exists vs', is', p2. repeat split; auto.
    destruct vs', is'; simpl in *; try lia; try (exfalso; apply Hn; reflexivity).
  - intros (vs' & is' & ps & Hvs & His & Hl & Hk & Hps & ->).
    exists (map (fun v => [of_list [v]]) vs' ++ map G is'), (map (fun v => of_list [v]) vs' ++ ps).
    repeat split.
    + apply subseq_app; apply subseq_map; auto.
    + rewrite app_length, !map_length. auto.
    + intro E. apply (f_equal (@List.length _)) in E. rewrite app_length, !map_length in E. simpl in E. lia.
    + apply Forall2_app.
      * apply Forall2_map_r, Forall2_map_l. clear. induction vs'; constructor; simpl; auto.
      * apply Forall2_map_r. auto.
Qed.

Lemma mem_entries x vs' ps :
  mem x (unions (map (fun v => of_list [v]) vs' ++ ps)) = true <-> In x vs' \/ exists s, In s ps /\ mem x s = true.
Proof.
  rewrite mem_unions. split.
  - intros (a & Ha & Hx). apply in_app_iff in Ha. destruct Ha as [Ha|Ha]; eauto.
    apply in_map_iff in Ha. destruct Ha as (v & <- & Hv). apply mem_of_list in Hx.
    destruct Hx as [<-|[]]. auto.
  - intros [Hv|(s & Hs & Hx)].
    + exists (of_list [x]). split; [apply in_app_iff; left; apply (in_map (fun v => of_list [v])); auto|].
      apply mem_of_list. left; auto.
    + exists s. split; auto. apply in_app_iff. auto.
Qed.

Lemma to_quorum_slices_unfold t vs is_ :
  to_quorum_slices (QS t vs is_) =
  combine_groups t (map (fun v => [of_list [v]]) vs ++ map to_quorum_slices is_).
Proof. reflexivity. Qed.

(** every returned set is a slice *)
Lemma to_quorum_slices_sound q : forall s, In s (to_quorum_slices q) -> is_quorum_slice q s = true.
Proof.
  induction q as [t vs is_ IH] using qset_ind'. intro s.
  rewrite to_quorum_slices_unfold, combine_entries_spec.
  intros (vs' & is' & ps & Hvs & His & Hl & Hk & Hps & ->).
  apply is_quorum_slice_iff. apply slice_intro with (vs' := vs') (is' := is'); auto; [| |lia].
  - intros v Hv. apply mem_entries. auto.
  - intros i Hi. apply is_quorum_slice_iff.
    destruct (Forall2_in_r _ _ _ i Hps Hi) as (s & Hs & Hsi).
    apply is_quorum_slice_mono with (s := s).
    + intros x Hx. apply mem_entries. eauto.
    + apply IH; auto. eapply subseq_in; eauto.
Qed.

(** every satisfying set contains a returned one *)
Lemma to_quorum_slices_complete q : forall S, is_quorum_slice q S = true ->
  exists s, In s (to_quorum_slices q) /\ incl_set s S.
Proof.
  induction q as [t vs is_ IH] using qset_ind'. intros S HS.
  apply is_quorum_slice_matches in HS. destruct HS as [Ht Hm]. unfold matches in Hm.
  set (fv := filter (fun x => mem x S) vs) in *. set (fi := filter (fun i => is_quorum_slice i S) is_) in *.
  set (vs' := firstn t fv). set (is' := firstn (t - List.length vs') fi).
  assert (Hvs : subseq vs' vs) by (eapply subseq_trans; [apply subseq_firstn|apply subseq_filter]).
  assert (His : subseq is' is_) by (eapply subseq_trans; [apply subseq_firstn|apply subseq_filter]).
  assert (Hlen : List.length vs' + List.length is' = t).
  { unfold is', vs'. rewrite !firstn_length. lia. }
  assert (HI : exists ps, Forall2 (fun s i => In s (to_quorum_slices i) /\ incl_set s S) ps is').
  { apply Forall2_exists. intros i Hi.
    assert (Hi' : In i fi) by (eapply subseq_in; [apply subseq_firstn|exact Hi]).
    apply filter_In in Hi'. apply IH; tauto. }
  destruct HI as (ps & Hps).
  exists (unions (map (fun v => of_list [v]) vs' ++ ps)). split.
  - rewrite to_quorum_slices_unfold, combine_entries_spec. exists vs', is', ps. repeat split; auto.
    eapply Forall2_impl; [|exact Hps]. cbv beta. tauto.
  - intros x Hx. apply mem_entries in Hx. destruct Hx as [Hx|(s & Hs & Hx)].
    + assert (Hx' : In x fv) by (eapply subseq_in; [apply subseq_firstn|exact Hx]).
      apply filter_In in Hx'. tauto.
    + destruct (Forall2_in_l _ _ _ s Hps Hs) as (i & _ & _ & Hincl). auto.
Qed.

(** ** quorum sets without repeated validators *)
Definition nodup_qset (q : qset) : Prop := NoDup (contained_nodes_with_duplicates q).

Lemma NoDup_app_inv {A} (a b : list A) : NoDup (a ++ b) -> NoDup a /\ NoDup b /\ forall x, In x a -> In x b -> False.
Proof.
  induction a as [|x a IH]; simpl; intro H.
  - repeat split; auto. constructor.
  - inversion H as [|? ? Hn H']; subst. destruct (IH H') as (Ha & Hb & Hab). repeat split; auto.
    + constructor; auto. intro Hx. apply Hn. apply in_app_iff. auto.
    + intros y [<-|Hy] Hyb; [apply Hn, in_app_iff; auto|eauto].
Qed.

Lemma nodup_flat_map_in {A B} (g : A -> list B) l a : NoDup (flat_map g l) -> In a l -> NoDup (g a).
Proof.
  induction l as [|b l IH]; simpl; intros H Hin; [tauto|].
  apply NoDup_app_inv in H. destruct H as (H1 & H2 & _). destruct Hin as [<-|Hin]; auto.
Qed.

Lemma nodup_flat_map_inj {A B} (g : A -> list B) l a b x :
  NoDup (flat_map g l) -> In a l -> In b l -> In x (g a) -> In x (g b) -> a = b.
Proof.
  induction l as [|c l IH]; simpl; intros H Ha Hb Hxa Hxb; [tauto|].
  apply NoDup_app_inv in H. destruct H as (H1 & H2 & H3).
  destruct Ha as [<-|Ha], Hb as [<-|Hb]; auto; exfalso; apply (H3 x); auto; apply in_flat_map; eauto.
Qed.

Lemma nodup_flat_map_subseq {A B} (g : A -> list B) l' l :
  NoDup (flat_map g l) -> subseq l' l -> (forall a, In a l' -> g a <> []) -> NoDup l'.
Proof.
  intros H Hs. induction Hs as [|a l' l Hs IH|a l' l Hs IH]; intro Hn.
  - constructor.
  - simpl in H. apply NoDup_app_inv in H. apply IH; tauto.
  - simpl in H. apply NoDup_app_inv in H. destruct H as (H1 & H2 & H3). constructor.
    + intro Hin. destruct (g a) as [|x ga] eqn:E; [apply (Hn a); simpl; auto|].
      apply (H3 x); [simpl; auto|]. apply in_flat_map. exists a. rewrite E. split; [|simpl; auto].
      eapply subseq_in; eauto.
    + apply IH; auto. intros b Hb. apply Hn. right; auto.
Qed.

Lemma nodup_qset_inv t vs is_ : nodup_qset (QS t vs is_) ->
  NoDup vs /\ (forall i, In i is_ -> nodup_qset i) /\
  (forall x i, In x vs -> In i is_ -> mentions x i -> False) /\
  (forall x i j, In i is_ -> In j is_ -> mentions x i -> mentions x j -> i = j).
Proof.
  unfold nodup_qset. simpl. intro H. apply NoDup_app_inv in H. destruct H as (H1 & H2 & H3).
  repeat split; auto.
  - intros i Hi. eapply nodup_flat_map_in; eauto.
  - intros x i Hx Hi Hm. apply (H3 x); auto. apply in_flat_map. exists i. rewrite contained_list_spec. auto.
  - intros x i j Hi Hj Hxi Hxj. eapply nodup_flat_map_inj; eauto; apply contained_list_spec; eauto.
Qed.

Lemma nodup_inner_nodup t vs is_ is' : nodup_qset (QS t vs is_) -> subseq is' is_ ->
  (forall i, In i is' -> exists x, mentions x i) -> NoDup is'.
Proof.
  unfold nodup_qset. simpl. intros H Hs Hm. apply NoDup_app_inv in H. destruct H as (_ & H & _).
  eapply nodup_flat_map_subseq; eauto. intros i Hi E. destruct (Hm i Hi) as (x & Hx).
  apply contained_list_spec in Hx. rewrite E in Hx. destruct Hx.
Qed.

(** sets drawn from a quorum set only have its members *)
Lemma slices_mentioned q : forall s x, In s (to_quorum_slices q) -> mem x s = true -> mentions x q.
Proof.
  induction q as [t vs is_ IH] using qset_ind'. intros s x.
  rewrite to_quorum_slices_unfold, combine_entries_spec.
  intros (vs' & is' & ps & Hvs & His & Hl & Hk & Hps & ->) Hx. apply mem_entries in Hx.
  destruct Hx as [Hx|(s & Hs & Hx)].
  - left. eapply subseq_in; eauto.
  - destruct (Forall2_in_l _ _ _ s Hps Hs) as (i & Hi & Hsi).
    assert (In i is_) by (eapply subseq_in; eauto). eright; eauto.
Qed.

Lemma mentions_local_eq q s s' : (forall x, mentions x q -> mem x s = mem x s') ->
  is_quorum_slice q s = is_quorum_slice q s'.
Proof. apply is_quorum_slice_local. Qed.

Lemma Forall2_pair_l {A B} (R : A -> B -> Prop) l l' x : Forall2 R l l' -> In x l ->
  exists y, In (x, y) (combine l l') /\ In y l' /\ R x y.
Proof. induction 1; simpl; intros H'; destruct H'; subst; firstorder. Qed.

Lemma Forall2_pair_r {A B} (R : A -> B -> Prop) l l' y : Forall2 R l l' -> In y l' ->
  exists x, In (x, y) (combine l l') /\ In x l /\ R x y.
Proof. induction 1; simpl; intros H'; destruct H'; subst; firstorder. Qed.

Lemma combine_fun {A B} (l : list A) (l' : list B) a a' b :
  NoDup l' -> In (a, b) (combine l l') -> In (a', b) (combine l l') -> a = a'.
Proof.
  revert l'. induction l as [|c l IH]; intros [|d l'] N H1 H2; simpl in *; try tauto.
  inversion N; subst.
  destruct H1 as [H1|H1], H2 as [H2|H2]; try inversion H1; try inversion H2; subst; auto.
  - exfalso. apply in_combine_r in H2. auto.
  - exfalso. apply in_combine_r in H1. auto.
  - eauto.
Qed.

(** The choice made for an inner set can be read off the union. *)
Lemma entries_inner_choice t vs is_ vs' is' ps (P : bset -> qset -> Prop) s i :
  nodup_qset (QS t vs is_) -> subseq vs' vs -> subseq is' is_ -> NoDup is' ->
  Forall2 P ps is' -> (forall s i x, P s i -> mem x s = true -> mentions x i) ->
  In (s, i) (combine ps is') ->
  inter (unions (map (fun v => of_list [v]) vs' ++ ps)) (contained_nodes i) = s.
Proof.
  intros Hnd Hvs His Nis Hps HP Hsi. destruct (nodup_qset_inv _ _ _ Hnd) as (Hv & Hi & Hvi & Hii).
  assert (Hi' : In i is') by (eapply in_combine_r; eauto).
  assert (Hs : In s ps) by (eapply in_combine_l; eauto).
  assert (HPsi : P s i).
  { destruct (Forall2_pair_r _ _ _ i Hps Hi') as (s' & H1 & H2 & H3).
    replace s with s'; auto. apply (combine_fun ps is' s' s i); auto. }
  apply bset_ext. intro y. apply eq_true_iff_eq. rewrite mem_inter, andb_true_iff, contained_nodes_spec. split.
  - intros [Hy Hmy]. apply mem_entries in Hy. destruct Hy as [Hy|(s2 & Hs2 & Hy)].
    + exfalso. apply (Hvi y i); auto; eapply subseq_in; eauto.
    + destruct (Forall2_pair_l _ _ _ s2 Hps Hs2) as (j & Hj & Hj' & HPj).
      assert (j = i) by (apply (Hii y); eauto; eapply subseq_in; eauto). subst j.
      replace s with s2; auto. apply (combine_fun ps is' s2 s i); auto.
  - intro Hy. split; [apply mem_entries; eauto|eauto].
Qed.

Lemma to_quorum_slices_minimal q : nodup_qset q ->
  forall s S', In s (to_quorum_slices q) -> incl_set S' s -> is_quorum_slice q S' = true -> S' = s.
Proof.
  induction q as [t vs is_ IH] using qset_ind'. intros Hnd s S'.
  destruct (nodup_qset_inv _ _ _ Hnd) as (Hv & Hi & Hvi & Hii).
  rewrite to_quorum_slices_unfold, combine_entries_spec.
  intros (vs' & is' & ps & Hvs & His & Hl & Hk & Hps & ->) Hincl Hsat.
  apply is_quorum_slice_matches in Hsat. destruct Hsat as [_ Hm]. unfold matches in Hm.
  set (fv := filter (fun x => mem x S') vs) in *. set (fi := filter (fun i => is_quorum_slice i S') is_) in *.
  assert (Hmen : forall s i, In s (to_quorum_slices i) -> exists x, mentions x i).
  { intros s i Hs. apply to_quorum_slices_sound in Hs. destruct (is_quorum_slice_meets _ _ Hs) as (x & Hx & _). eauto. }
  assert (Nis : NoDup is').
  { eapply nodup_inner_nodup; eauto. intros i Hi'. destruct (Forall2_in_r _ _ _ i Hps Hi') as (s & _ & Hs). eauto. }
  assert (Hfv : incl fv vs').
  { intros x Hx. apply filter_In in Hx. destruct Hx as [Hx Hxs]. apply Hincl in Hxs.
    apply mem_entries in Hxs. destruct Hxs as [|(s & Hs & Hxs)]; auto.
    destruct (Forall2_in_l _ _ _ s Hps Hs) as (i & Hi' & Hsi).
    exfalso. apply (Hvi x i); [auto|eapply subseq_in; eauto|eapply slices_mentioned; eauto]. }
  assert (Hfi : incl fi is').
  { intros i Hi'. apply filter_In in Hi'. destruct Hi' as [Hin Hsat].
    destruct (is_quorum_slice_meets _ _ Hsat) as (x & Hmx & Hxs). apply Hincl in Hxs.
    apply mem_entries in Hxs. destruct Hxs as [Hxv|(s & Hs & Hxs)].
    - exfalso. apply (Hvi x i); auto. eapply subseq_in; eauto.
    - destruct (Forall2_in_l _ _ _ s Hps Hs) as (j & Hj & Hsj).
      replace i with j; auto. apply (Hii x); auto; [eapply subseq_in; eauto|eapply slices_mentioned; eauto]. }
  assert (Nfv : NoDup fv) by (apply NoDup_filter; auto).
  assert (Nfi : NoDup fi).
  { eapply nodup_inner_nodup; [exact Hnd|apply subseq_filter|]. intros i Hi'. apply filter_In in Hi'.
    destruct Hi' as [_ Hsat]. destruct (is_quorum_slice_meets _ _ Hsat) as (x & Hmx & _). eauto. }
  assert (L1 := NoDup_incl_length Nfv Hfv). assert (L2 := NoDup_incl_length Nfi Hfi).
  assert (Hfv' : incl vs' fv) by (apply NoDup_length_incl; auto; lia).
  assert (Hfi' : incl is' fi) by (apply NoDup_length_incl; auto; lia).
  apply bset_ext. intro x. apply eq_true_iff_eq. split; [apply Hincl|].
  intro Hx. apply mem_entries in Hx. destruct Hx as [Hx|(s & Hs & Hx)].
  - apply Hfv' in Hx. apply filter_In in Hx. tauto.
  - destruct (Forall2_pair_l _ _ _ s Hps Hs) as (i & Hpair & Hi' & Hsi).
    assert (Hsat := Hfi' i Hi'). apply filter_In in Hsat. destruct Hsat as [Hin Hsat].
    assert (Hch := entries_inner_choice t vs is_ vs' is' ps _ s i Hnd Hvs His Nis Hps
                     (fun s i x H1 H2 => slices_mentioned i s x H1 H2) Hpair).
    assert (E : inter S' (contained_nodes i) = s).
    { apply (IH i); auto.
      - intros y Hy. rewrite <- Hch. rewrite mem_inter, andb_true_iff in *. split; [apply Hincl|]; tauto.
      - rewrite <- Hsat. apply is_quorum_slice_local. intros y Hy. apply contained_nodes_spec in Hy.
        rewrite mem_inter, Hy, andb_true_r. auto. }
    rewrite <- E in Hx. rewrite mem_inter, andb_true_iff in Hx. tauto.
Qed.

(** ** no repeated entries in the output *)
Lemma NoDup_app_intro {A} (a b : list A) : NoDup a -> NoDup b -> (forall x, In x a -> In x b -> False) -> NoDup (a ++ b).
Proof.
  induction a as [|x a IH]; simpl; intros Ha Hb Hab; auto. inversion Ha; subst. constructor.
  - rewrite in_app_iff. intros [H|H]; [auto|eapply Hab; eauto].
  - apply IH; eauto.
Qed.

Lemma NoDup_flat_map {A B} (f : A -> list B) l : NoDup l -> (forall a, In a l -> NoDup (f a)) ->
  (forall a b x, In a l -> In b l -> In x (f a) -> In x (f b) -> a = b) -> NoDup (flat_map f l).
Proof.
  induction 1 as [|a l Hn Hl IH]; intros H1 H2; simpl; [constructor|].
  apply NoDup_app_intro.
  - apply H1; simpl; auto.
  - apply IH; intros; [apply H1|eapply H2]; simpl; eauto.
  - intros x Hx Hx'. apply in_flat_map in Hx'. destruct Hx' as (b & Hb & Hxb).
    apply Hn. replace a with b; auto. apply (H2 b a x); simpl; auto.
Qed.

Lemma NoDup_map_inj {A B} (f : A -> B) l : NoDup l -> (forall a b, In a l -> In b l -> f a = f b -> a = b) -> NoDup (map f l).
Proof.
  induction 1 as [|a l Hn Hl IH]; intro H; simpl; constructor.
  - rewrite in_map_iff. intros (b & E & Hb). apply Hn. replace a with b; auto. apply H; simpl; auto.
  - apply IH. intros; apply H; simpl; auto.
Qed.

Lemma flat_map_app_perm {A B} (f g : A -> list B) l :
  Permutation (flat_map (fun a => f a ++ g a) l) (flat_map f l ++ flat_map g l).
Proof.
  induction l as [|a l IH]; simpl; auto. rewrite <- !app_assoc. apply Permutation_app_head.
  rewrite IH. rewrite !app_assoc. apply Permutation_app_tail. apply Permutation_app_comm.
Qed.

Lemma flat_map_swap {A B C} (f : A -> B -> list C) la lb :
  Permutation (flat_map (fun a => flat_map (f a) lb) la) (flat_map (fun b => flat_map (fun a => f a b) la) lb).
Proof.
  induction la as [|a la IH]; simpl.
  - induction lb; simpl; auto.
  - rewrite IH. rewrite <- flat_map_app_perm. reflexivity.
Qed.

Lemma flat_map_map_cons {A B} (s : B) (f : A -> list (list B)) l :
  flat_map (fun c => map (cons s) (f c)) l = map (cons s) (flat_map f l).
Proof. induction l; simpl; auto. rewrite map_app, IHl. reflexivity. Qed.

Inductive separated : list (list bset) -> Prop :=
| sep_nil : separated []
| sep_cons g gs : NoDup g -> (forall s, In s g -> is_empty s = false) ->
    (forall s g' s', In s g -> In g' gs -> In s' g' -> disjoint s s' = true) ->
    separated gs -> separated (g :: gs).

Lemma unions_cons s p : unions (s :: p) = union s (unions p).
Proof.
  apply bset_ext. intro x. apply eq_true_iff_eq. rewrite mem_union, orb_true_iff, !mem_unions. split.
  - intros (a & [<-|Ha] & Hx); eauto.
  - intros [Hx|(a & Ha & Hx)]; [exists s|exists a]; simpl; auto.
Qed.

Lemma not_empty_mem s : is_empty s = false <-> exists x, mem x s = true.
Proof.
  split.
  - intro H. destruct (elements s) as [|x l] eqn:E.
    + exfalso. apply elements_nil in E. subst. discriminate.
    + exists x. apply elements_spec. rewrite E. left; auto.
  - intros (x & Hx). destruct (is_empty s) eqn:E; auto. rewrite is_empty_iff in E. rewrite E in Hx. discriminate.
Qed.

Lemma choices_tail_disjoint g gs c p s :
  (forall s g' s', In s g -> In g' gs -> In s' g' -> disjoint s s' = true) -> In s g ->
  subseq c gs -> Forall2 (fun x g => In x g) p c -> disjoint s (unions p) = true.
Proof.
  intros Hd Hs Hc Hp. apply disjoint_iff. intros x Hx Hx'. apply mem_unions in Hx'.
  destruct Hx' as (a & Ha & Hxa). destruct (Forall2_in_l _ _ _ a Hp Ha) as (g' & Hg' & Hag').
  assert (D := Hd s g' a Hs (subseq_in _ _ Hc _ Hg') Hag'). rewrite disjoint_iff in D. eauto.
Qed.

Lemma choices_inj gs : separated gs -> forall c c' p p', subseq c gs -> subseq c' gs ->
  Forall2 (fun x g => In x g) p c -> Forall2 (fun x g => In x g) p' c' -> unions p = unions p' -> p = p'.
Proof.
  induction 1 as [|g gs Hnd Hne Hd Hsep IH]; intros c c' p p' Hc Hc' Hp Hp' E.
  - inversion Hc; subst. inversion Hc'; subst. inversion Hp; inversion Hp'; auto.
  - inversion Hc as [|? ? ? Hs|a c1 ? Hs]; subst; inversion Hc' as [|? ? ? Hs'|a' c1' ? Hs']; subst.
    + eauto.
    + exfalso. inversion Hp' as [|s' ? p1 ? Hs1 Hp1]; subst.
      destruct (proj1 (not_empty_mem s') (Hne _ Hs1)) as (x & Hx).
      assert (D := choices_tail_disjoint g gs c p s' Hd Hs1 Hs Hp). rewrite disjoint_iff in D. apply (D x Hx).
      rewrite E, unions_cons, mem_union, Hx. auto.
    + exfalso. inversion Hp as [|s' ? p1 ? Hs1 Hp1]; subst.
      destruct (proj1 (not_empty_mem s') (Hne _ Hs1)) as (x & Hx).
      assert (D := choices_tail_disjoint g gs c' p' s' Hd Hs1 Hs' Hp'). rewrite disjoint_iff in D. apply (D x Hx).
      rewrite <- E, unions_cons, mem_union, Hx. auto.
    + inversion Hp as [|s ? p1 ? Hs1 Hp1]; subst. inversion Hp' as [|s' ? p1' ? Hs1' Hp1']; subst.
      rewrite !unions_cons in E.
      assert (D1 := choices_tail_disjoint g gs _ _ s Hd Hs1 Hs' Hp1').
      assert (D2 := choices_tail_disjoint g gs _ _ s' Hd Hs1' Hs' Hp1').
      assert (D3 := choices_tail_disjoint g gs _ _ s Hd Hs1 Hs Hp1).
      assert (D4 := choices_tail_disjoint g gs _ _ s' Hd Hs1' Hs Hp1).
      rewrite disjoint_iff in D1, D2, D3, D4.
      assert (M : forall x, mem x s || mem x (unions p1) = mem x s' || mem x (unions p1')).
      { intro x. rewrite <- !mem_union, E. reflexivity. }
      f_equal.
      * apply bset_ext. intro x. specialize (M x). specialize (D1 x). specialize (D4 x).
        destruct (mem x s), (mem x s'), (mem x (unions p1)), (mem x (unions p1')); simpl in *; auto; try discriminate;
          exfalso; auto.
      * apply (IH c1 c1'); auto. apply bset_ext. intro x. specialize (M x).
        specialize (D1 x). specialize (D2 x). specialize (D3 x). specialize (D4 x).
        destruct (mem x s), (mem x s'), (mem x (unions p1)), (mem x (unions p1')); simpl in *; auto; try discriminate;
          exfalso; auto.
Qed.

Lemma choices_nodup gs : separated gs -> forall k, NoDup (flat_map product (combinations k gs)).
Proof.
  induction 1 as [|g gs Hnd Hne Hd Hsep IH]; intros [|k]; simpl.
  - constructor; auto. constructor.
  - constructor.
  - constructor; auto. constructor.
  - rewrite flat_map_app. apply NoDup_app_intro; auto.
    + rewrite flat_map_concat_map, map_map, <- flat_map_concat_map. simpl.
      eapply Permutation_NoDup; [symmetry; apply flat_map_swap|].
      apply NoDup_flat_map; auto.
      * intros s Hs. rewrite flat_map_map_cons. apply NoDup_map_inj; auto. congruence.
      * intros s s' p Hs Hs' H1 H2. rewrite flat_map_map_cons in H1, H2. apply in_map_iff in H1, H2.
        destruct H1 as (? & <- & _). destruct H2 as (? & E & _). congruence.
    + intros p H1 H2. apply in_flat_map in H1, H2. destruct H1 as (c & Hc & Hp). destruct H2 as (c' & Hc' & Hp').
      apply in_map_iff in Hc. destruct Hc as (c1 & <- & Hc1).
      apply product_spec in Hp, Hp'. inversion Hp as [|s ? p1 ? Hs Hp1]; subst.
      inversion Hp' as [|? g' ? ? Hs' ? E1 E2]; subst.
      apply combinations_spec in Hc'. destruct Hc' as [Hc' _].
      assert (D := Hd s g' s Hs (subseq_in _ _ Hc' _ (or_introl eq_refl)) Hs').
      destruct (proj1 (not_empty_mem s) (Hne _ Hs)) as (x & Hx). rewrite disjoint_iff in D. eauto.
Qed.

Lemma combine_groups_nodup k gs : separated gs -> NoDup (combine_groups k gs).
Proof.
  intro H. unfold combine_groups. destruct k as [|k].
  - simpl. destruct gs; simpl; constructor.
  - assert (E : flat_map (fun c => map unions (multi_cartesian_product c)) (combinations (S k) gs) =
              map unions (flat_map product (combinations (S k) gs))).
    { assert (Hlen : forall c, In c (combinations (S k) gs) -> multi_cartesian_product c = product c).
      { intros c Hc. apply combinations_spec in Hc. destruct Hc as [_ Hc]. destruct c; [discriminate|reflexivity]. }
      revert Hlen. generalize (combinations (S k) gs). induction l as [|c l IHl]; intro Hlen; simpl; auto.
      rewrite map_app, IHl, Hlen; simpl; auto. intros; apply Hlen; right; auto. }
    rewrite E. apply NoDup_map_inj; [apply choices_nodup; auto|].
    intros p p' H1 H2 E'. apply in_flat_map in H1, H2. destruct H1 as (c & Hc & Hp). destruct H2 as (c' & Hc' & Hp').
    apply product_spec in Hp, Hp'. apply combinations_spec in Hc, Hc'. destruct Hc, Hc'.
    apply (choices_inj gs H c c'); auto.
Qed.

(** groups drawn from a quorum set without repetitions are separated *)
Lemma entries_separated t vs is_ (G : qset -> list bset) :
  nodup_qset (QS t vs is_) ->
  (forall i, In i is_ -> NoDup (G i)) ->
  (forall i s, In i is_ -> In s (G i) -> is_empty s = false) ->
  (forall i s x, In i is_ -> In s (G i) -> mem x s = true -> mentions x i) ->
  separated (map (fun v => [of_list [v]]) vs ++ map G is_).
Proof.
  intro Hnd.
  assert (Hg : forall is_', (exists l, is_ = l ++ is_') ->
    (forall i, In i is_' -> NoDup (G i)) ->
    (forall i s, In i is_' -> In s (G i) -> is_empty s = false) ->
    (forall i s x, In i is_' -> In s (G i) -> mem x s = true -> mentions x i) -> separated (map G is_')).
  { induction is_' as [|i is_' IH]; intros (l & El) H1 H2 H3; simpl; [constructor|].
    assert (Hn' : NoDup (flat_map contained_nodes_with_duplicates (i :: is_'))).
    { unfold nodup_qset in Hnd. simpl in Hnd. apply NoDup_app_inv in Hnd. destruct Hnd as (_ & Hnd & _).
      rewrite El, flat_map_app in Hnd. apply NoDup_app_inv in Hnd. tauto. }
    simpl in Hn'. apply NoDup_app_inv in Hn'. destruct Hn' as (_ & _ & Hx).
    constructor.
    - apply H1; left; auto.
    - intros s Hs. eapply H2; eauto. left; auto.
    - intros s g' s' Hs Hg' Hs'. apply in_map_iff in Hg'. destruct Hg' as (j & <- & Hj).
      apply disjoint_iff. intros x Hxs Hxs'. apply (Hx x).
      + apply contained_list_spec. eapply H3; eauto. left; auto.
      + apply in_flat_map. exists j. split; auto. apply contained_list_spec. eapply H3; eauto. right; auto.
    - apply IH; intros; [exists (l ++ [i]); rewrite <- app_assoc; auto|apply H1|eapply H2|eapply H3]; simpl; eauto. }
  intros H1 H2 H3. specialize (Hg is_ (ex_intro _ [] eq_refl) H1 H2 H3).
  destruct (nodup_qset_inv _ _ _ Hnd) as (Hv & _ & Hvi & _). clear Hnd.
  induction vs as [|v vs IH]; simpl; auto. inversion Hv; subst. constructor.
  - constructor; auto. constructor.
  - intros s [<-|[]]. apply not_empty_mem. exists v. apply mem_of_list. left; auto.
  - intros s g' s' [<-|[]] Hg' Hs'. apply disjoint_iff. intros x Hx Hx'. apply mem_of_list in Hx.
    destruct Hx as [<-|[]]. apply in_app_iff in Hg'. destruct Hg' as [Hg'|Hg']; apply in_map_iff in Hg'.
    + destruct Hg' as (w & <- & Hw). destruct Hs' as [<-|[]]. apply mem_of_list in Hx'.
      destruct Hx' as [<-|[]]. auto.
    + destruct Hg' as (i & <- & Hi). apply (Hvi v i); simpl; eauto.
  - apply IH; auto. intros x i Hx Hi. apply Hvi; simpl; auto.
Qed.

Lemma to_quorum_slices_nonempty q s : In s (to_quorum_slices q) -> is_empty s = false.
Proof.
  intro H. apply to_quorum_slices_sound in H. destruct (is_quorum_slice_meets _ _ H) as (x & _ & Hx).
  apply not_empty_mem. eauto.
Qed.

Lemma to_quorum_slices_nodup q : nodup_qset q -> NoDup (to_quorum_slices q).
Proof.
  induction q as [t vs is_ IH] using qset_ind'. intro Hnd.
  destruct (nodup_qset_inv _ _ _ Hnd) as (Hv & Hi & Hvi & Hii).
  rewrite to_quorum_slices_unfold. apply combine_groups_nodup.
  eapply entries_separated; eauto using to_quorum_slices_nonempty, slices_mentioned.
Qed.

(** Without repeated validators the returned sets are exactly the minimal satisfying sets. *)
Lemma to_quorum_slices_exact q s : nodup_qset q ->
  (In s (to_quorum_slices q) <-> slice (fun x => mem x s = true) q /\ forall s', slice (fun x => mem x s' = true) q -> incl_set s' s -> s' = s).
Proof.
  intro Hnd. split.
  - intro Hs. split; [apply is_quorum_slice_iff, to_quorum_slices_sound; auto|].
    intros s' Hs' Hi. apply to_quorum_slices_minimal with (q := q); auto. apply is_quorum_slice_iff; auto.
  - intros [Hs Hmin]. apply is_quorum_slice_iff in Hs. destruct (to_quorum_slices_complete q s Hs) as (s0 & H0 & H1).
    replace s with s0; auto. apply Hmin; auto. apply is_quorum_slice_iff, to_quorum_slices_sound; auto.
Qed.
