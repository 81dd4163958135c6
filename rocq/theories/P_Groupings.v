(** Proofs about groupings: [Groupings::new], lookups, merging of ids and sets. *)
From Coq Require Import Lia.
From Verif Require Export Spec_Groupings P_List P_Sets P_Misc P_Slices.
Local Open Scope list_scope.

Lemma add_members_spec r k vs : forall ids m, (forall v, In v vs -> v < List.length ids) ->
  exists ids' m', add_members r k vs (ids, m) = Ok (ids', m') /\ List.length ids' = List.length ids /\
    (forall x, In x vs -> nth_error ids' x = Some r /\ assoc Nat.eqb x m' = Some k) /\
    (forall x, ~ In x vs -> nth_error ids' x = nth_error ids x /\ assoc Nat.eqb x m' = assoc Nat.eqb x m).
Proof.
  induction vs as [|v vs IH]; intros ids m Hr; cbn [add_members].
  - exists ids, m. repeat split; auto; contradiction.
  - assert (v <? List.length ids = true) as -> by (apply Nat.ltb_lt; apply Hr; now left). cbn [assert].
    destruct (IH (update v r ids) ((v, k) :: m)) as (ids' & m' & E & Hl & Hin & Hout).
    + intros w Hw. rewrite update_length. apply Hr. now right.
    + exists ids', m'. rewrite update_length in Hl. split; [exact E|]. split; [exact Hl|]. split.
      * intros x [Hx|Hx].
        -- subst x. destruct (in_dec Nat.eq_dec v vs) as [Hv|Hv]; [now apply Hin|].
           destruct (Hout v Hv) as [-> ->]. cbn [assoc]. rewrite Nat.eqb_refl. split; [|reflexivity].
           rewrite nth_error_update. rewrite Nat.eqb_refl.
           assert (v <? List.length ids = true) as -> by (apply Nat.ltb_lt; apply Hr; now left). reflexivity.
        -- now apply Hin.
      * intros x Hx. destruct (Hout x) as [-> ->]; [intros Hx'; apply Hx; now right|]. cbn [assoc].
        assert (x <> v) by (intros ->; apply Hx; now left).
        rewrite nth_error_update.
        split; [|destruct (Nat.eqb_spec x v); congruence || reflexivity].
        destruct (Nat.eqb_spec x v), (Nat.eqb_spec v x); try congruence; reflexivity.
Qed.

Lemma add_groups_spec gs : forall k ids m,
  disjoint_groups gs -> (forall g x, In g gs -> member x g -> nth_error ids x = Some x) ->
  exists ids' m', add_groups k gs (ids, m) = Ok (ids', m') /\ List.length ids' = List.length ids /\
    (forall j g x, nth_error gs j = Some g -> member x g ->
        (exists r rest, g_validators g = r :: rest /\ nth_error ids' x = Some r) /\ assoc Nat.eqb x m' = Some (k + j)) /\
    (forall x, (forall g, In g gs -> ~ member x g) -> nth_error ids' x = nth_error ids x /\ assoc Nat.eqb x m' = assoc Nat.eqb x m).
Proof.
  induction gs as [|g gs IH]; intros k ids m Hd Hid; cbn [add_groups].
  - exists ids, m. repeat split; auto; destruct j; discriminate.
  - assert (Hd' : disjoint_groups gs).
    { intros i j gi gj x Hi Hj Hxi Hxj. pose proof (Hd (S i) (S j) gi gj x Hi Hj Hxi Hxj). lia. }
    assert (Hsep : forall g' x, In g' gs -> member x g' -> member x g -> False).
    { intros g' x Hg Hx Hx'. apply In_nth_error in Hg as [i Hi].
      pose proof (Hd 0 (S i) g g' x eq_refl Hi Hx' Hx). lia. }
    assert (Hstep : exists ids1 m1,
      (match g_validators g with [] => Ok (ids, m) | r :: vs => add_members r k vs (fst (ids, m), (r, k) :: snd (ids, m)) end) = Ok (ids1, m1) /\
      List.length ids1 = List.length ids /\
      (forall x, member x g -> (exists r rest, g_validators g = r :: rest /\ nth_error ids1 x = Some r) /\ assoc Nat.eqb x m1 = Some k) /\
      (forall x, ~ member x g -> nth_error ids1 x = nth_error ids x /\ assoc Nat.eqb x m1 = assoc Nat.eqb x m)).
    { unfold member in *. destruct (g_validators g) as [|r vs] eqn:Ev.
      - exists ids, m. repeat split; auto; contradiction.
      - cbn [fst snd]. destruct (add_members_spec r k vs ids ((r, k) :: m)) as (ids1 & m1 & E & Hl & Hin & Hout).
        { intros v Hv. apply nth_error_Some. rewrite (Hid g v (or_introl eq_refl)) by (rewrite Ev; now right). discriminate. }
        exists ids1, m1. split; [exact E|]. split; [exact Hl|]. split.
        + intros x Hx. destruct (in_dec Nat.eq_dec x vs) as [Hv|Hv].
          * destruct (Hin x Hv). split; [exists r, vs; auto|auto].
          * destruct Hx as [<-|Hx]; [|contradiction]. destruct (Hout r Hv) as [-> ->].
            cbn [assoc]. rewrite Nat.eqb_refl. split; [|reflexivity]. exists r, vs. split; [reflexivity|].
            apply (Hid g); [now left|]. rewrite Ev. now left.
        + intros x Hx. destruct (Hout x) as [-> ->]; [intros Hx'; apply Hx; now right|]. split; [reflexivity|].
          cbn [assoc]. destruct (Nat.eqb_spec x r); [|reflexivity]. subst. exfalso. apply Hx. now left. }
    destruct Hstep as (ids1 & m1 & E1 & Hl1 & Hin1 & Hout1). rewrite E1. cbn [bind].
    destruct (IH (S k) ids1 m1) as (ids2 & m2 & E2 & Hl2 & Hin2 & Hout2); [exact Hd'| |].
    { intros g' x Hg Hx. destruct (Hout1 x) as [-> _]; [intros Hx'; eapply Hsep; eauto|]. apply (Hid g' x); [now right|auto]. }
    exists ids2, m2. split; [exact E2|]. split; [congruence|]. split.
    + intros [|j] g' x Hj Hx; cbn in Hj.
      * inversion Hj; subst g'. destruct (Hout2 x) as [-> ->]; [intros g' Hg Hx'; eapply Hsep; eauto|].
        rewrite Nat.add_0_r. apply Hin1. exact Hx.
      * rewrite Nat.add_succ_r. apply (Hin2 j g' x Hj Hx).
    + intros x Hx. destruct (Hout2 x) as [-> ->]; [intros g' Hg; apply Hx; now right|]. apply Hout1. apply Hx. now left.
Qed.

(** what a [Groupings] made by [new] knows *)
Record groupings_ok (f : fbas) (gs : list grouping) (G : groupings) : Prop := {
  go_groups : g_groupings G = gs;
  go_fbas : g_fbas G = f;
  go_len : List.length (g_merged_ids G) = number_of_nodes f;
  go_in : forall j g x, nth_error gs j = Some g -> member x g ->
      (exists r rest, g_validators g = r :: rest /\ nth_error (g_merged_ids G) x = Some r) /\
      assoc Nat.eqb x (g_node_id_to_org_idx G) = Some j;
  go_out : forall x, (forall g, In g gs -> ~ member x g) ->
      nth_error (g_merged_ids G) x = (if x <? number_of_nodes f then Some x else None) /\
      assoc Nat.eqb x (g_node_id_to_org_idx G) = None }.

Lemma nth_error_seq n x : nth_error (seq 0 n) x = if x <? n then Some x else None.
Proof.
  destruct (Nat.ltb_spec x n).
  - rewrite nth_error_nth' with (d := 0) by (now rewrite seq_length). now rewrite seq_nth.
  - apply nth_error_None. now rewrite seq_length.
Qed.

Lemma groupings_new_ok f gs : groups_of f gs -> disjoint_groups gs ->
  exists G, groupings_new gs f = Ok G /\ groupings_ok f gs G.
Proof.
  intros Hr Hd. unfold groupings_new.
  destruct (add_groups_spec gs 0 (seq 0 (number_of_nodes f)) [] Hd) as (ids & m & E & Hl & Hin & Hout).
  { intros g x Hg Hx. rewrite nth_error_seq. specialize (Hr g x Hg Hx). apply Nat.ltb_lt in Hr. now rewrite Hr. }
  rewrite E. cbn [bind fst snd]. eexists. split; [reflexivity|]. rewrite seq_length in Hl.
  split; cbn [g_groupings g_merged_ids g_node_id_to_org_idx g_fbas]; auto.
  intros x Hx. rewrite <- nth_error_seq. now apply Hout.
Qed.

Section Ok.
Context (f : fbas) (gs : list grouping) (G : groupings) (HG : groupings_ok f gs G)
        (Hr : groups_of f gs) (Hd : disjoint_groups gs).

Lemma group_dec x : (exists j g, nth_error gs j = Some g /\ member x g) \/ (forall g, In g gs -> ~ member x g).
Proof.
  clear. induction gs as [|g l IH]; [right; intros ? []|].
  destruct (in_dec Nat.eq_dec x (g_validators g)) as [H|H]; [left; now exists 0, g|].
  destruct IH as [(j & g' & Hj & Hx)|IH]; [left; now exists (S j), g'|].
  right. intros g' [<-|Hg]; auto.
Qed.

Lemma member_unique g g' x : In g gs -> In g' gs -> member x g -> member x g' -> g = g'.
Proof.
  intros Hg Hg' Hx Hx'. apply In_nth_error in Hg as [i Hi]. apply In_nth_error in Hg' as [j Hj].
  pose proof (Hd i j g g' x Hi Hj Hx Hx'). subst j. congruence.
Qed.

Lemma merge_node_represents x r : x < number_of_nodes f -> (merge_node G x = Ok r <-> represents gs r x).
Proof.
  intros Hx. unfold merge_node, represents. destruct (group_dec x) as [(j & g & Hj & Hm)|Hn].
  - destruct (go_in _ _ _ HG j g x Hj Hm) as [(r0 & rest & Ev & En) _]. rewrite En. cbn [unwrap].
    split.
    + intros [= <-]. left. exists g, rest. split; [eapply nth_error_In; eauto|]. auto.
    + intros [(g' & rest' & Hg & Hm' & Ev')|[Hno _]].
      * assert (g' = g) by (eapply member_unique; eauto; eapply nth_error_In; eauto). subst g'. congruence.
      * exfalso. apply (Hno g); [eapply nth_error_In; eauto|auto].
  - destruct (go_out _ _ _ HG x Hn) as [-> _]. apply Nat.ltb_lt in Hx as ->. cbn [unwrap]. split.
    + intros [= <-]. right. auto.
    + intros [(g' & rest' & Hg & Hm' & _)|[_ ->]]; [|reflexivity]. exfalso. apply (Hn g'); auto.
Qed.

Lemma represents_total x : exists r, represents gs r x.
Proof.
  destruct (group_dec x) as [(j & g & Hj & Hm)|Hn].
  - pose proof Hm as Hm'. unfold member in Hm'. destruct (g_validators g) as [|r rest] eqn:Ev; [destruct Hm'|].
    exists r. left. exists g, rest. split; [eapply nth_error_In; eauto|]. split; auto.
  - exists x. right. auto.
Qed.

Lemma represents_fun r r' x : represents gs r x -> represents gs r' x -> r = r'.
Proof.
  intros [(g & rest & Hg & Hm & Ev)|[Hn ->]] [(g' & rest' & Hg' & Hm' & Ev')|[Hn' ->]]; auto.
  - assert (g = g') by (eapply member_unique; eauto). subst. congruence.
  - exfalso. eapply Hn'; eauto.
  - exfalso. eapply Hn; eauto.
Qed.

Lemma represents_range r x : x < number_of_nodes f -> represents gs r x -> r < number_of_nodes f.
Proof.
  intros Hx [(g & rest & Hg & Hm & Ev)|[_ ->]]; auto. apply (Hr g r Hg). unfold member. rewrite Ev. now left.
Qed.

Lemma merge_node_total x : x < number_of_nodes f -> exists r, merge_node G x = Ok r /\ represents gs r x.
Proof. intros Hx. destruct (represents_total x) as [r Hrx]. exists r. split; auto. now apply merge_node_represents. Qed.

Lemma merge_node_panic x : merge_node G x = Panic <-> number_of_nodes f <= x.
Proof.
  unfold merge_node. destruct (nth_error (g_merged_ids G) x) eqn:E; cbn; split; intros H; try discriminate; auto.
  - assert (x < List.length (g_merged_ids G)) by (apply nth_error_Some; congruence). rewrite (go_len _ _ _ HG) in *. lia.
  - apply nth_error_None in E. now rewrite (go_len _ _ _ HG) in E.
Qed.

Lemma merge_same x y : x < number_of_nodes f -> y < number_of_nodes f ->
  (merge_node G x = merge_node G y <-> x = y \/ same_group gs x y).
Proof.
  intros Hx Hy. destruct (merge_node_total x Hx) as (r & Er & Rr). destruct (merge_node_total y Hy) as (r' & Er' & Rr').
  rewrite Er, Er'. split.
  - intros [= <-]. destruct Rr as [(g & rest & Hg & Hm & Ev)|[Hn ->]], Rr' as [(g' & rest' & Hg' & Hm' & Ev')|[Hn' ->]].
    + right. exists g. split; auto. split; auto. assert (g = g'); [|congruence].
      apply (member_unique g g' r); auto; unfold member; [rewrite Ev|rewrite Ev']; now left.
    + exfalso. apply (Hn' g Hg). unfold member. rewrite Ev. now left.
    + exfalso. apply (Hn g' Hg'). unfold member. rewrite Ev'. now left.
    + now left.
  - intros [->|(g & Hg & Hm & Hm')].
    + f_equal. eapply represents_fun; eauto.
    + f_equal. destruct (g_validators g) as [|r0 rest] eqn:Ev; [unfold member in Hm; rewrite Ev in Hm; destruct Hm|].
      assert (Hx0 : represents gs r0 x) by (left; exists g, rest; auto).
      assert (Hy0 : represents gs r0 y) by (left; exists g, rest; auto).
      rewrite (represents_fun _ _ _ Rr Hx0). symmetry. exact (represents_fun _ _ _ Rr' Hy0).
Qed.

Lemma represents_idem r x : represents gs r x -> represents gs r r.
Proof.
  intros [(g & rest & Hg & Hm & Ev)|[Hn ->]].
  - left. exists g, rest. split; auto. split; auto. unfold member. rewrite Ev. now left.
  - right. auto.
Qed.

Lemma merge_idem x r : merge_node G x = Ok r -> merge_node G r = Ok r.
Proof.
  intros E. assert (Hx : x < number_of_nodes f).
  { destruct (le_lt_dec (number_of_nodes f) x) as [H|H]; auto. apply merge_node_panic in H. congruence. }
  apply merge_node_represents in E; auto. apply merge_node_represents.
  - now apply (represents_range r x).
  - now apply (represents_idem r x).
Qed.

Lemma get_by_member_spec x o : get_by_member G x = Ok o <->
  match o with Some g => In g gs /\ member x g | None => forall g, In g gs -> ~ member x g end.
Proof.
  unfold get_by_member. destruct (group_dec x) as [(j & g & Hj & Hm)|Hn].
  - destruct (go_in _ _ _ HG j g x Hj Hm) as [_ ->]. rewrite (go_groups _ _ _ HG), Hj. cbn.
    assert (Hg : In g gs) by (eapply nth_error_In; eauto).
    split; [intros [= <-]; auto|]. destruct o as [g'|].
    + intros [Hg' Hm']. do 2 f_equal. now apply (member_unique g g' x).
    + intros H. exfalso. now apply (H g).
  - destruct (go_out _ _ _ HG x Hn) as [_ ->]. split; [intros [= <-]; auto|].
    destruct o as [g'|]; auto. intros [Hg' Hm']. exfalso. now apply (Hn g').
Qed.

(** merging sets *)
Definition in_fbas (S : bset) : Prop := forall x, mem x S = true -> x < number_of_nodes f.

Lemma merge_node_set_spec S : in_fbas S -> exists R, merge_node_set G S = Ok R /\ group_image gs S R.
Proof.
  intros HS. unfold merge_node_set.
  assert (exists rs, mapM (merge_node G) (elements S) = Ok rs) as [rs E].
  { destruct (mapM (merge_node G) (elements S)) as [rs|] eqn:E; [eauto|]. apply mapM_panic in E as (x & Hx & Ex).
    apply merge_node_panic in Ex. rewrite elements_spec in Hx. specialize (HS x Hx). lia. }
  rewrite E. cbn. eexists. split; [reflexivity|]. apply mapM_inv in E. intros r. rewrite mem_of_list. split.
  - intros Hr'. destruct (Forall2_in_r _ _ _ _ E Hr') as (x & Hx & Ex). rewrite elements_spec in Hx.
    exists x. split; auto. apply merge_node_represents; auto.
  - intros (x & Hrep & Hx). rewrite <- elements_spec in Hx. destruct (Forall2_in_l _ _ _ _ E Hx) as (r' & Hr' & Ex).
    rewrite elements_spec in Hx. apply merge_node_represents in Ex; auto. now rewrite (represents_fun _ _ _ Hrep Ex).
Qed.

Lemma group_image_unique S R R' : group_image gs S R -> group_image gs S R' -> R = R'.
Proof. intros H H'. apply bset_ext. intros x. apply eq_true_iff_eq. rewrite (H x), (H' x). reflexivity. Qed.

Lemma merge_node_sets_spec l : (forall S, In S l -> in_fbas S) ->
  exists l', merge_node_sets G l = Ok l' /\ Forall2 (group_image gs) l l'.
Proof.
  unfold merge_node_sets. induction l as [|S l IH]; intros H; cbn [mapM]; [exists []; auto|].
  destruct (merge_node_set_spec S) as (R & -> & HR); [apply H; now left|].
  cbn [bind]. destruct IH as (l' & -> & Hl); [intros; apply H; now right|]. exists (R :: l'). auto.
Qed.

(** the nodes of a set of groups *)
Definition group_nodes (R : bset) : bset :=
  of_list (filter (fun x => match merge_node G x with Ok r => mem r R | Panic => false end) (seq 0 (number_of_nodes f))).
Lemma group_nodes_ok R : members_of f gs R (group_nodes R).
Proof.
  intros x. unfold group_nodes. rewrite mem_of_list, filter_In, in_seq. split.
  - intros [Hx E]. assert (Hx' : x < number_of_nodes f) by lia. destruct (merge_node_total x Hx') as (r & Er & Rr).
    rewrite Er in E. split; auto. exists r. auto.
  - intros (Hx & r & Rr & Hm). split; [lia|]. apply merge_node_represents in Rr; auto. now rewrite Rr.
Qed.
Lemma members_unique R M M' : members_of f gs R M -> members_of f gs R M' -> M = M'.
Proof. intros H H'. apply bset_ext. intros x. apply eq_true_iff_eq. rewrite (H x), (H' x). reflexivity. Qed.

(** ** The group-level question *)
Lemma merged_minimal (P : bset -> Prop) l l' :
  (forall a b, incl_set a b -> P a -> P b) ->
  (forall S, In S l <-> minimal P S) -> (forall S, In S l -> in_fbas S) ->
  (forall S, P S -> exists m, In m l /\ incl_set m S) ->
  Forall2 (group_image gs) l l' ->
  forall R, In R (remove_non_minimal_node_sets l') <-> minimal (by_groups f gs P) R.
Proof.
  intros Hmono Hl Hrange Hbelow HF.
  assert (Himg : forall S R, In S l -> group_image gs S R -> by_groups f gs P R).
  { intros S R HS HR. exists (group_nodes R). split; [apply group_nodes_ok|]. apply (Hmono S); [|apply Hl in HS; apply HS].
    intros x Hx. apply group_nodes_ok. split; [apply (Hrange S HS x Hx)|]. destruct (represents_total x) as [r Hrx].
    exists r. split; auto. apply HR. eauto. }
  assert (Hdown : forall R, by_groups f gs P R -> exists R', In R' l' /\ incl_set R' R).
  { intros R (M & HM & HP). destruct (Hbelow M HP) as (m & Hm & Hi).
    destruct (Forall2_in_l _ _ _ _ HF Hm) as (R' & HR' & Hg). exists R'. split; auto. intros r Hr'.
    apply Hg in Hr' as (x & Hrx & Hx). apply Hi in Hx. apply HM in Hx as (_ & r' & Hr'x & Hr').
    now rewrite (represents_fun _ _ _ Hrx Hr'x). }
  intros R. rewrite (proj1 (remove_non_minimal_node_sets_spec l')). unfold minimal_in. split.
  - intros [HR Hmin]. destruct (Forall2_in_r _ _ _ _ HF HR) as (S & HS & Hg). split; [now apply (Himg S)|].
    intros R' HR' Hi. destruct (Hdown R' HR') as (R2 & HR2 & Hi2).
    assert (R2 = R) by (apply Hmin; auto; intros x Hx; auto). subst R2.
    apply bset_ext. intros x. apply eq_true_iff_eq. split; auto.
  - intros [HP Hmin]. destruct (Hdown R HP) as (R' & HR' & Hi).
    assert (HB : forall R'', In R'' l' -> by_groups f gs P R'').
    { intros R'' HR''. destruct (Forall2_in_r _ _ _ _ HF HR'') as (S & HS & Hg). now apply (Himg S). }
    assert (R' = R) by (apply Hmin; auto). subst R'. split; auto.
Qed.
End Ok.
