(** Splitting sets of symmetric clusters. *)
From Verif Require Export P_SplitStep.
Local Open Scope list_scope.

Lemma forallb_filter_id {A} (g : A -> bool) l : forallb g l = true -> filter g l = l.
Proof. induction l as [|a l IH]; simpl; auto. destruct (g a); simpl; [|discriminate]. intro H. rewrite IH; auto. Qed.

Lemma filter_length_le {A} (g : A -> bool) l : List.length (filter g l) <= List.length l.
Proof. induction l as [|a l IH]; simpl; auto. destruct (g a); simpl; lia. Qed.

Lemma filter_length_forallb {A} (g : A -> bool) l : List.length (filter g l) = List.length l -> forallb g l = true.
Proof.
  induction l as [|a l IH]; simpl; auto. assert (H := filter_length_le g l). destruct (g a); simpl; [auto|lia].
Qed.

(** ** entries of a quorum set, validators and inner quorum sets alike *)
Definition entry := (nat + qset)%type.
Definition entries (vs : list nat) (is_ : list qset) : list entry := map inl vs ++ map inr is_.
Definition esat (s : bset) (e : entry) : bool := match e with inl v => mem v s | inr i => is_quorum_slice i s end.
Definition edom (e : entry) : list nat := match e with inl v => [v] | inr i => contained_nodes_with_duplicates i end.

Lemma entries_length vs is_ : List.length (entries vs is_) = List.length vs + List.length is_.
Proof. unfold entries. rewrite app_length, !map_length. auto. Qed.

Lemma filter_map_len {A B} (g : B -> bool) (m : A -> B) l :
  List.length (filter g (map m l)) = List.length (filter (fun a => g (m a)) l).
Proof. induction l as [|a l IH]; simpl; auto. destruct (g (m a)); simpl; auto. Qed.

Lemma entries_matches vs is_ s : List.length (filter (esat s) (entries vs is_)) = matches s vs is_.
Proof. unfold entries, matches. rewrite filter_app, app_length, !filter_map_len. auto. Qed.

Lemma entries_dom t vs is_ : flat_map edom (entries vs is_) = contained_nodes_with_duplicates (QS t vs is_).
Proof.
  unfold entries. rewrite flat_map_app. cbn [contained_nodes_with_duplicates]. f_equal.
  - induction vs; simpl; auto. f_equal; auto.
  - rewrite flat_map_concat_map, map_map, <- flat_map_concat_map. auto.
Qed.

Lemma esat_mono e s s' : incl_set s s' -> esat s e = true -> esat s' e = true.
Proof. destruct e; simpl; intros H; [apply H|apply is_quorum_slice_mono; auto]. Qed.

Lemma esat_meets e s : esat s e = true -> exists x, In x (edom e) /\ mem x s = true.
Proof.
  destruct e as [v|i]; simpl; intro H; [exists v; auto|].
  destruct (is_quorum_slice_meets _ _ H) as (x & Hx & Hm). exists x. split; auto. apply contained_list_spec; auto.
Qed.

Lemma sat_entries t vs is_ s : is_quorum_slice (QS t vs is_) s = true <-> 1 <= t /\ t <= List.length (filter (esat s) (entries vs is_)).
Proof. rewrite is_quorum_slice_matches, entries_matches. tauto. Qed.

(** two sets that satisfy an entry and have no more than [S] in common *)
Definition two_for (S : bset) (e : entry) : Prop :=
  exists Q1 Q2, (forall x, mem x Q1 = true -> In x (edom e)) /\ (forall x, mem x Q2 = true -> In x (edom e)) /\
    esat Q1 e = true /\ esat Q2 e = true /\ incl_set (inter Q1 Q2) S.

Lemma filter_count_mono (s s' : bset) es : incl_set s s' ->
  List.length (filter (esat s) es) <= List.length (filter (esat s') es).
Proof. intro H. apply filter_le. intros e _. apply esat_mono; auto. Qed.

Lemma union_incl_l a b : incl_set a (union a b).
Proof. intros x Hx. rewrite mem_union, Hx. auto. Qed.
Lemma union_incl_r a b : incl_set b (union a b).
Proof. intros x Hx. rewrite mem_union, Hx. apply orb_true_r. Qed.

(** Entries [gs] are used by both sets, [a1] of [bs] only by the first, [a2] only by the second. *)
Lemma glue S : forall gs bs a1 a2, NoDup (flat_map edom (gs ++ bs)) ->
  (forall e, In e gs -> two_for S e) -> (forall e, In e bs -> esat (of_list (edom e)) e = true) ->
  a1 + a2 <= List.length bs ->
  exists Q1 Q2, (forall x, mem x Q1 = true -> In x (flat_map edom (gs ++ bs))) /\
    (forall x, mem x Q2 = true -> In x (flat_map edom (gs ++ bs))) /\
    List.length gs + a1 <= List.length (filter (esat Q1) (gs ++ bs)) /\
    List.length gs + a2 <= List.length (filter (esat Q2) (gs ++ bs)) /\ incl_set (inter Q1 Q2) S.
Proof.
  assert (Hstep : forall e es Q1 Q2 A1 A2, NoDup (flat_map edom (e :: es)) ->
    (forall x, mem x Q1 = true -> In x (flat_map edom es)) -> (forall x, mem x Q2 = true -> In x (flat_map edom es)) ->
    (forall x, mem x A1 = true -> In x (edom e)) -> (forall x, mem x A2 = true -> In x (edom e)) ->
    incl_set (inter Q1 Q2) S -> incl_set (inter A1 A2) S -> incl_set (inter (union A1 Q1) (union A2 Q2)) S).
  { intros e es Q1 Q2 A1 A2 Hnd H1 H2 H3 H4 H5 H6 x Hx. simpl in Hnd. destruct (NoDup_app_inv _ _ Hnd) as (_ & _ & Hd).
    rewrite mem_inter, !mem_union, andb_true_iff, !orb_true_iff in Hx. destruct Hx as [[Hx|Hx] [Hx'|Hx']].
    - apply H6. rewrite mem_inter, Hx, Hx'. auto.
    - exfalso. eauto.
    - exfalso. eauto.
    - apply H5. rewrite mem_inter, Hx, Hx'. auto. }
  induction gs as [|e gs IHg].
  - simpl app. induction bs as [|e bs IHb]; intros a1 a2 Hnd Hg Hb Ha.
    + exists bempty, bempty. simpl in *. repeat split; try lia; intros x Hx; rewrite ?mem_inter, mem_empty in Hx; discriminate.
    + assert (Hnd' := Hnd). simpl in Hnd'. destruct (NoDup_app_inv _ _ Hnd') as (_ & Hnd2 & _).
      assert (Hb2 : forall e, In e bs -> esat (of_list (edom e)) e = true) by (intros; apply Hb; right; auto).
      assert (Hsat : esat (of_list (edom e)) e = true) by (apply Hb; left; auto).
      assert (He : forall x, mem x bempty = true -> In x (edom e)) by (intros x Hx; rewrite mem_empty in Hx; discriminate).
      assert (Hdom : forall x, mem x (of_list (edom e)) = true -> In x (edom e)) by (intro; apply mem_of_list).
      simpl List.length in Ha.
      destruct a1 as [|a1]; [destruct a2 as [|a2]|].
      * exists bempty, bempty. simpl. repeat split; try lia; intros x Hx; rewrite ?mem_inter, mem_empty in Hx; discriminate.
      * destruct (IHb 0 a2 Hnd2 Hg Hb2) as (Q1 & Q2 & D1 & D2 & C1 & C2 & HI); [lia|].
        exists (union bempty Q1), (union (of_list (edom e)) Q2). split; [|split; [|split; [|split]]].
        -- intros x Hx. simpl. apply in_app_iff. rewrite mem_union, orb_true_iff in Hx. destruct Hx; auto.
        -- intros x Hx. simpl. apply in_app_iff. rewrite mem_union, orb_true_iff in Hx. destruct Hx; auto.
        -- simpl. lia.
        -- cbn [filter]. rewrite (esat_mono e _ _ (union_incl_l _ Q2) Hsat). simpl in *.
           assert (H := filter_count_mono Q2 (union (of_list (edom e)) Q2) bs (union_incl_r _ _)). lia.
        -- apply (Hstep e bs); auto. intros x Hx. rewrite mem_inter, mem_empty in Hx. discriminate.
      * destruct (IHb a1 a2 Hnd2 Hg Hb2) as (Q1 & Q2 & D1 & D2 & C1 & C2 & HI); [lia|].
        exists (union (of_list (edom e)) Q1), (union bempty Q2). split; [|split; [|split; [|split]]].
        -- intros x Hx. simpl. apply in_app_iff. rewrite mem_union, orb_true_iff in Hx. destruct Hx; auto.
        -- intros x Hx. simpl. apply in_app_iff. rewrite mem_union, orb_true_iff in Hx. destruct Hx; auto.
        -- cbn [filter]. rewrite (esat_mono e _ _ (union_incl_l _ Q1) Hsat). simpl in *.
           assert (H := filter_count_mono Q1 (union (of_list (edom e)) Q1) bs (union_incl_r _ _)). lia.
        -- assert (H := filter_count_mono Q2 (union bempty Q2) (e :: bs) (union_incl_r _ _)).
           simpl in *. destruct (esat Q2 e), (esat (union bempty Q2) e); simpl in *; lia.
        -- apply (Hstep e bs); auto. intros x Hx. rewrite mem_inter, mem_empty in Hx. rewrite andb_false_r in Hx. discriminate.
  - intros bs a1 a2 Hnd Hg Hb Ha. assert (Hnd' := Hnd). simpl in Hnd'. destruct (NoDup_app_inv _ _ Hnd') as (_ & Hnd2 & _).
    destruct (IHg bs a1 a2 Hnd2) as (Q1 & Q2 & D1 & D2 & C1 & C2 & HI); auto.
    { intros; apply Hg; right; auto. }
    destruct (Hg e (or_introl eq_refl)) as (A1 & A2 & E1 & E2 & S1 & S2 & HA).
    exists (union A1 Q1), (union A2 Q2). split; [|split; [|split; [|split]]].
    + intros x Hx. simpl. apply in_app_iff. rewrite mem_union, orb_true_iff in Hx. destruct Hx; auto.
    + intros x Hx. simpl. apply in_app_iff. rewrite mem_union, orb_true_iff in Hx. destruct Hx; auto.
    + simpl app. cbn [filter]. rewrite (esat_mono e _ _ (union_incl_l _ Q1) S1).
      assert (H := filter_count_mono Q1 (union A1 Q1) (gs ++ bs) (union_incl_r _ _)). simpl. lia.
    + simpl app. cbn [filter]. rewrite (esat_mono e _ _ (union_incl_l _ Q2) S2).
      assert (H := filter_count_mono Q2 (union A2 Q2) (gs ++ bs) (union_incl_r _ _)). simpl. lia.
    + apply (Hstep e (gs ++ bs)); auto.
Qed.

(** ** quorum sets in which all slices overlap *)
Inductive overlapping : qset -> Prop :=
| overlapping_intro t vs is_ : t <= List.length vs + List.length is_ -> List.length vs + List.length is_ < 2 * t ->
    (forall i, In i is_ -> overlapping i) -> overlapping (QS t vs is_).

Lemma overlapping_inv t vs is_ : overlapping (QS t vs is_) ->
  t <= List.length vs + List.length is_ /\ List.length vs + List.length is_ < 2 * t /\ forall i, In i is_ -> overlapping i.
Proof. inversion 1; auto. Qed.

Lemma overlapping_full q : overlapping q -> forall s, (forall x, mentions x q -> mem x s = true) -> is_quorum_slice q s = true.
Proof.
  induction q as [t vs is_ IH] using qset_ind'. intros Ho s Hs. apply overlapping_inv in Ho. destruct Ho as (H1 & H2 & H3).
  apply is_quorum_slice_matches. unfold matches. rewrite !forallb_filter_id.
  - lia.
  - apply forallb_forall. intros i Hi. apply IH; auto. intros x Hx. apply Hs. eright; eauto.
  - apply forallb_forall. intros x Hx. apply Hs. left; auto.
Qed.

Lemma entry_full vs is_ e : (forall i, In i is_ -> overlapping i) -> In e (entries vs is_) -> esat (of_list (edom e)) e = true.
Proof.
  intros Ho He. destruct e as [v|i]; simpl.
  - apply mem_of_list. left; auto.
  - apply overlapping_full.
    + apply Ho. unfold entries in He. apply in_app_iff in He. destruct He as [He|He]; apply in_map_iff in He; destruct He as (j & E & Hj); congruence.
    + intros x Hx. apply mem_of_list, contained_list_spec; auto.
Qed.

Lemma filter_split_perm {A} (g : A -> bool) l : Permutation (filter g l ++ filter (fun a => negb (g a)) l) l.
Proof.
  induction l as [|a l IH]; simpl; auto. destruct (g a); simpl; auto.
  rewrite <- Permutation_middle. auto.
Qed.

Lemma Permutation_filter_len {A} (g : A -> bool) l l' : Permutation l l' -> List.length (filter g l) = List.length (filter g l').
Proof. induction 1; simpl; auto; repeat (destruct (g _); simpl; auto); try lia. Qed.

(** what [is_slice_intersection] means *)
Lemma slice_intersection_two q : overlapping q -> nodup_qset q -> forall S, is_slice_intersection q S = true ->
  exists Q1 Q2, (forall x, mem x Q1 = true -> mentions x q) /\ (forall x, mem x Q2 = true -> mentions x q) /\
    is_quorum_slice q Q1 = true /\ is_quorum_slice q Q2 = true /\ incl_set (inter Q1 Q2) S.
Proof.
  induction q as [t vs is_ IH] using qset_ind'. intros Ho Hn S HS.
  assert (Ho' := Ho). apply overlapping_inv in Ho'. destruct Ho' as (H1 & H2 & H3).
  set (good := fun e : entry => match e with inl v => mem v S | inr i => is_slice_intersection i S end).
  set (es := entries vs is_). set (gs := filter good es). set (bs := filter (fun e => negb (good e)) es).
  assert (Hp : Permutation (gs ++ bs) es) by apply filter_split_perm.
  assert (Hpd : Permutation (flat_map edom (gs ++ bs)) (contained_nodes_with_duplicates (QS t vs is_))).
  { rewrite <- (entries_dom t vs is_). apply Permutation_flat_map. auto. }
  assert (Hlen : List.length gs + List.length bs = List.length vs + List.length is_).
  { rewrite <- app_length, (Permutation_length Hp). apply entries_length. }
  assert (Hg : 2 * t - (List.length vs + List.length is_) <= List.length gs).
  { apply is_slice_intersection_matches in HS. rewrite splitting_threshold_fits in HS by auto.
    unfold gs, es, entries. rewrite filter_app, app_length, !filter_map_len. exact HS. }
  destruct (glue S gs bs (t - List.length gs) (t - List.length gs)) as (Q1 & Q2 & D1 & D2 & C1 & C2 & HI).
  - eapply Permutation_NoDup; [symmetry; exact Hpd|]. exact Hn.
  - intros e He. apply filter_In in He. destruct He as [He Hgood]. destruct e as [v|i]; simpl in Hgood.
    + exists (of_list [v]), (of_list [v]). simpl.
      assert (Hv : forall x, mem x (of_list [v]) = true -> v = x \/ False) by (intros x Hx; apply mem_of_list in Hx; auto).
      assert (Hm : mem v (of_list [v]) = true) by (apply mem_of_list; left; auto).
      repeat split; auto. intros x Hx. rewrite mem_inter, andb_true_iff in Hx. destruct Hx as [Hx _]. destruct (Hv x Hx) as [<-|[]]. auto.
    + assert (Hi : In i is_).
      { unfold es, entries in He. apply in_app_iff in He. destruct He as [He|He]; apply in_map_iff in He; destruct He as (j & E & Hj); congruence. }
      destruct (IH i Hi (H3 i Hi)) with (S := S) as (Q1 & Q2 & D1 & D2 & A1 & A2 & HA); auto.
      { destruct (nodup_qset_inv _ _ _ Hn) as (_ & Hni & _). auto. }
      exists Q1, Q2. simpl. repeat split; auto; intros x Hx; apply contained_list_spec; auto.
  - intros e He. apply filter_In in He. apply (entry_full vs is_); tauto.
  - lia.
  - exists Q1, Q2. split; [|split; [|split; [|split]]]; auto.
    + intros x Hx. apply contained_list_spec. eapply Permutation_in; [exact Hpd|]. auto.
    + intros x Hx. apply contained_list_spec. eapply Permutation_in; [exact Hpd|]. auto.
    + apply sat_entries. rewrite (Permutation_filter_len _ _ _ Hp) in C1. fold es. lia.
    + apply sat_entries. rewrite (Permutation_filter_len _ _ _ Hp) in C2. fold es. lia.
Qed.

(** ** quorum sets with two different minimal slices *)
Lemma splittable_inv t vs is_ : splittable (QS t vs is_) ->
  t <= List.length vs + List.length is_ /\ List.length vs + List.length is_ < 2 * t /\
  (t < List.length vs + List.length is_ \/ is_ <> []) /\ forall i, In i is_ -> splittable i.
Proof. inversion 1; auto. Qed.

Lemma splittable_overlapping q : splittable q -> overlapping q.
Proof.
  induction q as [t vs is_ IH] using qset_ind'. intro H. apply splittable_inv in H. destruct H as (H1 & H2 & _ & H3).
  constructor; auto.
Qed.

Definition two_slices (q : qset) : Prop :=
  exists Q1 Q2, is_quorum_slice q Q1 = true /\ is_quorum_slice q Q2 = true /\ is_quorum_slice q (inter Q1 Q2) = false.

Lemma splittable_two q : splittable q -> nodup_qset q -> two_slices q.
Proof.
  induction q as [t vs is_ IH] using qset_ind'. intros Hs Hn.
  assert (Ho := splittable_overlapping _ Hs). apply splittable_inv in Hs. destruct Hs as (H1 & H2 & H4 & H3).
  set (n := List.length vs + List.length is_) in *.
  destruct (le_lt_dec n t) as [Hle|Hlt].
  - destruct H4 as [H4|H4]; [lia|]. 
    assert (Hex : exists i0, In i0 is_) by (destruct is_ as [|i0 is0]; [congruence|exists i0; left; auto]).
    destruct Hex as (i0 & Hi0).
    destruct (nodup_qset_inv _ _ _ Hn) as (_ & Hni & Hvi & Hii).
    destruct (IH i0 Hi0 (H3 i0 Hi0) (Hni i0 Hi0)) as (A1 & A2 & S1 & S2 & S3).
    set (rest := diff (contained_nodes (QS t vs is_)) (contained_nodes i0)).
    assert (Hsat : forall A, is_quorum_slice i0 A = true -> is_quorum_slice (QS t vs is_) (union rest A) = true).
    { intros A HA. apply is_quorum_slice_matches. unfold matches. rewrite !forallb_filter_id.
      - fold n. lia.
      - apply forallb_forall. intros j Hj. destruct (qset_eqb j i0) eqn:Ej.
        + apply qset_eqb_eq in Ej. subst j. eapply is_quorum_slice_mono; [apply union_incl_r|]. auto.
        + apply overlapping_full; [apply splittable_overlapping; auto|]. intros x Hx. rewrite mem_union. apply orb_true_iff. left.
          unfold rest. rewrite mem_diff, andb_true_iff. split.
          * apply contained_nodes_spec. eright; eauto.
          * apply negb_true_iff, not_true_iff_false. intro Hx'. apply contained_nodes_spec in Hx'.
            rewrite (Hii x j i0) in Ej; auto. rewrite qset_eqb_refl in Ej. discriminate.
      - apply forallb_forall. intros x Hx. rewrite mem_union. apply orb_true_iff. left. unfold rest. rewrite mem_diff, andb_true_iff. split.
        + apply contained_nodes_spec. left; auto.
        + apply negb_true_iff, not_true_iff_false. intro Hx'. apply contained_nodes_spec in Hx'. eauto. }
    exists (union rest A1), (union rest A2). split; auto. split; auto.
    apply not_true_iff_false. intro Hc. apply is_quorum_slice_matches in Hc. destruct Hc as [_ Hc]. unfold matches in Hc.
    assert (F1 := filter_length_le (fun x => mem x (inter (union rest A1) (union rest A2))) vs).
    assert (F2 : List.length (filter (fun i => is_quorum_slice i (inter (union rest A1) (union rest A2))) is_) < List.length is_).
    { assert (F3 := filter_length_le (fun i => is_quorum_slice i (inter (union rest A1) (union rest A2))) is_).
      assert (Hf : is_quorum_slice i0 (inter (union rest A1) (union rest A2)) = false).
      { rewrite <- S3. apply is_quorum_slice_local. intros x Hx. rewrite !mem_inter, !mem_union.
        assert (Er : mem x rest = false). { unfold rest. rewrite mem_diff. apply contained_nodes_spec in Hx. rewrite Hx. apply andb_false_r. }
        rewrite Er. auto. }
      apply in_split in Hi0. destruct Hi0 as (l1 & l2 & ->). rewrite filter_app, !app_length. simpl. rewrite Hf.
      assert (L1 := filter_length_le (fun i => is_quorum_slice i (inter (union rest A1) (union rest A2))) l1).
      assert (L2 := filter_length_le (fun i => is_quorum_slice i (inter (union rest A1) (union rest A2))) l2). lia. }
    unfold n in *. lia.
  - set (es := entries vs is_). set (gs := firstn (2 * t - n) es). set (bs := skipn (2 * t - n) es).
    assert (Ees : gs ++ bs = es) by apply firstn_skipn.
    assert (Lg : List.length gs = 2 * t - n) by (unfold gs, es; rewrite firstn_length, entries_length; fold n; lia).
    assert (Lb : List.length gs + List.length bs = n) by (rewrite <- app_length, Ees; apply entries_length).
    assert (Hnd : NoDup (flat_map edom (gs ++ bs))) by (rewrite Ees; unfold es; rewrite (entries_dom t); exact Hn).
    set (S := of_list (flat_map edom gs)).
    assert (Hfull : forall e, In e es -> esat (of_list (edom e)) e = true).
    { intros e He. apply (entry_full vs is_); auto. intros i Hi. apply splittable_overlapping; auto. }
    destruct (glue S gs bs (n - t) (n - t)) as (Q1 & Q2 & D1 & D2 & C1 & C2 & HI); auto.
    + intros e He. exists (of_list (edom e)), (of_list (edom e)).
      assert (He' : esat (of_list (edom e)) e = true) by (apply Hfull; rewrite <- Ees; apply in_app_iff; auto).
      repeat split; auto; try (intro x; apply mem_of_list).
      intros x Hx. rewrite mem_inter, andb_true_iff in Hx. destruct Hx as [Hx _]. apply mem_of_list in Hx.
      apply mem_of_list, in_flat_map. eauto.
    + intros e He. apply Hfull. rewrite <- Ees. apply in_app_iff; auto.
    + lia.
    + exists Q1, Q2. rewrite Ees in C1, C2. split; [apply sat_entries; fold es; lia|]. split; [apply sat_entries; fold es; lia|].
      apply not_true_iff_false. intro Hc. apply (is_quorum_slice_mono _ _ S HI) in Hc. apply sat_entries in Hc.
      destruct Hc as [_ Hc]. fold es in Hc. rewrite <- Ees, filter_app, app_length in Hc.
      assert (Hb : filter (esat S) bs = []).
      { destruct (filter (esat S) bs) as [|e l] eqn:Ef; auto. exfalso.
        assert (He : In e (filter (esat S) bs)) by (rewrite Ef; left; auto). apply filter_In in He. destruct He as [He Hse].
        destruct (esat_meets e S Hse) as (x & Hx & HxS). unfold S in HxS. apply mem_of_list in HxS.
        rewrite flat_map_app in Hnd. destruct (NoDup_app_inv _ _ Hnd) as (_ & _ & Hd). apply (Hd x); auto.
        apply in_flat_map. eauto. }
      rewrite Hb in Hc. assert (Hl := filter_length_le (esat S) gs). simpl in Hc. lia.
Qed.

(** ** [to_splitting_sets] *)
Fixpoint splitter (q : qset) : qset :=
  let 'QS t vs is_ := q in QS (splitting_threshold (QS t vs is_)) vs (map splitter is_).

Lemma splitter_contained q : contained_nodes_with_duplicates (splitter q) = contained_nodes_with_duplicates q.
Proof.
  induction q as [t vs is_ IH] using qset_ind'. cbn [splitter contained_nodes_with_duplicates]. f_equal.
  induction is_ as [|i is_ IHi]; simpl; auto. rewrite IH by (left; auto). f_equal. apply IHi. intros; apply IH; right; auto.
Qed.

Lemma splitter_nodup q : nodup_qset (splitter q) <-> nodup_qset q.
Proof. unfold nodup_qset. rewrite splitter_contained. tauto. Qed.

Lemma splitter_slice q s : overlapping q -> is_quorum_slice (splitter q) s = is_slice_intersection q s.
Proof.
  induction q as [t vs is_ IH] using qset_ind'. intro Ho. apply overlapping_inv in Ho. destruct Ho as (H1 & H2 & H3).
  apply eq_true_iff_eq. cbn [splitter]. rewrite is_quorum_slice_matches, is_slice_intersection_matches.
  assert (Em : matches s vs (map splitter is_) = imatches s vs is_).
  { unfold matches, imatches. rewrite filter_map_len. f_equal. f_equal. apply filter_ext_in. auto. }
  rewrite Em, splitting_threshold_fits by auto. intuition lia.
Qed.

Lemma splitter_minimal_no_slice q s : splittable q -> nodup_qset q -> In s (to_quorum_slices (splitter q)) -> is_quorum_slice q s = false.
Proof.
  intros Hs Hn Hin. apply not_true_iff_false. intro Hq. destruct (splittable_two q Hs Hn) as (Q1 & Q2 & S1 & S2 & S3).
  assert (Ho := splittable_overlapping q Hs).
  apply to_quorum_slices_exact in Hin; [|apply splitter_nodup; auto]. destruct Hin as [_ Hm].
  assert (Hsub : forall Q, is_quorum_slice q Q = true -> incl_set s Q).
  { intros Q HQ. assert (E : inter s Q = s).
    { apply Hm.
      - apply is_quorum_slice_iff. rewrite splitter_slice by auto. apply slice_intersection_inter; auto.
      - intros x Hx. rewrite mem_inter, andb_true_iff in Hx. tauto. }
    intros x Hx. rewrite <- E, mem_inter, andb_true_iff in Hx. tauto. }
  apply not_true_iff_false in S3. apply S3. eapply is_quorum_slice_mono; [|exact Hq].
  intros x Hx. rewrite mem_inter, (Hsub Q1 S1 x Hx), (Hsub Q2 S2 x Hx). auto.
Qed.

Lemma to_splitting_sets_slices q : splittable q -> nodup_qset q -> to_splitting_sets q = to_quorum_slices (splitter q).
Proof.
  induction q as [t vs is_ IH] using qset_ind'. intros Hs Hn. assert (Hno := fun s => splitter_minimal_no_slice _ s Hs Hn).
  assert (Hs' := Hs). apply splittable_inv in Hs'. destruct Hs' as (_ & _ & _ & H3).
  destruct (nodup_qset_inv _ _ _ Hn) as (_ & Hni & _).
  assert (E : map to_splitting_sets is_ = map to_quorum_slices (map splitter is_)).
  { rewrite map_map. apply map_ext_in. intros i Hi. apply IH; auto. }
  cbn [to_splitting_sets]. rewrite E. cbn [splitter to_quorum_slices] in Hno |- *.
  destruct (combine_groups _ _) as [|s [|s' l]] eqn:Ec; auto.
  rewrite (Hno s) by (left; auto). auto.
Qed.

(** rigid quorum sets have one slice *)
Lemma rigid_inv t vs is_ : rigid (QS t vs is_) ->
  t = List.length vs + List.length is_ /\ 1 <= t /\ forall i, In i is_ -> rigid i.
Proof. inversion 1; auto. Qed.

Lemma rigid_all q : rigid q -> forall s, is_quorum_slice q s = true -> forall x, mentions x q -> mem x s = true.
Proof.
  induction q as [t vs is_ IH] using qset_ind'. intros Hr s Hs x Hx. apply rigid_inv in Hr. destruct Hr as (H1 & H2 & H3).
  apply is_quorum_slice_matches in Hs. destruct Hs as [_ Hs]. unfold matches in Hs.
  assert (F1 := filter_length_le (fun x => mem x s) vs). assert (F2 := filter_length_le (fun i => is_quorum_slice i s) is_).
  apply mentions_inv in Hx. destruct Hx as [Hx|(i & Hi & Hx)].
  - assert (Hf : forallb (fun x => mem x s) vs = true) by (apply filter_length_forallb; lia).
    rewrite forallb_forall in Hf. auto.
  - assert (Hf : forallb (fun i => is_quorum_slice i s) is_ = true) by (apply filter_length_forallb; lia).
    rewrite forallb_forall in Hf. apply (IH i Hi (H3 i Hi) s); auto.
Qed.

Lemma rigid_full q : rigid q -> forall s, (forall x, mentions x q -> mem x s = true) -> is_quorum_slice q s = true.
Proof.
  induction q as [t vs is_ IH] using qset_ind'. intros Hr s Hs. apply rigid_inv in Hr. destruct Hr as (H1 & H2 & H3).
  apply is_quorum_slice_matches. unfold matches. rewrite !forallb_filter_id.
  - lia.
  - apply forallb_forall. intros i Hi. apply IH; auto. intros x Hx. apply Hs. eright; eauto.
  - apply forallb_forall. intros x Hx. apply Hs. left; auto.
Qed.

Lemma combine_groups_all_in gs s : In s (combine_groups (List.length gs) gs) -> Forall (fun g => g <> []) gs /\ exists p, Forall2 (fun x xs => In x xs) p gs /\ s = unions p.
Proof.
  intro H. apply combine_groups_spec in H. destruct H as (c & p & Hc & Hl & _ & Hp & ->).
  apply subseq_full in Hc; [|lia]. subst c. split.
  - apply Forall_forall. intros g Hg ->. destruct (Forall2_in_r _ _ _ [] Hp Hg) as (x & _ & []).
  - eauto.
Qed.

Lemma combinations_too_many {A} (l : list A) : forall k, List.length l < k -> combinations k l = [].
Proof.
  induction l as [|a l IH]; intros k Hk; destruct k as [|k]; simpl in *; try lia; auto.
  rewrite (IH k) by lia. simpl. apply IH. lia.
Qed.

Lemma combinations_all {A} (l : list A) : combinations (List.length l) l = [l].
Proof. induction l as [|a l IH]; auto. simpl. rewrite IH, combinations_too_many by lia. auto. Qed.

Lemma product_singletons {A} (l : list A) : product (map (fun a => [a]) l) = [l].
Proof. induction l as [|a l IH]; auto. simpl. rewrite IH. auto. Qed.

Lemma rigid_splitting q : rigid q -> to_splitting_sets q = [].
Proof.
  induction q as [t vs is_ IH] using qset_ind'. intro Hr. assert (Hr' := Hr). apply rigid_inv in Hr'. destruct Hr' as (H1 & H2 & H3).
  cbn [to_splitting_sets]. set (gs := map (fun node_id => [of_list [node_id]]) vs ++ map to_splitting_sets is_).
  assert (El : splitting_threshold (QS t vs is_) = List.length gs).
  { unfold gs. rewrite app_length, !map_length, splitting_threshold_fits by lia. lia. }
  rewrite El. destruct is_ as [|i is0] eqn:Ei.
  - destruct vs as [|v vs]; [simpl in *; lia|].
    assert (Hg : combine_groups (List.length gs) gs = [unions (map (fun x => of_list [x]) (v :: vs))]).
    { unfold combine_groups. rewrite combinations_all. unfold gs. cbn [map]. rewrite app_nil_r. cbn [flat_map multi_cartesian_product].
      rewrite app_nil_r.
      replace ([of_list [v]] :: map (fun node_id => [of_list [node_id]]) vs) with (map (fun a : bset => [a]) (map (fun x => of_list [x]) (v :: vs))).
      - rewrite product_singletons. auto.
      - rewrite map_map. auto. }
    rewrite Hg, rigid_full; auto. intros x Hx. apply mentions_inv in Hx. destruct Hx as [Hx|(j & [] & _)].
    apply mem_unions. exists (of_list [x]). split; [apply (in_map (fun x => of_list [x])); auto|apply mem_of_list; left; auto].
  - destruct (combine_groups (List.length gs) gs) as [|s l] eqn:Ec; auto. exfalso.
    assert (Hs : In s (combine_groups (List.length gs) gs)) by (rewrite Ec; left; auto).
    apply combine_groups_all_in in Hs. destruct Hs as [Hs _]. rewrite Forall_forall in Hs. apply (Hs []); auto.
    unfold gs. apply in_app_iff. right. apply in_map_iff. exists i. split; [|left; auto]. apply IH; [left; auto|]. apply H3. left; auto.
Qed.
