(** The search for splitting sets in clusters that are not symmetric. *)
From Verif Require Export P_Shrunken.
Local Open Scope list_scope.

(** ** intersections of slices *)
Lemma filter_short {A} (g : A -> bool) l : List.length (filter g l) <= List.length l.
Proof. induction l as [|a l IH]; simpl; auto. destruct (g a); simpl; lia. Qed.
(** doubling a threshold that can be met does not overflow *)
Lemma splitting_threshold_fits t vs is_ : t <= List.length vs + List.length is_ ->
  splitting_threshold (QS t vs is_) = 2 * t - (List.length vs + List.length is_).
Proof.
  intro H. unfold splitting_threshold, doubled. destruct (Nat.leb_spec t (List.length vs + List.length is_)); [|lia].
  destruct (Nat.ltb_spec (List.length vs + List.length is_) (2 * t)); lia.
Qed.
Definition imatches (s : bset) (vs : list nat) (is_ : list qset) : nat :=
  List.length (filter (fun x => mem x s) vs) + List.length (filter (fun i => is_slice_intersection i s) is_).

Lemma is_slice_intersection_matches t vs is_ s :
  is_slice_intersection (QS t vs is_) s = true <-> splitting_threshold (QS t vs is_) <= imatches s vs is_.
Proof.
  cbn [is_slice_intersection]. unfold imatches. destruct (Nat.eqb_spec (splitting_threshold (QS t vs is_)) 0) as [E|Ht].
  - split; auto. lia.
  - rewrite Nat.eqb_eq, !firstn_length. lia.
Qed.

Lemma is_slice_intersection_mono q s s' : incl_set s s' -> is_slice_intersection q s = true -> is_slice_intersection q s' = true.
Proof.
  intro Hi. induction q as [t vs is_ IH] using qset_ind'. rewrite !is_slice_intersection_matches. unfold imatches.
  assert (H1 := filter_le (fun x => mem x s) (fun x => mem x s') vs (fun x _ => Hi x)).
  assert (H2 := filter_le (fun i => is_slice_intersection i s) (fun i => is_slice_intersection i s') is_ IH). lia.
Qed.

Lemma filter_both {A} (g h k : A -> bool) l : (forall a, In a l -> g a = true -> h a = true -> k a = true) ->
  List.length (filter g l) + List.length (filter h l) <= List.length l + List.length (filter k l).
Proof.
  induction l as [|a l IH]; intro H; simpl; auto.
  assert (IH' := IH (fun b Hb => H b (or_intror Hb))). specialize (H a (or_introl eq_refl)).
  destruct (g a), (h a), (k a); simpl; try lia.
Qed.

Lemma slice_intersection_inter q a b : is_quorum_slice q a = true -> is_quorum_slice q b = true ->
  is_slice_intersection q (inter a b) = true.
Proof.
  induction q as [t vs is_ IH] using qset_ind'. rewrite !is_quorum_slice_matches, is_slice_intersection_matches.
  unfold matches, imatches. intros [_ Ha] [_ Hb].
  assert (H1 := filter_both (fun x => mem x a) (fun x => mem x b) (fun x => mem x (inter a b)) vs).
  assert (H2 := filter_both (fun i => is_quorum_slice i a) (fun i => is_quorum_slice i b) (fun i => is_slice_intersection i (inter a b)) is_ IH).
  assert (H1' : List.length (filter (fun x => mem x a) vs) + List.length (filter (fun x => mem x b) vs) <=
                List.length vs + List.length (filter (fun x => mem x (inter a b)) vs)).
  { apply H1. intros x _ Hx Hx'. rewrite mem_inter, Hx, Hx'. auto. }
  assert (L1 := filter_short (fun x => mem x a) vs). assert (L2 := filter_short (fun i => is_quorum_slice i a) is_).
  rewrite splitting_threshold_fits; lia.
Qed.

Lemma has_potential_iff f s a : has_potential s a f = true <-> forall x, mem x s = true -> is_slice_intersection (qset_of f x) a = true.
Proof.
  unfold has_potential. rewrite forallb_forall. split; intros H x Hx; apply H, elements_spec; auto.
Qed.

(** an intersection of quorums has potential at every earlier stage *)
Lemma potential_of_quorums f Q1 Q2 s a : quorum f Q1 -> quorum f Q2 -> incl_set s (inter Q1 Q2) -> incl_set (inter Q1 Q2) a ->
  has_potential s a f = true.
Proof.
  intros H1 H2 Hs Ha. apply has_potential_iff. intros x Hx. eapply is_slice_intersection_mono; [exact Ha|].
  apply Hs in Hx. rewrite mem_inter, andb_true_iff in Hx. destruct Hx as [Hx1 Hx2].
  apply quorum_closed in H1, H2. apply slice_intersection_inter; [apply H1|apply H2]; auto.
Qed.

(** ** the search *)
Section Step.
Variable f : fbas.
Variable MQ : list bset.
Hypothesis HMQ : forall Q, In Q MQ -> quorum f Q.

(** intersections of two different members of [MQ] *)
Definition crossing (T : bset) : Prop := exists Q1 Q2, In Q1 MQ /\ In Q2 MQ /\ Q1 <> Q2 /\ T = inter Q1 Q2.

Lemma not_all_intersect (l : list bset) : all_intersect l = false ->
  exists l1 a l2 b l3, l = l1 ++ a :: l2 ++ b :: l3 /\ ~ meets a b.
Proof.
  intro H. apply not_true_iff_false in H. rewrite all_intersect_iff in H. induction l as [|a l IH].
  - exfalso. apply H. constructor.
  - destruct (forallb (fun b => negb (disjoint a b)) l) eqn:Ef.
    + assert (Hn : ~ ForallOrdPairs meets l).
      { intro Hl. apply H. constructor; auto. rewrite forallb_forall in Ef. apply Forall_forall. intros b Hb.
        apply not_disjoint_meets, negb_true_iff, Ef, Hb. }
      destruct (IH Hn) as (l1 & a' & l2 & b & l3 & -> & Hd). exists (a :: l1), a', l2, b, l3. auto.
    + apply not_true_iff_false in Ef. rewrite forallb_forall in Ef.
      assert (Hex : exists b, In b l /\ ~ meets a b).
      { clear - Ef. induction l as [|b l IH].
        - exfalso. apply Ef. intros x [].
        - destruct (disjoint a b) eqn:Ed.
          + exists b. split; [left; auto|]. rewrite <- not_disjoint_meets. congruence.
          + destruct IH as (c & Hc & Hm).
            * intro H. apply Ef. intros x [<-|Hx]; auto. rewrite Ed; auto.
            * exists c. split; auto. right; auto. }
      destruct Hex as (b & Hb & Hm). apply in_split in Hb. destruct Hb as (l2 & l3 & ->). exists [], a, l2, b, l3. auto.
Qed.

Lemma all_intersect_false_of (l : list bset) (g : bset -> bset) Q1 Q2 : In Q1 l -> In Q2 l -> Q1 <> Q2 -> ~ meets (g Q1) (g Q2) ->
  all_intersect (map g l) = false.
Proof.
  intros H1 H2 Hne Hd. apply not_true_iff_false. rewrite all_intersect_iff. intro H.
  assert (G : forall l, ForallOrdPairs meets (map g l) -> In Q1 l -> In Q2 l -> False).
  { clear - Hne Hd. induction l as [|a l IH]; intros H H1 H2; [destruct H1|]. simpl in H. inversion H as [|? ? Ha Hl]; subst.
    rewrite Forall_forall in Ha. destruct H1 as [->|H1], H2 as [->|H2]; auto.
    - apply Hd, Ha. apply in_map; auto.
    - apply Hd, meets_sym, Ha. apply in_map; auto. }
  eapply G; eauto.
Qed.

(** [parts]: the remainders of the members of [MQ] that contain the selection, without some that
    have nothing left among the unprocessed nodes *)
Lemma splitting_step_spec : forall unprocessed sel found L changed,
  NoDup unprocessed -> (forall x, In x unprocessed -> mem x sel = false) ->
  NoDup L -> (forall Q, In Q L -> In Q MQ /\ incl_set sel Q) ->
  (forall Q, In Q MQ -> incl_set sel Q -> (changed = true \/ meets Q (of_list unprocessed)) -> In Q L) ->
  let avail := union sel (of_list unprocessed) in
  exists new, splitting_sets_finder_step f unprocessed sel avail found (map (fun Q => diff Q sel) L) changed = (sel, avail, found ++ new) /\
    (forall T, In T new -> crossing T) /\
    (forall T, crossing T -> inhabited_set T -> incl_set sel T -> incl_set T avail -> (changed = true \/ T <> sel) ->
       exists T', In T' new /\ incl_set T' T).
Proof.
  induction unprocessed as [|x l IH]; intros sel found L changed Hnd Hdis HL HLin HLall avail; cbn [splitting_sets_finder_step];
    rewrite map_length.
  - assert (Ea : avail = sel).
    { unfold avail. apply bset_ext. intro y. rewrite mem_union, mem_of_nil, orb_false_r. auto. }
    destruct (Nat.ltb_spec (List.length L) 2) as [Hl|Hl].
    + exists []. rewrite app_nil_r. split; auto. split; [intros T []|]. intros T (Q1 & Q2 & H1 & H2 & Hne & ->) Hin Hs Ha Hor.
      assert (ET : inter Q1 Q2 = sel) by (apply incl_antisym; auto; rewrite <- Ea; auto).
      destruct Hor as [->|Hor]; [|congruence]. exfalso.
      assert (I1 : In Q1 L). { apply HLall; auto. intros y Hy. apply Hs in Hy. rewrite mem_inter, andb_true_iff in Hy. tauto. }
      assert (I2 : In Q2 L). { apply HLall; auto. intros y Hy. apply Hs in Hy. rewrite mem_inter, andb_true_iff in Hy. tauto. }
      destruct L as [|a [|b L]]; simpl in *; try lia; intuition congruence.
    + destruct (changed && is_quorum_intersection sel f (map (fun Q => diff Q sel) L)) eqn:Eq.
      * exists [sel]. split; auto. apply andb_true_iff in Eq. destruct Eq as [_ Eq]. unfold is_quorum_intersection in Eq.
        rewrite !andb_true_iff, negb_true_iff in Eq. destruct Eq as [[Hne Hp] Hai]. apply negb_true_iff in Hai. split.
        -- intros T [<-|[]]. apply not_all_intersect in Hai. destruct Hai as (l1 & a & l2 & b & l3 & E & Hd).
           assert (Hab : exists Q1 Q2, In Q1 L /\ In Q2 L /\ Q1 <> Q2 /\ a = diff Q1 sel /\ b = diff Q2 sel).
           { clear - E HL. revert l1 E. induction L as [|Q L IH]; intros l1 E; [destruct l1; discriminate|].
             inversion HL; subst. destruct l1 as [|a' l1]; simpl in E; inversion E; subst.
             - assert (Hb : In b (map (fun Q => diff Q sel) L)) by (rewrite H3; apply in_or_app; right; left; auto).
               apply in_map_iff in Hb. destruct Hb as (Q2 & <- & Hb). exists Q, Q2. simpl. repeat split; auto. intros ->. auto.
             - destruct (IH H2 l1 H3) as (Q1 & Q2 & ? & ? & ? & ? & ?). exists Q1, Q2. simpl. auto. }
           destruct Hab as (Q1 & Q2 & I1 & I2 & Hq & -> & ->). destruct (HLin Q1 I1) as [M1 S1]. destruct (HLin Q2 I2) as [M2 S2].
           exists Q1, Q2. repeat split; auto. apply incl_antisym.
           ++ intros y Hy. rewrite mem_inter, (S1 y Hy), (S2 y Hy). auto.
           ++ intros y Hy. rewrite mem_inter, andb_true_iff in Hy. destruct (mem y sel) eqn:Es; auto. exfalso. apply Hd.
              exists y. rewrite !mem_diff, Es. simpl. rewrite !andb_true_r. auto.
        -- intros T _ _ Hs _ _. exists sel. split; [left; auto|auto].
      * exists []. rewrite app_nil_r. split; auto. split; [intros T []|]. intros T (Q1 & Q2 & H1 & H2 & Hne & ->) Hin Hs Ha Hor.
        assert (ET : inter Q1 Q2 = sel) by (apply incl_antisym; auto; rewrite <- Ea; auto).
        destruct Hor as [->|Hor]; [|congruence]. exfalso. simpl in Eq. apply not_true_iff_false in Eq. apply Eq.
        assert (S1 : incl_set sel Q1). { intros y Hy. apply Hs in Hy. rewrite mem_inter, andb_true_iff in Hy. tauto. }
        assert (S2 : incl_set sel Q2). { intros y Hy. apply Hs in Hy. rewrite mem_inter, andb_true_iff in Hy. tauto. }
        unfold is_quorum_intersection. rewrite !andb_true_iff. split; [split|].
        -- apply negb_true_iff. rewrite ET in Hin. apply inhabited_iff; auto.
        -- apply (potential_of_quorums f Q1 Q2); auto; rewrite ET; intros y Hy; auto.
        -- apply negb_true_iff. apply (all_intersect_false_of L _ Q1 Q2); auto.
           intros (y & Hy1 & Hy2). rewrite mem_diff, andb_true_iff in *. destruct Hy1 as [Hy1 Hn]. destruct Hy2 as [Hy2 _].
           rewrite <- ET, mem_inter, Hy1, Hy2 in Hn. discriminate.
  - inversion Hnd as [|? ? Hx Hnd']; subst.
    assert (Hxs : mem x sel = false) by (apply Hdis; left; auto).
    destruct (Nat.ltb_spec (List.length L) 2) as [Hl|Hl].
    + exists []. rewrite app_nil_r. split; auto. split; [intros T []|]. intros T (Q1 & Q2 & H1 & H2 & Hne & ->) Hin Hs Ha Hor.
      exfalso.
      assert (G : changed = true \/ exists y, mem y (inter Q1 Q2) = true /\ mem y (of_list (x :: l)) = true).
      { destruct Hor as [->|Hor]; auto. right.
        destruct (subset (inter Q1 Q2) sel) eqn:Es.
        - exfalso. apply Hor. apply incl_antisym; auto. apply incl_subset; auto.
        - apply not_true_iff_false in Es. destruct (disjoint (inter Q1 Q2) (of_list (x :: l))) eqn:Ed; [|apply not_disjoint_meets in Ed; auto].
          exfalso. apply Es, incl_subset. intros y Hy. assert (Hy' := Ha y Hy). unfold avail in Hy'. rewrite mem_union, orb_true_iff in Hy'.
          destruct Hy' as [Hy'|Hy']; auto. exfalso. rewrite disjoint_iff in Ed. eauto. }
      assert (I1 : In Q1 L).
      { apply HLall; auto. { intros y Hy. apply Hs in Hy. rewrite mem_inter, andb_true_iff in Hy. tauto. }
        destruct G as [->|(y & Hy & Hy')]; auto. right. exists y. rewrite mem_inter, andb_true_iff in Hy. tauto. }
      assert (I2 : In Q2 L).
      { apply HLall; auto. { intros y Hy. apply Hs in Hy. rewrite mem_inter, andb_true_iff in Hy. tauto. }
        destruct G as [->|(y & Hy & Hy')]; auto. right. exists y. rewrite mem_inter, andb_true_iff in Hy. tauto. }
      destruct L as [|a [|b L]]; simpl in *; try lia; intuition congruence.
    + destruct (changed && is_quorum_intersection sel f (map (fun Q => diff Q sel) L)) eqn:Eq.
      * exists [sel]. split; auto. apply andb_true_iff in Eq. destruct Eq as [_ Eq]. unfold is_quorum_intersection in Eq.
        rewrite !andb_true_iff, negb_true_iff in Eq. destruct Eq as [[Hne Hp] Hai]. apply negb_true_iff in Hai. split.
        -- intros T [<-|[]]. apply not_all_intersect in Hai. destruct Hai as (l1 & a & l2 & b & l3 & E & Hd).
           assert (Hab : exists Q1 Q2, In Q1 L /\ In Q2 L /\ Q1 <> Q2 /\ a = diff Q1 sel /\ b = diff Q2 sel).
           { clear - E HL. revert l1 E. induction L as [|Q L IH]; intros l1 E; [destruct l1; discriminate|].
             inversion HL; subst. destruct l1 as [|a' l1]; simpl in E; inversion E; subst.
             - assert (Hb : In b (map (fun Q => diff Q sel) L)) by (rewrite H3; apply in_or_app; right; left; auto).
               apply in_map_iff in Hb. destruct Hb as (Q2 & <- & Hb). exists Q, Q2. simpl. repeat split; auto. intros ->. auto.
             - destruct (IH H2 l1 H3) as (Q1 & Q2 & ? & ? & ? & ? & ?). exists Q1, Q2. simpl. auto. }
           destruct Hab as (Q1 & Q2 & I1 & I2 & Hq & -> & ->). destruct (HLin Q1 I1) as [M1 S1]. destruct (HLin Q2 I2) as [M2 S2].
           exists Q1, Q2. repeat split; auto. apply incl_antisym.
           ++ intros y Hy. rewrite mem_inter, (S1 y Hy), (S2 y Hy). auto.
           ++ intros y Hy. rewrite mem_inter, andb_true_iff in Hy. destruct (mem y sel) eqn:Es; auto. exfalso. apply Hd.
              exists y. rewrite !mem_diff, Es. simpl. rewrite !andb_true_r. auto.
        -- intros T _ _ Hs _ _. exists sel. split; [left; auto|auto].
      * (* [sel] itself is no crossing unless it was tried before *)
        assert (Hself : changed = true -> ~ (crossing sel /\ inhabited_set sel)).
        { intros -> [(Q1 & Q2 & H1 & H2 & Hne & ET) Hin]. simpl in Eq. apply not_true_iff_false in Eq. apply Eq.
          assert (S1 : incl_set sel Q1). { intros y Hy. rewrite ET, mem_inter, andb_true_iff in Hy. tauto. }
          assert (S2 : incl_set sel Q2). { intros y Hy. rewrite ET, mem_inter, andb_true_iff in Hy. tauto. }
          unfold is_quorum_intersection. rewrite !andb_true_iff. split; [split|].
          - apply negb_true_iff. apply inhabited_iff; auto.
          - apply (potential_of_quorums f Q1 Q2); auto; rewrite <- ET; intros y Hy; auto.
          - apply negb_true_iff. apply (all_intersect_false_of L _ Q1 Q2); auto.
            intros (y & Hy1 & Hy2). rewrite mem_diff, andb_true_iff in *. destruct Hy1 as [Hy1 Hn]. destruct Hy2 as [Hy2 _].
            rewrite ET, mem_inter, Hy1, Hy2 in Hn. discriminate. }
        cbv zeta.
        set (L1 := filter (fun Q => mem x Q) L).
        assert (EL1 : map (remove x) (filter (fun q => mem x q) (map (fun Q => diff Q sel) L)) = map (fun Q => diff Q (insert x sel)) L1).
        { unfold L1. clear - Hxs. induction L as [|Q L IH]; simpl; auto. rewrite mem_diff, Hxs. simpl. rewrite andb_true_r.
          destruct (mem x Q); simpl; auto. rewrite diff_insert_r. f_equal. auto. }
        rewrite EL1.
        destruct (IH (insert x sel) found L1 true) as (new1 & E1 & S1 & C1); auto.
        { intros y Hy. rewrite mem_insert. apply orb_false_iff. split; [|apply Hdis; right; auto].
          apply Nat.eqb_neq. intros ->. auto. }
        { apply NoDup_filter; auto. }
        { intros Q HQ. apply filter_In in HQ. destruct HQ as [HQ Hxq]. destruct (HLin Q HQ). split; auto. apply incl_insert. auto. }
        { intros Q HQ Hi _. apply incl_insert in Hi. destruct Hi as [Hxq Hi]. apply filter_In. split; auto. apply HLall; auto.
          right. exists x. split; auto. apply mem_of_list. left; auto. }
        rewrite union_cons_l in E1, C1. fold avail in E1, C1. rewrite E1, remove_insert by auto.
        assert (Hrem : remove x avail = union sel (of_list l)) by (apply P_MinQuorums.remove_cons; auto).
        assert (Hback : insert x (union sel (of_list l)) = avail).
        { rewrite <- Hrem. apply insert_remove. unfold avail. rewrite mem_union, orb_true_iff, mem_of_list. simpl. auto. }
        assert (Hav : forall Q, incl_set Q (union sel (of_list l)) <-> incl_set Q avail /\ mem x Q = false).
        { intro Q. rewrite <- Hrem. apply incl_remove. }
        rewrite !Hrem.
        set (L2 := filter (fun Q => negb (disjoint (diff Q sel) (union sel (of_list l)))) L).
        assert (EL2 : filter (fun q => negb (disjoint q (union sel (of_list l)))) (map (fun Q => diff Q sel) L) = map (fun Q => diff Q sel) L2).
        { unfold L2. clear. induction L as [|Q L IH]; simpl; auto. destruct (negb _); simpl; auto. f_equal. auto. }
        rewrite EL2.
        (* crossings containing [x] *)
        assert (Hwith : forall T, crossing T -> inhabited_set T -> incl_set sel T -> incl_set T avail -> mem x T = true ->
                  exists T', In T' new1 /\ incl_set T' T).
        { intros T HT Hin Hs Ha Hxt. apply C1; auto. apply incl_insert. auto. }
        destruct (has_potential sel (union sel (of_list l)) f) eqn:Ep.
        -- destruct (IH sel (found ++ new1) L2 false) as (new2 & E2 & S2 & C2); auto.
           { intros y Hy. apply Hdis. right; auto. }
           { apply NoDup_filter; auto. }
           { intros Q HQ. apply filter_In in HQ. apply HLin. tauto. }
           { intros Q HQ Hi [H|H]; [discriminate|]. apply filter_In. split.
             - apply HLall; auto. right. destruct H as (y & Hy & Hy'). exists y. split; auto. rewrite mem_of_list in *. right; auto.
             - apply negb_true_iff, not_disjoint_meets. destruct H as (y & Hy & Hy'). exists y. split.
               + rewrite mem_diff, Hy. apply mem_of_list in Hy'. rewrite (Hdis y); auto. right; auto.
               + rewrite mem_union, Hy'. apply orb_true_r. }
           rewrite E2. cbv iota beta. rewrite Hback. exists (new1 ++ new2). rewrite app_assoc. split; auto. split.
           ++ intros T HT. apply in_app_iff in HT. destruct HT; auto.
           ++ intros T HT Hin Hs Ha Hor. destruct (mem x T) eqn:Ext.
              ** destruct (Hwith T) as (T' & HT' & Hi); auto. exists T'. split; auto. apply in_app_iff; auto.
              ** destruct (bset_eq_dec T sel) as [->|Hne].
                 { destruct Hor as [->|Hor]; [|congruence]. exfalso. apply Hself; auto. }
                 destruct (C2 T) as (T' & HT' & Hi); auto.
                 { apply Hav. auto. }
                 exists T'. split; auto. apply in_app_iff; auto.
        -- cbv iota beta. rewrite Hback. exists new1. split; auto. split; auto.
           intros T HT Hin Hs Ha Hor. destruct (mem x T) eqn:Ext; auto. exfalso.
           destruct HT as (Q1 & Q2 & H1 & H2 & Hne & ->). apply not_true_iff_false in Ep. apply Ep.
           apply (potential_of_quorums f Q1 Q2); auto. apply Hav. auto.
Qed.
End Step.
