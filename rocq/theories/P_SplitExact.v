(** When exactly the minimal splitting sets are found. *)
From Verif Require Export P_SplitSound P_BlockingExact P_ThAnalysis.
Local Open Scope list_scope.

(** an entry within which one of its listed splitting sets lies *)
Definition ehit (S : bset) (e : entry) : bool :=
  match e with inl v => mem v S | inr i => existsb (fun T => subset T S) (to_splitting_sets i) end.
Definition missed (q : qset) (S : bset) : Prop := forall T, In T (to_splitting_sets q) -> ~ incl_set T S.

Lemma splittable_dec q : splittable q \/ ~ splittable q.
Proof.
  induction q as [t vs is_ IH] using qset_ind'.
  assert (D : (forall i, In i is_ -> splittable i) \/ exists i, In i is_ /\ ~ splittable i).
  { clear - IH. induction is_ as [|i is_ IHi]; [left; intros i []|]. destruct (IH i (or_introl eq_refl)) as [Hi|Hi].
    - destruct IHi as [H|(j & Hj & H)].
      + intros j Hj. apply IH. right; auto.
      + left. intros j [<-|Hj]; auto.
      + right. exists j. split; auto. right; auto.
    - right. exists i. split; auto. left; auto. }
  destruct D as [D|(i & Hi & D)].
  - destruct (le_lt_dec t (List.length vs + List.length is_)) as [H1|H1]; [|right; intro H; apply splittable_inv in H; lia].
    destruct (le_lt_dec (2 * t) (List.length vs + List.length is_)) as [H2|H2]; [right; intro H; apply splittable_inv in H; lia|].
    destruct (le_lt_dec (List.length vs + List.length is_) t) as [H3|H3]; [|left; constructor; auto].
    destruct is_ as [|i is_]; [|left; constructor; auto; right; discriminate].
    right. intro H. apply splittable_inv in H. destruct H as (_ & _ & [H|H] & _); [lia|congruence].
  - right. intro H. apply splittable_inv in H. destruct H as (_ & _ & _ & H). auto.
Qed.
Lemma not_splittable t vs is_ : 1 <= t -> t <= List.length vs + List.length is_ -> ~ splittable (QS t vs is_) ->
  2 * t <= List.length vs + List.length is_ \/ rigid (QS t vs is_) \/ exists i, In i is_ /\ ~ splittable i.
Proof.
  intros H0 H1 H. destruct (le_lt_dec (2 * t) (List.length vs + List.length is_)) as [H2|H2]; auto.
  assert (D : (forall i, In i is_ -> splittable i) \/ exists i, In i is_ /\ ~ splittable i).
  { clear. induction is_ as [|i is_ IHi]; [left; intros i []|]. destruct (splittable_dec i) as [Hi|Hi].
    - destruct IHi as [H|(j & Hj & H)].
      + left. intros j [<-|Hj]; auto.
      + right. exists j. split; auto. right; auto.
    - right. exists i. split; auto. left; auto. }
  destruct D as [D|D]; auto.
  destruct (le_lt_dec (List.length vs + List.length is_) t) as [H3|H3]; [|exfalso; apply H; constructor; auto].
  destruct is_ as [|i is_]; [|exfalso; apply H; constructor; auto; right; discriminate].
  right. left. constructor; try lia. intros i [].
Qed.
Lemma rigid_dec q : rigid q \/ ~ rigid q.
Proof.
  induction q as [t vs is_ IH] using qset_ind'.
  assert (D : (forall i, In i is_ -> rigid i) \/ exists i, In i is_ /\ ~ rigid i).
  { clear - IH. induction is_ as [|i is_ IHi]; [left; intros i []|]. destruct (IH i (or_introl eq_refl)) as [Hi|Hi].
    - destruct IHi as [H|(j & Hj & H)].
      + intros j Hj. apply IH. right; auto.
      + left. intros j [<-|Hj]; auto.
      + right. exists j. split; auto. right; auto.
    - right. exists i. split; auto. left; auto. }
  destruct D as [D|(i & Hi & D)].
  - destruct (Nat.eq_dec t (List.length vs + List.length is_)) as [H1|H1]; [|right; intro H; apply rigid_inv in H; lia].
    destruct (le_lt_dec 1 t) as [H2|H2]; [left; constructor; auto|right; intro H; apply rigid_inv in H; lia].
  - right. intro H. apply rigid_inv in H. destruct H as (_ & _ & H). auto.
Qed.
Lemma not_rigid t vs is_ : 1 <= t -> t <= List.length vs + List.length is_ -> ~ rigid (QS t vs is_) ->
  t < List.length vs + List.length is_ \/ exists i, In i is_ /\ ~ rigid i.
Proof.
  intros H0 H1 H.
  assert (D : (forall i, In i is_ -> rigid i) \/ exists i, In i is_ /\ ~ rigid i).
  { clear. induction is_ as [|i is_ IHi]; [left; intros i []|]. destruct (rigid_dec i) as [Hi|Hi].
    - destruct IHi as [H|(j & Hj & H)].
      + left. intros j [<-|Hj]; auto.
      + right. exists j. split; auto. right; auto.
    - right. exists i. split; auto. left; auto. }
  destruct D as [D|D]; auto. left. destruct (Nat.eq_dec t (List.length vs + List.length is_)); [|lia]. exfalso. apply H. constructor; auto.
Qed.

Lemma ehit_local S S' e : (forall x, In x (edom e) -> mem x S = mem x S') -> ehit S e = ehit S' e.
Proof.
  destruct e as [v|i]; cbn [ehit edom]; intro H; [apply H; left; auto|]. apply eq_true_iff_eq. rewrite !existsb_exists.
  assert (G : forall A B, (forall x, In x (contained_nodes_with_duplicates i) -> mem x A = mem x B) ->
    (exists T, In T (to_splitting_sets i) /\ subset T A = true) -> exists T, In T (to_splitting_sets i) /\ subset T B = true).
  { intros A B HAB (T & HT & Hs). exists T. split; auto. apply incl_subset. intros x Hx. rewrite <- HAB.
    - apply (proj1 (incl_subset _ _) Hs). auto.
    - apply contained_list_spec. apply (to_splitting_sets_mentions i T); auto. }
  split; apply G; auto. intros x Hx. symmetry. auto.
Qed.
Lemma esat_local S S' e : (forall x, In x (edom e) -> mem x S = mem x S') -> esat S e = esat S' e.
Proof.
  destruct e as [v|i]; cbn [esat edom]; intro H; [apply H; left; auto|]. apply is_quorum_slice_local. intros x Hx. apply H. apply contained_list_spec; auto.
Qed.
Lemma ehit_empty e : ehit bempty e = false.
Proof.
  destruct e as [v|i]; cbn [ehit]; [apply mem_empty|]. apply not_true_iff_false. rewrite existsb_exists. intros (T & HT & Hs).
  apply to_splitting_sets_inhabited in HT. apply not_empty_mem in HT. destruct HT as (x & Hx). apply (proj1 (incl_subset _ _) Hs) in Hx.
  rewrite mem_empty in Hx. discriminate.
Qed.
Lemma esat_empty e : esat bempty e = false.
Proof.
  apply not_true_iff_false. intro H. apply esat_meets in H. destruct H as (x & _ & H). rewrite mem_empty in H. discriminate.
Qed.

(** a listed set lies within a set that holds enough entries' listed sets *)
Lemma listed_hits t vs is_ S T : In T (to_splitting_sets (QS t vs is_)) -> incl_set T S ->
  1 <= splitting_threshold (QS t vs is_) /\ splitting_threshold (QS t vs is_) <= List.length (filter (ehit S) (entries vs is_)).
Proof.
  intros HT Hi. apply to_splitting_sets_sub, combine_entries_spec in HT. destruct HT as (vs' & is' & ps & Hv & His & Hl & Hk & Hps & ET).
  split; auto. rewrite <- Hl, <- (entries_length vs' is').
  apply subseq_filter_max; [apply subseq_app; apply subseq_map; auto|].
  intros e He. destruct (entries_in _ _ _ He) as [(v & -> & Hv')|(i & -> & Hi')]; cbn [ehit].
  - apply Hi. rewrite ET. apply mem_entries. auto.
  - destruct (Forall2_pair_r _ _ _ i Hps Hi') as (p & Hpi & Hp' & Hin). apply existsb_exists. exists p. split; auto.
    apply incl_subset. intros x Hx. apply Hi. rewrite ET. apply mem_entries. right. exists p. split; auto.
Qed.

(** ** two sets given entry by entry *)
Definition plan := list (entry * (bset * bset)).
Definition part (pick : bset * bset -> bset) (p : plan) : bset := unions (map (fun c => inter (pick (snd c)) (of_list (edom (fst c)))) p).
Lemma part_local pick p e ab x : NoDup (flat_map edom (map fst p)) -> In (e, ab) p -> In x (edom e) -> mem x (part pick p) = mem x (pick ab).
Proof.
  intros Hn Hp Hx. apply eq_true_iff_eq. unfold part. rewrite mem_unions. split.
  - intros (s & Hs & Hm). apply in_map_iff in Hs. destruct Hs as ((e' & ab') & <- & Hp'). cbn [fst snd] in Hm.
    rewrite mem_inter, andb_true_iff, mem_of_list in Hm. destruct Hm as [Hm Hx'].
    assert (Eq : (e', ab') = (e, ab)); [|injection Eq as _ ->; exact Hm].
    clear Hm. induction p as [|c p IH]; [destruct Hp|]. simpl in Hn. apply NoDup_app_inv in Hn. destruct Hn as (_ & Hn & Hd).
    destruct Hp as [->|Hp], Hp' as [E'|Hp'].
    + congruence.
    + exfalso. apply (Hd x); auto. apply in_flat_map. exists e'. split; auto. apply (in_map fst) in Hp'. exact Hp'.
    + subst c. exfalso. apply (Hd x); auto. apply in_flat_map. exists e. split; auto. apply (in_map fst) in Hp. exact Hp.
    + apply IH; auto.
  - intro Hm. exists (inter (pick ab) (of_list (edom e))). split.
    + apply in_map_iff. exists (e, ab). auto.
    + rewrite mem_inter, Hm. cbn. apply mem_of_list. exact Hx.
Qed.
Lemma count_local (g : bset -> entry -> bool) (pick : bset * bset -> bset) (S : bset) (p : plan) :
  (forall S S' e, (forall x, In x (edom e) -> mem x S = mem x S') -> g S e = g S' e) ->
  (forall e ab x, In (e, ab) p -> In x (edom e) -> mem x S = mem x (pick ab)) ->
  List.length (filter (g S) (map fst p)) = List.length (filter (fun c => g (pick (snd c)) (fst c)) p).
Proof.
  intros Hg Hp. rewrite filter_map_len. f_equal. apply filter_ext_in. intros (e & ab) Hin. cbn [fst snd]. apply Hg. intros x Hx. eapply Hp; eauto.
Qed.
Definition both (ab : bset * bset) : bset := inter (fst ab) (snd ab).
Definition hits (g : bset -> entry -> bool) (pick : bset * bset -> bset) (p : plan) : nat := List.length (filter (fun c => g (pick (snd c)) (fst c)) p).

Lemma planned t vs is_ (p : plan) : nodup_qset (QS t vs is_) -> 1 <= t -> Permutation (map fst p) (entries vs is_) ->
  t <= hits esat fst p -> t <= hits esat snd p ->
  exists Q1 Q2, is_quorum_slice (QS t vs is_) Q1 = true /\ is_quorum_slice (QS t vs is_) Q2 = true /\
    (splitting_threshold (QS t vs is_) = 0 \/ hits ehit both p < splitting_threshold (QS t vs is_) -> missed (QS t vs is_) (inter Q1 Q2)) /\
    (hits esat both p < t -> is_quorum_slice (QS t vs is_) (inter Q1 Q2) = false).
Proof.
  intros Hn Ht Hp H1 H2.
  assert (Hnd : NoDup (flat_map edom (map fst p))).
  { eapply Permutation_NoDup; [|exact Hn]. rewrite <- (entries_dom t vs is_). apply Permutation_flat_map. symmetry. exact Hp. }
  assert (L : forall pick e ab x, In (e, ab) p -> In x (edom e) -> mem x (part pick p) = mem x (pick ab)) by (intros; eapply part_local; eauto).
  assert (LB : forall e ab x, In (e, ab) p -> In x (edom e) -> mem x (inter (part fst p) (part snd p)) = mem x (both ab)).
  { intros e ab x He Hx. unfold both. rewrite !mem_inter, (L fst e ab), (L snd e ab); auto. }
  exists (part fst p), (part snd p). split; [|split; [|split]].
  - apply sat_entries. split; auto. rewrite <- (Permutation_filter_len _ _ _ Hp), (count_local esat fst); eauto using esat_local.
  - apply sat_entries. split; auto. rewrite <- (Permutation_filter_len _ _ _ Hp), (count_local esat snd); eauto using esat_local.
  - intros Hlow T HT Hi. apply (listed_hits _ _ _ _ _ HT) in Hi. rewrite <- (Permutation_filter_len _ _ _ Hp), (count_local ehit both) in Hi; eauto using ehit_local.
    unfold hits in Hlow. lia.
  - intro Hlow. apply not_true_iff_false. intro Hs. apply sat_entries in Hs. rewrite <- (Permutation_filter_len _ _ _ Hp), (count_local esat both) in Hs; eauto using esat_local.
    unfold hits in Hlow. lia.
Qed.

(** parts of plans: entries used by both sets, by the first, by the second, by none *)
Definition use (e : entry) : bset := of_list (edom e).
Definition in_both (es : list entry) : plan := map (fun e => (e, (use e, use e))) es.
Definition in_first (es : list entry) : plan := map (fun e => (e, (use e, bempty))) es.
Definition in_second (es : list entry) : plan := map (fun e => (e, (bempty, use e))) es.
Definition in_none (es : list entry) : plan := map (fun e => (e, (bempty, bempty))) es.

Lemma hits_app g pick p p' : hits g pick (p ++ p') = hits g pick p + hits g pick p'.
Proof. unfold hits. rewrite filter_app, app_length. auto. Qed.
Lemma hits_cons g pick c p : hits g pick (c :: p) = (if g (pick (snd c)) (fst c) then 1 else 0) + hits g pick p.
Proof. unfold hits. cbn [filter]. destruct (g _ _); auto. Qed.
Lemma hits_le g pick p : hits g pick p <= List.length p.
Proof. apply filter_length_le. Qed.
Lemma hits_all g pick p : (forall c, In c p -> g (pick (snd c)) (fst c) = true) -> hits g pick p = List.length p.
Proof. intro H. unfold hits. rewrite forallb_filter_id; auto. apply forallb_forall. auto. Qed.
Lemma hits_none g pick p : (forall c, In c p -> g (pick (snd c)) (fst c) = false) -> hits g pick p = 0.
Proof.
  intro H. unfold hits. induction p as [|c p IH]; auto. cbn [filter]. rewrite H by (left; auto). apply IH. intros; apply H; right; auto.
Qed.
Lemma map_fst_in (k : entry -> bset * bset) es : map fst (map (fun e => (e, k e)) es) = es.
Proof. rewrite map_map. cbn [fst]. apply map_id. Qed.
Lemma inter_empty_l a : inter bempty a = bempty.
Proof. apply bset_ext. intro x. rewrite mem_inter, mem_empty. auto. Qed.
Lemma inter_empty_r a : inter a bempty = bempty.
Proof. apply bset_ext. intro x. rewrite mem_inter, mem_empty. apply andb_false_r. Qed.

Section Uses.
Variable es : list entry.
Hypothesis Hes : forall e, In e es -> esat (use e) e = true.
Lemma both_fst : hits esat fst (in_both es) = List.length es.
Proof. unfold in_both. rewrite hits_all, map_length; auto. intros c Hc. apply in_map_iff in Hc. destruct Hc as (e & <- & He). cbn. auto. Qed.
Lemma both_snd : hits esat snd (in_both es) = List.length es.
Proof. unfold in_both. rewrite hits_all, map_length; auto. intros c Hc. apply in_map_iff in Hc. destruct Hc as (e & <- & He). cbn. auto. Qed.
Lemma both_both g : hits g both (in_both es) <= List.length es.
Proof. unfold in_both. rewrite <- (map_length (fun e => (e, (use e, use e))) es). apply hits_le. Qed.
Lemma first_fst : hits esat fst (in_first es) = List.length es.
Proof. unfold in_first. rewrite hits_all, map_length; auto. intros c Hc. apply in_map_iff in Hc. destruct Hc as (e & <- & He). cbn. auto. Qed.
Lemma second_snd : hits esat snd (in_second es) = List.length es.
Proof. unfold in_second. rewrite hits_all, map_length; auto. intros c Hc. apply in_map_iff in Hc. destruct Hc as (e & <- & He). cbn. auto. Qed.
End Uses.
Lemma first_both g es : (forall e, g bempty e = false) -> hits g both (in_first es) = 0.
Proof. intro H. apply hits_none. intros c Hc. apply in_map_iff in Hc. destruct Hc as (e & <- & He). unfold both. cbn [fst snd]. rewrite inter_empty_r. auto. Qed.
Lemma second_both g es : (forall e, g bempty e = false) -> hits g both (in_second es) = 0.
Proof. intro H. apply hits_none. intros c Hc. apply in_map_iff in Hc. destruct Hc as (e & <- & He). unfold both. cbn [fst snd]. rewrite inter_empty_l. auto. Qed.
Lemma none_both g es : (forall e, g bempty e = false) -> hits g both (in_none es) = 0.
Proof. intro H. apply hits_none. intros c Hc. apply in_map_iff in Hc. destruct Hc as (e & <- & He). unfold both. cbn [fst snd]. rewrite inter_empty_l. auto. Qed.

(** entries cut into consecutive pieces of given sizes *)
Lemma cut {A} (l : list A) a : a <= List.length l -> exists l1 l2, l = l1 ++ l2 /\ List.length l1 = a.
Proof. intro H. exists (firstn a l), (skipn a l). split; [symmetry; apply firstn_skipn|apply firstn_length_le; auto]. Qed.
Lemma inner_first vs is_ j : In j is_ -> exists r : list entry, @Permutation entry (inr j :: r) (entries vs is_).
Proof.
  intro H. apply (in_entries_inner vs) in H. apply in_split in H. destruct H as (l1 & l2 & ->). exists (l1 ++ l2). apply Permutation_middle.
Qed.

(** a pair of slices that have no listed set in common, and, given [apart], no slice either *)
Definition pair_for (q : qset) (Q1 Q2 : bset) : Prop := is_quorum_slice q Q1 = true /\ is_quorum_slice q Q2 = true.

Lemma st_low t vs is_ : sane (QS t vs is_) -> 2 * t <= List.length vs + List.length is_ -> splitting_threshold (QS t vs is_) = 0.
Proof. intros H H2. apply sane_inv in H. rewrite splitting_threshold_fits by lia. lia. Qed.
Lemma sane_all q : sane q -> is_quorum_slice q (contained_nodes q) = true.
Proof. intro H. apply sane_full; auto. intros x Hx. apply contained_nodes_spec. exact Hx. Qed.

(** two slices with no slice in common *)
Lemma not_rigid_two q : sane q -> nodup_qset q -> ~ rigid q -> two_slices q.
Proof.
  induction q as [t vs is_ IH] using qset_ind'. intros Hs Hn Hr. assert (Hs' := Hs). apply sane_inv in Hs'. destruct Hs' as (H1 & H2 & H3).
  destruct (nodup_qset_inv _ _ _ Hn) as (Nv & Ni & _).
  assert (Hes : forall e, In e (entries vs is_) -> esat (use e) e = true) by (intro e; apply sane_entry; auto).
  assert (HL := entries_length vs is_).
  destruct (le_lt_dec (List.length vs + List.length is_) t) as [Hle|Ht]; cycle 1.
  - destruct (entries vs is_) as [|e0 es] eqn:Ee; [simpl in HL; lia|]. simpl in HL.
    destruct (cut es (t - 1)) as (b & r & -> & Hb); [lia|]. rewrite app_length in HL. destruct r as [|e1 r]; [simpl in HL; lia|].
    assert (Heb : forall e, In e b -> esat (use e) e = true) by (intros e He; apply Hes; right; apply in_app_iff; auto).
    destruct (planned t vs is_ (in_first [e0] ++ in_both b ++ in_second [e1] ++ in_none r)) as (Q1 & Q2 & S1 & S2 & _ & Hno); auto.
    + unfold in_first, in_both, in_second, in_none. rewrite !map_app, !map_fst_in, Ee. apply Permutation_refl.
    + rewrite !hits_app, first_fst, both_fst; auto; [cbn [List.length] in *; lia|]. intros e [<-|[]]. apply Hes. left; auto.
    + rewrite !hits_app, second_snd, both_snd; auto; [cbn [List.length] in *; lia|]. intros e [<-|[]]. apply Hes. right. apply in_app_iff. right. left; auto.
    + exists Q1, Q2. split; auto. split; auto. apply Hno. rewrite !hits_app, first_both, second_both, none_both by apply esat_empty.
      assert (B := both_both b esat). lia.
  - destruct (not_rigid t vs is_ H1 H2 Hr) as [Ht|(k & Hk & Hkr)]; [lia|].
    destruct (IH k Hk (H3 k Hk) (Ni k Hk) Hkr) as (A1 & A2 & S1 & S2 & S3).
    destruct (inner_first vs is_ k Hk) as (r & Hp). assert (HL' := Permutation_length Hp). simpl in HL'.
    assert (Her : forall e, In e r -> esat (use e) e = true) by (intros e He; apply Hes; eapply Permutation_in; [exact Hp|right; auto]).
    destruct (planned t vs is_ ((inr k, (A1, A2)) :: in_both r)) as (Q1 & Q2 & T1 & T2 & _ & Hno); auto.
    + unfold in_both. cbn [map fst]. rewrite map_fst_in. exact Hp.
    + rewrite hits_cons, both_fst by auto. cbn [fst snd esat]. rewrite S1. lia.
    + rewrite hits_cons, both_snd by auto. cbn [fst snd esat]. rewrite S2. lia.
    + exists Q1, Q2. split; auto. split; auto. apply Hno. rewrite hits_cons. unfold both at 1. cbn [fst snd esat]. rewrite S3.
      assert (B := both_both r esat). lia.
Qed.

(** with an inner set for which the listed sets are missed, and more than half of the entries needed *)
Lemma miss_through t vs is_ j A1 A2 : sane (QS t vs is_) -> nodup_qset (QS t vs is_) -> In j is_ ->
  List.length vs + List.length is_ < 2 * t -> pair_for j A1 A2 -> missed j (inter A1 A2) ->
  exists Q1 Q2, pair_for (QS t vs is_) Q1 Q2 /\ missed (QS t vs is_) (inter Q1 Q2) /\
    (t < List.length vs + List.length is_ \/ is_quorum_slice j (inter A1 A2) = false -> is_quorum_slice (QS t vs is_) (inter Q1 Q2) = false).
Proof.
  intros Hs Hn Hj Hlt [S1 S2] Hm. assert (Hs' := Hs). apply sane_inv in Hs'. destruct Hs' as (H1 & H2 & H3).
  assert (Hes : forall e, In e (entries vs is_) -> esat (use e) e = true) by (intro e; apply sane_entry; auto).
  assert (HL := entries_length vs is_). set (n := List.length vs + List.length is_) in *.
  destruct (inner_first vs is_ j Hj) as (r & Hp). assert (HL' := Permutation_length Hp). simpl in HL'.
  assert (Her : forall e, In e r -> esat (use e) e = true) by (intros e He; apply Hes; eapply Permutation_in; [exact Hp|right; auto]).
  destruct (cut r (2 * t - n - 1)) as (o & r' & -> & Ho); [lia|]. rewrite app_length in HL'.
  destruct (cut r' (n - t)) as (x1 & x2 & -> & Hx); [lia|]. rewrite app_length in HL'.
  assert (Heo : forall e, In e o -> esat (use e) e = true) by (intros e He; apply Her; rewrite !in_app_iff; auto).
  assert (He1 : forall e, In e x1 -> esat (use e) e = true) by (intros e He; apply Her; rewrite !in_app_iff; auto).
  assert (He2 : forall e, In e x2 -> esat (use e) e = true) by (intros e He; apply Her; rewrite !in_app_iff; auto).
  destruct (planned t vs is_ ((inr j, (A1, A2)) :: in_both o ++ in_first x1 ++ in_second x2)) as (Q1 & Q2 & T1 & T2 & Hmiss & Hno); auto.
  - unfold in_first, in_both, in_second. cbn [map fst]. rewrite !map_app, !map_fst_in. exact Hp.
  - rewrite hits_cons, !hits_app, first_fst, both_fst by auto. cbn [fst snd esat]. rewrite S1. lia.
  - rewrite hits_cons, !hits_app, second_snd, both_snd by auto. cbn [fst snd esat]. rewrite S2. lia.
  - exists Q1, Q2. split; [split; auto|]. split.
    + apply Hmiss. right. rewrite splitting_threshold_fits by auto. fold n.
      rewrite hits_cons, !hits_app, first_both, second_both by apply ehit_empty. unfold both at 1. cbn [fst snd ehit].
      destruct (existsb _ _) eqn:Ex.
      * exfalso. apply existsb_exists in Ex. destruct Ex as (T & HT & Hsub). apply (Hm T HT). apply incl_subset. exact Hsub.
      * assert (B := both_both o ehit). lia.
    + intro Hc. apply Hno. rewrite hits_cons, !hits_app, first_both, second_both by apply esat_empty. unfold both at 1. cbn [fst snd esat].
      assert (B := both_both o esat). destruct (is_quorum_slice j (inter A1 A2)) eqn:Ej; destruct Hc as [Hc|Hc]; try discriminate; lia.
Qed.

Lemma miss_one q : sane q -> nodup_qset q -> ~ splittable q -> exists Q1 Q2, pair_for q Q1 Q2 /\ missed q (inter Q1 Q2).
Proof.
  induction q as [t vs is_ IH] using qset_ind'. intros Hs Hn Hsp. assert (Hs' := Hs). apply sane_inv in Hs'. destruct Hs' as (H1 & H2 & H3).
  destruct (nodup_qset_inv _ _ _ Hn) as (Nv & Ni & _). assert (Hc := sane_all _ Hs).
  destruct (le_lt_dec (2 * t) (List.length vs + List.length is_)) as [Hle|Hlt].
  - exists (contained_nodes (QS t vs is_)), (contained_nodes (QS t vs is_)). split; [split; auto|]. intros T HT Hi.
    apply (listed_hits _ _ _ _ _ HT) in Hi. rewrite (st_low _ _ _ Hs Hle) in Hi. lia.
  - destruct (not_splittable t vs is_ H1 H2 Hsp) as [H|[H|(j & Hj & Hjs)]]; [lia| |].
    + exists (contained_nodes (QS t vs is_)), (contained_nodes (QS t vs is_)). split; [split; auto|]. intros T HT. rewrite (rigid_splitting _ H) in HT. destruct HT.
    + destruct (IH j Hj (H3 j Hj) (Ni j Hj) Hjs) as (A1 & A2 & HA & HmA).
      destruct (miss_through t vs is_ j A1 A2 Hs Hn Hj Hlt HA HmA) as (Q1 & Q2 & HQ & Hm & _). eauto.
Qed.

Lemma miss_apart q : sane q -> nodup_qset q -> ~ splittable q -> ~ rigid q ->
  exists Q1 Q2, pair_for q Q1 Q2 /\ missed q (inter Q1 Q2) /\ is_quorum_slice q (inter Q1 Q2) = false.
Proof.
  induction q as [t vs is_ IH] using qset_ind'. intros Hs Hn Hsp Hr. assert (Hs' := Hs). apply sane_inv in Hs'. destruct Hs' as (H1 & H2 & H3).
  destruct (nodup_qset_inv _ _ _ Hn) as (Nv & Ni & _).
  assert (Hes : forall e, In e (entries vs is_) -> esat (use e) e = true) by (intro e; apply sane_entry; auto).
  assert (HL := entries_length vs is_).
  destruct (le_lt_dec (2 * t) (List.length vs + List.length is_)) as [Hle|Hlt].
  - destruct (not_rigid_two _ Hs Hn Hr) as (Q1 & Q2 & S1 & S2 & S3). exists Q1, Q2. split; [split; auto|]. split; auto. intros T HT Hi.
    apply (listed_hits _ _ _ _ _ HT) in Hi. rewrite (st_low _ _ _ Hs Hle) in Hi. lia.
  - destruct (not_splittable t vs is_ H1 H2 Hsp) as [H|[H|(j & Hj & Hjs)]]; [lia|contradiction|].
    destruct (miss_one j (H3 j Hj) (Ni j Hj) Hjs) as (A1 & A2 & HA & HmA).
    destruct (not_rigid t vs is_ H1 H2 Hr) as [Ht|(k & Hk & Hkr)].
    + destruct (miss_through t vs is_ j A1 A2 Hs Hn Hj Hlt HA HmA) as (Q1 & Q2 & HQ & Hm & Hno). exists Q1, Q2. auto.
    + destruct (rigid_dec j) as [Hjr|Hjr].
      * destruct (le_lt_dec (List.length vs + List.length is_) t) as [Hle|Ht].
        -- destruct (not_rigid_two k (H3 k Hk) (Ni k Hk) Hkr) as (B1 & B2 & S1 & S2 & S3).
           destruct (inner_first vs is_ j Hj) as (r & Hp).
           assert (Hkr' : In (inr k) r).
           { assert (X := in_entries_inner vs is_ k Hk). apply (Permutation_in _ (Permutation_sym Hp)) in X. destruct X as [X|X]; auto.
             injection X as <-. contradiction. }
           apply in_split in Hkr'. destruct Hkr' as (l1 & l2 & ->).
           assert (Hp' : @Permutation entry (inr j :: inr k :: l1 ++ l2) (entries vs is_)).
           { eapply Permutation_trans; [|exact Hp]. apply perm_skip. apply Permutation_middle. }
           assert (HL' := Permutation_length Hp'). cbn [List.length] in HL'.
           assert (Her : forall e, In e (l1 ++ l2) -> esat (use e) e = true) by (intros e He; apply Hes; eapply Permutation_in; [exact Hp'|right; right; auto]).
           destruct HA as [HA1 HA2].
           destruct (planned t vs is_ ((inr j, (A1, A2)) :: (inr k, (B1, B2)) :: in_both (l1 ++ l2))) as (Q1 & Q2 & T1 & T2 & Hmiss & Hno); auto.
           ++ unfold in_both. cbn [map fst]. rewrite map_fst_in. exact Hp'.
           ++ rewrite !hits_cons, both_fst by auto. cbn [fst snd esat]. rewrite HA1, S1. lia.
           ++ rewrite !hits_cons, both_snd by auto. cbn [fst snd esat]. rewrite HA2, S2. lia.
           ++ exists Q1, Q2. split; [split; auto|]. split.
              ** apply Hmiss. right. rewrite splitting_threshold_fits by auto. rewrite !hits_cons. cbn [fst snd]. unfold both at 1. cbn [fst snd ehit].
                 destruct (existsb _ (to_splitting_sets j)) eqn:Ex.
                 --- exfalso. apply existsb_exists in Ex. destruct Ex as (T & HT & Hsub). apply (HmA T HT). apply incl_subset. exact Hsub.
                 --- assert (B := both_both (l1 ++ l2) ehit). change (list (nat + qset)) with (list entry) in *. repeat match goal with |- context[if ?b then _ else _] => destruct b end; lia.
              ** apply Hno. rewrite !hits_cons. cbn [fst snd]. unfold both at 2. cbn [fst snd]. cbn [esat]. rewrite S3.
                 assert (B := both_both (l1 ++ l2) esat). change (list (nat + qset)) with (list entry) in *. repeat match goal with |- context[if ?b then _ else _] => destruct b end; lia.
        -- destruct (miss_through t vs is_ j A1 A2 Hs Hn Hj Hlt HA HmA) as (Q1 & Q2 & HQ & Hm & Hno). exists Q1, Q2. auto.
      * destruct (IH j Hj (H3 j Hj) (Ni j Hj) Hjs Hjr) as (B1 & B2 & HB & HmB & HnB).
        destruct (miss_through t vs is_ j B1 B2 Hs Hn Hj Hlt HB HmB) as (Q1 & Q2 & HQ & Hm & Hno). exists Q1, Q2. auto.
Qed.

Section Exact.
Variable E : ext.
Hypothesis HE : ext_ok E.
Variable f : fbas.
Hypothesis Hwf : wf_fbas f.

(** a symmetric cluster for which not all minimal splitting sets are listed *)
Lemma split_lost q c : contained_nodes q = c -> (forall x, mem x c = true -> qset_of f x = q) ->
  (forall Q, minimal_quorum f Q -> incl_set Q c) -> sane q -> nodup_qset q -> ~ splittable q -> ~ rigid q ->
  exists S, minimal_splitting f S /\ ~ In S (to_splitting_sets q).
Proof.
  intros Hq Hall Hone Hs Hn Hsp Hr. destruct (miss_apart q Hs Hn Hsp Hr) as (Q1 & Q2 & [S1 S2] & Hm & Hno).
  destruct (to_quorum_slices_complete q Q1 S1) as (M1 & HM1 & I1).
  destruct (to_quorum_slices_complete q Q2 S2) as (M2 & HM2 & I2).
  assert (HS : splitting f (inter Q1 Q2)).
  { exists M1, M2. split; [apply (sym_minimal f q c); auto|]. split; [apply (sym_minimal f q c); auto|]. split.
    - intros <-. apply not_true_iff_false in Hno. apply Hno. eapply is_quorum_slice_mono; [|apply (to_quorum_slices_sound q M1 HM1)].
      intros x Hx. rewrite mem_inter, (I1 x Hx), (I2 x Hx). auto.
    - intros x Hx1 Hx2. rewrite mem_inter, (I1 x Hx1), (I2 x Hx2). auto. }
  destruct (minimal_below (splitting f) (fun S => splitting_dec f S Hwf) _ HS) as (T & HT & Hmin).
  exists T. split; auto. intro Hin. apply (Hm T Hin). exact HT.
Qed.

Lemma split_exact_iff MQ : quorum_intersection f -> NoDup MQ -> (forall Q, In Q MQ <-> minimal_quorum f Q) ->
  (forall q, satisfiable_cluster f q -> no_repetitions q /\ sane q) ->
  exists l, find_minimal_splitting_sets E f MQ = Ok l /\
    ((forall S, In S l <-> minimal_splitting f S) <-> forall q, satisfiable_cluster f q -> splittable q \/ rigid q).
Proof.
  intros HQI Hnd HMQ Hgood. destruct (mss_sound E HE f Hwf MQ HQI Hnd HMQ Hgood) as (l & El & _). exists l. split; auto. split.
  - intros Hl q Hq. destruct (cluster_of E HE f Hwf q Hq) as (c & Hc & Es & Eq & Hqc).
    destruct (splittable_dec q) as [Hsp|Hsp]; auto. destruct (rigid_dec q) as [Hr|Hr]; auto. exfalso.
    destruct (Hgood q Hq) as [Hrep Hsane]. apply no_repetitions_nodup in Hrep.
    destruct (one_cluster E HE f Hwf HQI) as (c' & Ec). rewrite Ec in Hc. destruct Hc as [->|[]].
    assert (Hone : forall Q, minimal_quorum f Q -> incl_set Q c).
    { intros Q HQ. destruct (minimal_quorum_cluster E HE f Hwf Q HQ) as (d & Hd & Hi). rewrite Ec in Hd. destruct Hd as [<-|[]]. auto. }
    destruct (split_lost q c Eq Hqc Hone Hsane Hrep Hsp Hr) as (S & HS & Hnot). apply Hl in HS. apply Hnot.
    unfold find_minimal_splitting_sets, find_minimal_sets, find_sets in El. rewrite Ec in El. cbn [minimal_splitting_sets_finder] in El.
    rewrite Es in El. cbn [bind] in El. apply contains_duplicates_false in Hrep. unfold to_minimal_splitting_sets in El. rewrite Hrep in El.
    simpl in El. rewrite app_nil_r in El. injection El as <-. rewrite sort_sets_in in HS. exact HS.
  - intros Hsp. destruct (find_minimal_splitting_sets_spec E HE f Hwf MQ HQI Hnd HMQ) as (l' & El' & _ & H); [|rewrite El in El'; injection El' as ->; exact H].
    intros q Hq. split; [apply Hgood|apply Hsp]; auto.
Qed.
End Exact.
