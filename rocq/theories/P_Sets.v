(** The list-of-sets functions of sets.rs. *)
From Verif Require Export P_Symmetric.
Local Open Scope list_scope.

Lemma sort_sets_perm l : Permutation (sort_sets l) l.
Proof. unfold sort_sets. rewrite !sort_by_perm. reflexivity. Qed.

Lemma sort_sets_in x l : In x (sort_sets l) <-> In x l.
Proof. split; apply Permutation_in; [|symmetry]; apply sort_sets_perm. Qed.

Lemma sort_sets_sorted l : StronglySorted before_or_eq (sort_sets l).
Proof. apply sort_len_lex. apply cmp_sort_sorted. apply bset_cmp_ok. Qed.

Lemma bset_compare_lt a b : bset_compare a b = Lt <-> lex_lt (elements a) (elements b).
Proof. apply lex_compare_lt. Qed.

Lemma before_or_eq_before a b : before_or_eq a b -> a <> b -> before a b.
Proof.
  unfold before_or_eq, before, lencmp. rewrite Nat.compare_lt_iff, Nat.compare_eq_iff. intros [H|[H1 H2]] Hne; auto.
  right. split; auto. apply bset_compare_lt. destruct (bset_compare a b) eqn:E; try congruence.
  exfalso. apply Hne. apply (cmp_ok_anti _ bset_cmp_ok); [congruence|].
  destruct bset_cmp_ok. rewrite cmp_opp, E. discriminate.
Qed.

Lemma sort_sets_strict l : NoDup l -> StronglySorted before (sort_sets l).
Proof.
  intro Hn. assert (Hs := sort_sets_sorted l).
  assert (Hn' : NoDup (sort_sets l)) by (eapply Permutation_NoDup; [symmetry; apply sort_sets_perm|auto]).
  induction Hs as [|x l' Hs IH Hx]; [constructor|]. inversion Hn'; subst. constructor; auto.
  rewrite Forall_forall in *. intros y Hy. apply before_or_eq_before; auto. intros ->. auto.
Qed.

Lemma lex_lt_irrefl l : ~ lex_lt l l.
Proof.
  induction l as [|x l IH]; intro H; inversion H; subst; [lia|auto].
Qed.

Lemma before_irrefl a : ~ before a a.
Proof. intros [H|[_ H]]; [lia|]. eapply lex_lt_irrefl; eauto. Qed.

Lemma lex_lt_trans a : forall b c, lex_lt a b -> lex_lt b c -> lex_lt a c.
Proof.
  induction a as [|x a IH]; intros b c H1 H2.
  - inversion H2; subst; try apply lex_lt_nil.
  - inversion H1; subst; inversion H2; subst; try (apply lex_lt_head; lia); try (apply lex_lt_head; assumption).
    apply lex_lt_tail. eauto.
Qed.

Lemma before_trans a b c : before a b -> before b c -> before a c.
Proof.
  unfold before. intros [H1|[H1 H1']] [H2|[H2 H2']]; try (left; lia). right. split; [lia|]. eapply lex_lt_trans; eauto.
Qed.

(** a strictly ordered list is determined by its members *)
Lemma sorted_before_ext l : forall l', StronglySorted before l -> StronglySorted before l' ->
  (forall x, In x l <-> In x l') -> l = l'.
Proof.
  induction l as [|x l IH]; intros l' H H' Hin.
  - destruct l' as [|y l']; auto. exfalso. apply (Hin y). left; auto.
  - destruct l' as [|y l']; [exfalso; apply (Hin x); left; auto|].
    inversion H as [|? ? Hs Hx]; subst. inversion H' as [|? ? Hs' Hy]; subst.
    rewrite Forall_forall in Hx, Hy.
    assert (E : x = y).
    { destruct (proj1 (Hin x) (or_introl eq_refl)) as [|H1]; auto.
      destruct (proj2 (Hin y) (or_introl eq_refl)) as [|H2]; auto.
      exfalso. eapply before_irrefl. eapply before_trans; [apply Hx; exact H2|apply Hy; exact H1]. }
    subst y. f_equal. apply IH; auto. intro z. specialize (Hin z). simpl in Hin. split; intro Hz.
    + destruct (proj1 Hin (or_intror Hz)); auto. subst z. exfalso. eapply before_irrefl. eauto.
    + destruct (proj2 Hin (or_intror Hz)); auto. subst z. exfalso. eapply before_irrefl. eauto.
Qed.

Lemma sorted_before_nodup l : StronglySorted before l -> NoDup l.
Proof.
  induction 1 as [|x l Hs IH Hx]; constructor; auto. rewrite Forall_forall in Hx. intro H.
  eapply before_irrefl; eauto.
Qed.

(** ** [all_intersect] *)
Lemma all_pairs_intersect_iff l : all_pairs_intersect l = true <-> ForallOrdPairs meets l.
Proof.
  induction l as [|x l IH]; simpl.
  - split; auto. constructor.
  - rewrite andb_true_iff, forallb_forall, IH. split.
    + intros [H1 H2]. constructor; auto. apply Forall_forall. intros y Hy. apply not_disjoint_meets.
      apply negb_true_iff. auto.
    + inversion 1; subst. split; auto. intros y Hy. apply negb_true_iff. apply not_disjoint_meets.
      rewrite Forall_forall in H2. auto.
Qed.

Lemma len_union_disjoint a b : (forall x, mem x a = true -> mem x b = true -> False) -> len (union a b) = len a + len b.
Proof.
  intro H. rewrite !len_elements, <- app_length. apply Permutation_length. apply NoDup_Permutation.
  - apply elements_nodup.
  - apply NoDup_app_intro; try apply elements_nodup. intros x. rewrite !elements_spec. apply H.
  - intro x. rewrite in_app_iff, !elements_spec, mem_union, orb_true_iff. tauto.
Qed.

Lemma two_majorities_meet u a b : incl_set a u -> incl_set b u -> len u / 2 < len a -> len u / 2 < len b -> meets a b.
Proof.
  intros Ha Hb La Lb. destruct (disjoint a b) eqn:E; [|apply not_disjoint_meets; auto].
  exfalso. rewrite disjoint_iff in E. assert (L := len_union_disjoint a b E).
  assert (len (union a b) <= len u).
  { apply len_subset. intros x Hx. rewrite mem_union, orb_true_iff in Hx. destruct Hx; auto. }
  assert (len u = 2 * (len u / 2) + len u mod 2) by (apply Nat.div_mod; lia).
  assert (len u mod 2 < 2) by (apply Nat.mod_upper_bound; lia). lia.
Qed.

Lemma mem_involved l x : mem x (involved_nodes l) = true <-> exists s, In s l /\ mem x s = true.
Proof. apply mem_unions. Qed.

Lemma all_intersect_iff l : all_intersect l = true <-> ForallOrdPairs meets l.
Proof.
  unfold all_intersect. destruct (forallb _ l) eqn:E; [|apply all_pairs_intersect_iff].
  split; auto. intros _. rewrite forallb_forall in E.
  assert (H : forall l', incl l' l -> ForallOrdPairs meets l').
  { induction l' as [|x l' IH]; intro Hi; constructor.
    - apply Forall_forall. intros y Hy.
      assert (Hx' : In x l) by (apply Hi; left; auto). assert (Hy' : In y l) by (apply Hi; right; auto).
      apply E in Hx' as Lx. apply E in Hy' as Ly. apply Nat.ltb_lt in Lx, Ly.
      eapply two_majorities_meet; eauto; intros z Hz; apply mem_involved; eauto.
    - apply IH. intros y Hy. apply Hi. right; auto. }
  apply H. intros x Hx; auto.
Qed.

(** ** [remove_non_minimal_node_sets] *)
Lemma dedup_in l (x : bset) : In x (dedup beq l) <-> In x l.
Proof.
  induction l as [|a l IH]; [reflexivity|]. cbn [dedup]. destruct l as [|b l]; [reflexivity|].
  destruct (beq a b) eqn:E.
  - apply beq_eq in E. subst b. rewrite IH. simpl. tauto.
  - change (In x (a :: dedup beq (b :: l)) <-> In x (a :: b :: l)). simpl In at 1. rewrite IH. simpl. tauto.
Qed.

Lemma dedup_sorted_nodup l : StronglySorted (fun a b => bset_compare a b <> Gt) l -> NoDup (dedup beq l).
Proof.
  induction 1 as [|a l Hs IH Ha]; [constructor|]. cbn [dedup]. destruct l as [|b l]; [constructor; auto; constructor|].
  destruct (beq a b) eqn:E; auto.
  constructor; [|exact IH]. rewrite dedup_in. intros [H|H].
  - subst b. rewrite beq_refl in E. discriminate.
  - inversion Hs as [|? ? Hs' Hb]; subst. rewrite Forall_forall in Ha, Hb.
    assert (a = b).
    { apply (cmp_ok_anti _ bset_cmp_ok); [apply Ha; left; auto|apply Hb; auto]. }
    subst b. rewrite beq_refl in E. discriminate.
Qed.

Definition minimal_in (l : list bset) (s : bset) : Prop :=
  In s l /\ forall s', In s' l -> incl_set s' s -> s' = s.

Lemma minimal_in_below l s : In s l -> exists m, incl_set m s /\ minimal_in l m.
Proof.
  intro Hs. destruct (minimal_below (fun x => In x l)) with (s := s) as (m & Hm & Hmin); auto.
  - intro x. destruct (in_dec bset_eq_dec x l); auto.
  - exists m. split; auto.
Qed.

Lemma minimal_from_buckets_spec ns : forall k from minimal,
  (forall s, In s minimal <-> minimal_in ns s /\ len s < from) ->
  (NoDup ns -> NoDup minimal) ->
  let r := minimal_from_buckets minimal (map (fun k => filter (fun s => len s =? k) ns) (seq from k)) in
  (forall s, In s r <-> minimal_in ns s /\ len s < from + k) /\ (NoDup ns -> NoDup r).
Proof.
  induction k as [|k IH]; intros from minimal Hm Hn; simpl.
  - rewrite Nat.add_0_r. auto.
  - assert (Hfb : forall s, In s (filter_bucket minimal (filter (fun s => len s =? from) ns)) <-> minimal_in ns s /\ len s = from).
    { intro s. unfold filter_bucket. rewrite !filter_In, Nat.eqb_eq, forallb_forall. split.
      - intros [[Hs Hl] Hall]. split; auto. split; auto. intros s' Hs' Hi.
        destruct (bset_eq_dec s' s) as [|Hne]; auto. exfalso.
        destruct (minimal_in_below ns s' Hs') as (m & Hmi & Hmm).
        assert (Hlt : len m < len s).
        { assert (len m <= len s') by (apply len_subset; auto).
          assert (len s' <= len s) by (apply len_subset; auto).
          destruct (Nat.eq_dec (len s') (len s)); [|lia]. exfalso. apply Hne. apply len_subset_eq; auto. lia. }
        assert (Hmin : In m minimal) by (apply Hm; split; auto; lia).
        specialize (Hall m Hmin). apply negb_true_iff in Hall.
        assert (subset m s = true); [|congruence]. apply incl_subset. eapply incl_trans; eauto.
      - intros [[Hs Hmin] Hl]. split; auto. intros x Hx. apply Hm in Hx. destruct Hx as [[Hx _] Hlx].
        apply negb_true_iff. apply not_true_iff_false. intro Hsub. apply incl_subset in Hsub.
        specialize (Hmin x Hx Hsub). subst x. lia. }
    destruct (IH (S from) (minimal ++ filter_bucket minimal (filter (fun s => len s =? from) ns))) as [H1 H2].
    + intro s. rewrite in_app_iff, Hm, Hfb. split.
      * intros [[H1 H2]|[H1 H2]]; split; auto; lia.
      * intros [H1 H2]. destruct (Nat.eq_dec (len s) from); [right|left]; split; auto; lia.
    + intro N. apply NoDup_app_intro; auto.
      * apply NoDup_filter, NoDup_filter; auto.
      * intros s H3 H4. apply Hm in H3. apply Hfb in H4. lia.
    + split; auto. intro s. rewrite H1. rewrite Nat.add_succ_r. tauto.
Qed.

Lemma fold_max_le l : forall a x, In x l \/ x <= a -> x <= fold_left Nat.max l a.
Proof.
  induction l as [|y l IH]; intros a x H; simpl.
  - destruct H as [[]|H]; auto.
  - apply IH. destruct H as [[->|H]|H]; auto; right; lia.
Qed.

Lemma remove_non_minimal_node_sets_spec l :
  (forall s, In s (remove_non_minimal_node_sets l) <-> minimal_in l s) /\ NoDup (remove_non_minimal_node_sets l).
Proof.
  unfold remove_non_minimal_node_sets. set (ns := dedup beq (sort_by bset_compare l)).
  assert (Hin : forall s, In s ns <-> In s l).
  { intro s. unfold ns. rewrite dedup_in. apply sort_by_in. }
  assert (Hmin : forall s, minimal_in ns s <-> minimal_in l s).
  { intro s. unfold minimal_in. setoid_rewrite Hin. tauto. }
  destruct (minimal_from_buckets_spec ns (fold_left Nat.max (map len ns) 0 + 1) 0 []) as [H1 H2].
  - intro s. simpl. intuition lia.
  - intro. constructor.
  - split.
    + intro s. rewrite H1, Hmin. simpl. split; [tauto|]. intro H. split; auto.
      assert (len s <= fold_left Nat.max (map len ns) 0); [|lia].
      apply fold_max_le. left. apply in_map. apply Hin. destruct H; auto.
    + apply H2. apply dedup_sorted_nodup. apply cmp_sort_sorted. apply bset_cmp_ok.
Qed.

(** the kept sets come by ascending size *)
Lemma minimal_from_buckets_sorted ns : forall k from minimal,
  StronglySorted (fun a b => len a <= len b) minimal -> (forall s, In s minimal -> len s < from) ->
  StronglySorted (fun a b => len a <= len b)
    (minimal_from_buckets minimal (map (fun k => filter (fun s => len s =? k) ns) (seq from k))).
Proof.
  induction k as [|k IH]; intros from minimal Hs Hl; simpl; auto. apply IH.
  - assert (Hb : forall l, (forall s, In s l -> len s = from) -> StronglySorted (fun a b => len a <= len b) (minimal ++ l)).
    { intros l Hl'. induction Hs as [|a m Hs IHs Ha]; simpl.
      - induction l as [|b l IHl]; constructor.
        + apply IHl. intros; apply Hl'; right; auto.
        + apply Forall_forall. intros c Hc. rewrite (Hl' b), (Hl' c); simpl; auto.
      - constructor; [apply IHs; intros; apply Hl; right; auto|]. apply Forall_forall. intros c Hc.
        apply in_app_iff in Hc. rewrite Forall_forall in Ha. destruct Hc as [Hc|Hc]; auto.
        rewrite (Hl' c Hc). specialize (Hl a (or_introl eq_refl)). lia. }
    apply Hb. intros s Hs'. apply filter_In in Hs'. destruct Hs' as [Hs' _]. apply filter_In in Hs'.
    apply Nat.eqb_eq. tauto.
  - intros s Hs'. apply in_app_iff in Hs'. destruct Hs' as [Hs'|Hs']; [specialize (Hl s Hs'); lia|].
    apply filter_In in Hs'. destruct Hs' as [Hs' _]. apply filter_In in Hs'. destruct Hs' as [_ H].
    apply Nat.eqb_eq in H. lia.
Qed.
