(** Facts about quorum sets. *)
From Verif Require Export P_List.
Local Open Scope list_scope.

(** induction over nested quorum sets *)
Lemma qset_ind' (P : qset -> Prop) :
  (forall t vs is_, (forall i, In i is_ -> P i) -> P (QS t vs is_)) -> forall q, P q.
Proof.
  intro H. fix IH 1. intros [t vs is_]. apply H.
  induction is_ as [|i is_ IHl]; intros j Hj.
  - destruct Hj.
  - destruct Hj as [<-|Hj]; [apply IH|apply IHl, Hj].
Qed.

(** ** equality and order *)
Lemma qset_eqb_eq a : forall b, qset_eqb a b = true <-> a = b.
Proof.
  induction a as [t1 v1 i1 IH] using qset_ind'. intros [t2 v2 i2].
  cbn [qset_eqb]. rewrite !andb_true_iff, Nat.eqb_eq.
  assert (Hi : forall i2, (fix eqs (l1 l2 : list qset) {struct l1} : bool :=
         match l1, l2 with
         | [], [] => true
         | x :: l1', y :: l2' => qset_eqb x y && eqs l1' l2'
         | _, _ => false
         end) i1 i2 = true <-> i1 = i2).
  { clear - IH. induction i1 as [|a i1 IHl]; intros [|b i2]; try (split; congruence).
    rewrite andb_true_iff. rewrite (IH a (or_introl eq_refl)).
    rewrite (IHl (fun i Hi => IH i (or_intror Hi))).
    split; [intros [-> ->]; auto|]. intro H. injection H as -> ->. auto. }
  rewrite Hi. destruct (list_eq_dec Nat.eq_dec v1 v2) as [->|Hn].
  - split; [intros [[-> _] ->]; auto|]. intro H. injection H as -> ->. auto.
  - split; [intros [[_ H] _]; discriminate|]. intro H. injection H as -> -> ->. congruence.
Qed.

Lemma qset_compare_unfold t1 v1 i1 t2 v2 i2 :
  qset_compare (QS t1 v1 i1) (QS t2 v2 i2) =
  match Nat.compare t1 t2 with
  | Eq => match lex_compare Nat.compare v1 v2 with
          | Eq => lex_compare qset_compare i1 i2
          | c => c
          end
  | c => c
  end.
Proof.
  cbn [qset_compare]. destruct (Nat.compare t1 t2); auto.
  destruct (lex_compare Nat.compare v1 v2); auto.
  revert i2. induction i1 as [|a i1 IH]; intros [|b i2]; cbn; auto.
  destruct (qset_compare a b); auto.
Qed.

Lemma lex_eq_local {A} (cmp : A -> A -> comparison) l1 :
  (forall a, In a l1 -> forall b, cmp a b = Eq <-> a = b) ->
  forall l2, lex_compare cmp l1 l2 = Eq <-> l1 = l2.
Proof.
  induction l1 as [|a l1 IH]; intros H [|b l2]; simpl; try (split; congruence).
  destruct (cmp a b) eqn:E.
  - apply (H a (or_introl eq_refl)) in E. subst b.
    rewrite IH by (intros; apply H; simpl; auto). split; congruence.
  - split; [congruence|]. intro He. injection He as -> ->.
    assert (cmp b b = Eq) by (apply H; simpl; auto). congruence.
  - split; [congruence|]. intro He. injection He as -> ->.
    assert (cmp b b = Eq) by (apply H; simpl; auto). congruence.
Qed.

Lemma lex_opp_local {A} (cmp : A -> A -> comparison) l1 :
  (forall a, In a l1 -> forall b, cmp b a = CompOpp (cmp a b)) ->
  forall l2, lex_compare cmp l2 l1 = CompOpp (lex_compare cmp l1 l2).
Proof.
  induction l1 as [|a l1 IH]; intros H [|b l2]; simpl; auto.
  rewrite (H a (or_introl eq_refl) b). destruct (cmp a b); simpl; auto.
  apply IH. intros. apply H. simpl. auto.
Qed.

Lemma lex_trans_local {A} (cmp : A -> A -> comparison) l1 :
  (forall a, In a l1 -> forall b, cmp a b = Eq <-> a = b) ->
  (forall x y, cmp x y = Eq <-> x = y) ->
  (forall a, In a l1 -> forall b c, cmp a b = Lt -> cmp b c = Lt -> cmp a c = Lt) ->
  forall l2 l3, lex_compare cmp l1 l2 = Lt -> lex_compare cmp l2 l3 = Lt -> lex_compare cmp l1 l3 = Lt.
Proof.
  induction l1 as [|a l1 IH]; intros He He' Ht [|b l2] [|c l3]; simpl; try congruence.
  destruct (cmp a b) eqn:E1; try congruence; destruct (cmp b c) eqn:E2; try congruence; intros H1 H2.
  - apply He' in E1. apply He' in E2. subst. rewrite (proj2 (He' c c) eq_refl).
    exact (IH (fun a Ha => He a (or_intror Ha)) He' (fun a Ha => Ht a (or_intror Ha)) l2 l3 H1 H2).
  - apply He' in E1. subst. rewrite E2. reflexivity.
  - apply He' in E2. subst. rewrite E1. reflexivity.
  - rewrite (Ht a (or_introl eq_refl) b c E1 E2). reflexivity.
Qed.

Lemma qset_cmp_ok : cmp_ok qset_compare.
Proof.
  assert (He : forall a b, qset_compare a b = Eq <-> a = b).
  { induction a as [t1 v1 i1 IH] using qset_ind'. intros [t2 v2 i2].
    rewrite qset_compare_unfold.
    destruct (Nat.compare_spec t1 t2) as [->|H|H].
    - destruct (lex_compare Nat.compare v1 v2) eqn:Ev.
      + apply (cmp_eq _ (lex_cmp_ok _ nat_cmp_ok)) in Ev. subst v2.
        rewrite (lex_eq_local qset_compare i1 IH). split; congruence.
      + split; [congruence|]. intro H. injection H as -> ->.
        rewrite (proj2 (cmp_eq _ (lex_cmp_ok _ nat_cmp_ok) v2 v2) eq_refl) in Ev. congruence.
      + split; [congruence|]. intro H. injection H as -> ->.
        rewrite (proj2 (cmp_eq _ (lex_cmp_ok _ nat_cmp_ok) v2 v2) eq_refl) in Ev. congruence.
    - split; [congruence|]. intro E. injection E as -> -> ->. lia.
    - split; [congruence|]. intro E. injection E as -> -> ->. lia. }
  split; auto.
  - induction x as [t1 v1 i1 IH] using qset_ind'. intros [t2 v2 i2].
    rewrite !qset_compare_unfold.
    rewrite (Nat.compare_antisym t1 t2). destruct (Nat.compare t1 t2); simpl; auto.
    rewrite (cmp_opp _ (lex_cmp_ok _ nat_cmp_ok) v1 v2). destruct (lex_compare Nat.compare v1 v2); simpl; auto.
    apply lex_opp_local. auto.
  - induction x as [t1 v1 i1 IH] using qset_ind'. intros [t2 v2 i2] [t3 v3 i3].
    rewrite !qset_compare_unfold.
    destruct (Nat.compare_spec t1 t2) as [->|H1|H1]; try congruence;
    destruct (Nat.compare_spec t2 t3) as [->|H2|H2]; try congruence; intros C1 C2.
    + rewrite ?Nat.compare_refl.
      destruct (lex_compare Nat.compare v1 v2) eqn:E1; try congruence;
      destruct (lex_compare Nat.compare v2 v3) eqn:E2; try congruence.
      * apply (cmp_eq _ (lex_cmp_ok _ nat_cmp_ok)) in E1. apply (cmp_eq _ (lex_cmp_ok _ nat_cmp_ok)) in E2. subst.
        rewrite (proj2 (cmp_eq _ (lex_cmp_ok _ nat_cmp_ok) v3 v3) eq_refl).
        eapply lex_trans_local; eauto.
      * apply (cmp_eq _ (lex_cmp_ok _ nat_cmp_ok)) in E1. subst. rewrite E2. auto.
      * apply (cmp_eq _ (lex_cmp_ok _ nat_cmp_ok)) in E2. subst. rewrite E1. auto.
      * rewrite (cmp_trans _ (lex_cmp_ok _ nat_cmp_ok) _ _ _ E1 E2). auto.
    + rewrite ?(proj2 (Nat.compare_lt_iff t1 t3) H1). auto.
    + rewrite (proj2 (Nat.compare_lt_iff t1 t3)) by lia. auto.
Qed.

(** ** mentioned nodes *)
Lemma mentions_inv x t vs is_ : mentions x (QS t vs is_) <-> In x vs \/ exists i, In i is_ /\ mentions x i.
Proof.
  split.
  - inversion 1; subst; eauto.
  - intros [H|(i & Hi & H)]; [left|eright]; eauto.
Qed.

Lemma contained_list_spec q x : In x (contained_nodes_with_duplicates q) <-> mentions x q.
Proof.
  induction q as [t vs is_ IH] using qset_ind'. simpl.
  rewrite in_app_iff, mentions_inv, in_flat_map.
  split; (intros [H|(i & Hi & H)]; [left; auto|right; exists i; split; auto; apply IH; auto]).
Qed.

Lemma contained_nodes_spec q x : mem x (contained_nodes q) = true <-> mentions x q.
Proof. unfold contained_nodes. rewrite mem_of_list. apply contained_list_spec. Qed.

Lemma count_flat_map {A} (dec : forall a b : nat, {a = b} + {a <> b}) (g : A -> list nat) l x :
  count_occ dec (flat_map g l) x = list_sum (map (fun a => count_occ dec (g a) x) l).
Proof. induction l as [|a l IH]; simpl; auto. rewrite count_occ_app, IH. reflexivity. Qed.

Lemma times_mentioned_spec q x :
  times_mentioned x q = count_occ Nat.eq_dec (contained_nodes_with_duplicates q) x.
Proof.
  induction q as [t vs is_ IH] using qset_ind'. simpl.
  rewrite count_occ_app, count_flat_map. f_equal. f_equal. apply map_ext_in. auto.
Qed.

Lemma len_of_list_nodup l : len (of_list l) = List.length l -> NoDup l.
Proof.
  intro H. apply NoDup_incl_NoDup with (l := elements (of_list l)).
  - apply elements_nodup.
  - change (List.length (elements (of_list l))) with (len (of_list l)). lia.
  - intros x. rewrite elements_spec. apply mem_of_list.
Qed.

Lemma contains_duplicates_false q : contains_duplicates q = false <-> NoDup (contained_nodes_with_duplicates q).
Proof.
  unfold contains_duplicates. rewrite negb_false_iff, Nat.eqb_eq. split.
  - intro H. apply len_of_list_nodup. auto.
  - intro H. symmetry. apply len_of_list. auto.
Qed.

Lemma contains_duplicates_spec q : contains_duplicates q = true <-> exists x, 2 <= times_mentioned x q.
Proof.
  destruct (contains_duplicates q) eqn:E.
  - split; auto. intros _.
    assert (Hn : ~ NoDup (contained_nodes_with_duplicates q)).
    { intro H. apply contains_duplicates_false in H. congruence. }
    rewrite (NoDup_count_occ Nat.eq_dec) in Hn.
    set (l := contained_nodes_with_duplicates q) in *.
    destruct (existsb (fun x => 2 <=? count_occ Nat.eq_dec l x) l) eqn:Ex.
    + apply existsb_exists in Ex. destruct Ex as (x & _ & Hx). apply Nat.leb_le in Hx.
      exists x. rewrite times_mentioned_spec. exact Hx.
    + exfalso. apply Hn. intro x.
      destruct (le_lt_dec (count_occ Nat.eq_dec l x) 1) as [|Hlt]; auto.
      exfalso. assert (Hx : In x l) by (apply (count_occ_In Nat.eq_dec); lia).
      assert (existsb (fun x => 2 <=? count_occ Nat.eq_dec l x) l = true).
      { apply existsb_exists. exists x. split; auto. apply Nat.leb_le. lia. }
      congruence.
  - split; [discriminate|]. intros (x & Hx). exfalso.
    apply contains_duplicates_false in E. rewrite times_mentioned_spec in Hx.
    rewrite (NoDup_count_occ Nat.eq_dec) in E. specialize (E x). lia.
Qed.

(** ** satisfaction *)
Definition matches (s : bset) (vs : list nat) (is_ : list qset) : nat :=
  List.length (filter (fun x => mem x s) vs) + List.length (filter (fun i => is_quorum_slice i s) is_).

Lemma is_quorum_slice_matches t vs is_ s :
  is_quorum_slice (QS t vs is_) s = true <-> 1 <= t /\ t <= matches s vs is_.
Proof.
  cbn [is_quorum_slice]. unfold matches. destruct (Nat.eqb_spec t 0) as [->|Ht].
  - split; [discriminate|lia].
  - rewrite Nat.eqb_eq, !firstn_length. lia.
Qed.

Theorem is_quorum_slice_iff q s : is_quorum_slice q s = true <-> slice (fun x => mem x s = true) q.
Proof.
  induction q as [t vs is_ IH] using qset_ind'.
  rewrite is_quorum_slice_matches. split.
  - intros [Ht Hm]. unfold matches in Hm.
    apply slice_intro with (vs' := filter (fun x => mem x s) vs) (is' := filter (fun i => is_quorum_slice i s) is_);
      auto using subseq_filter.
    + intros v Hv. apply filter_In in Hv. tauto.
    + intros i Hi. apply filter_In in Hi. apply IH; tauto.
  - inversion 1 as [t' vs0 is0 vs' is' Ht Hvs His Hv Hi Hl]; subst. split; auto.
    unfold matches. apply (subseq_filter_max (fun x => mem x s)) in Hvs; auto.
    pose proof (subseq_in _ _ His) as Hin.
    apply (subseq_filter_max (fun i => is_quorum_slice i s)) in His; [lia|].
    intros i Hx. apply IH; auto.
Qed.

Lemma filter_le {A} (f g : A -> bool) l : (forall x, In x l -> f x = true -> g x = true) ->
  List.length (filter f l) <= List.length (filter g l).
Proof.
  induction l as [|a l IH]; simpl; intro H; auto.
  assert (IH' := IH (fun x Hx => H x (or_intror Hx))).
  specialize (H a (or_introl eq_refl)). destruct (f a), (g a); simpl; try lia; discriminate (H eq_refl).
Qed.

Lemma filter_lt {A} (f g : A -> bool) l : (forall x, In x l -> f x = true -> g x = true) ->
  (exists x, In x l /\ f x = false /\ g x = true) ->
  List.length (filter f l) < List.length (filter g l).
Proof.
  induction l as [|a l IH]; simpl; intros H (x & Hx & Hf & Hg); [tauto|].
  assert (Hle := filter_le f g l (fun x Hx => H x (or_intror Hx))).
  destruct Hx as [<-|Hx].
  - rewrite Hf, Hg. simpl. lia.
  - assert (IH' : List.length (filter f l) < List.length (filter g l)).
    { apply IH; eauto. }
    specialize (H a (or_introl eq_refl)). destruct (f a), (g a); simpl; try lia; discriminate (H eq_refl).
Qed.

(** satisfaction only looks at mentioned nodes, and is monotone *)
Lemma is_quorum_slice_mono_local q s s' :
  (forall x, mentions x q -> mem x s = true -> mem x s' = true) ->
  is_quorum_slice q s = true -> is_quorum_slice q s' = true.
Proof.
  induction q as [t vs is_ IH] using qset_ind'. intro H.
  rewrite !is_quorum_slice_matches. intros [Ht Hm]. split; auto.
  eapply Nat.le_trans; [exact Hm|]. unfold matches. apply Nat.add_le_mono; apply filter_le.
  - intros x Hx. apply H. left. auto.
  - intros i Hi. apply IH; auto. intros x Hx. apply H. eright; eauto.
Qed.

Lemma is_quorum_slice_mono q s s' : incl_set s s' -> is_quorum_slice q s = true -> is_quorum_slice q s' = true.
Proof. intro H. apply is_quorum_slice_mono_local. intros x _. apply H. Qed.

Lemma is_quorum_slice_local q s s' : (forall x, mentions x q -> mem x s = mem x s') ->
  is_quorum_slice q s = is_quorum_slice q s'.
Proof.
  intro H. apply eq_true_iff_eq. split; apply is_quorum_slice_mono_local; intros x Hx; rewrite (H x Hx); auto.
Qed.

Lemma is_quorum_slice_empty q : is_quorum_slice q bempty = false.
Proof.
  induction q as [t vs is_ IH] using qset_ind'.
  apply not_true_false. rewrite is_quorum_slice_matches. unfold matches.
  assert (E1 : filter (fun x => mem x bempty) vs = []).
  { induction vs as [|v vs IHv]; simpl; [auto|]. rewrite mem_empty. auto. }
  assert (E2 : filter (fun i => is_quorum_slice i bempty) is_ = []).
  { clear E1. induction is_ as [|i is_ IHi]; simpl; [auto|]. rewrite IH by (left; auto).
    apply IHi. intros. apply IH. right; auto. }
  rewrite E1, E2. simpl. lia.
Qed.

Lemma is_quorum_slice_meets q s : is_quorum_slice q s = true -> exists x, mentions x q /\ mem x s = true.
Proof.
  intro H.
  destruct (existsb (fun x => mem x s) (contained_nodes_with_duplicates q)) eqn:E.
  - apply existsb_exists in E. destruct E as (x & Hx & Hm). exists x. rewrite <- contained_list_spec. auto.
  - exfalso. rewrite (is_quorum_slice_local q s bempty), is_quorum_slice_empty in H; [discriminate|].
    intros x Hx. rewrite mem_empty. apply not_true_false. intro Hm.
    apply contained_list_spec in Hx.
    assert (existsb (fun x => mem x s) (contained_nodes_with_duplicates q) = true)
      by (apply existsb_exists; eauto). congruence.
Qed.
