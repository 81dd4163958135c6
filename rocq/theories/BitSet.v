(** Model of [bit_set::BitSet] (crate bit-set 0.5.2), the type behind
    [NodeIdSet] (/repo/src/core_types/mod.rs, /repo/src/core_types/fbas.rs l.6-8).

    A set of node ids is the binary number whose bit [i] says whether [i] is a
    member.  Equality of numbers is equality of sets, as for the [Eq] instance
    of the crate. *)
From Coq Require Export List Arith NArith Bool Lia Sorting.Permutation Sorting.Sorted.
Export ListNotations.

Definition bset := N.

Definition mem (x : nat) (s : bset) : bool := N.testbit s (N.of_nat x).
Definition bempty : bset := 0%N.
Definition insert (x : nat) (s : bset) : bset := N.setbit s (N.of_nat x).
Definition remove (x : nat) (s : bset) : bset := N.clearbit s (N.of_nat x).
Definition union (a b : bset) : bset := N.lor a b.
Definition inter (a b : bset) : bset := N.land a b.
Definition diff (a b : bset) : bset := N.ldiff a b.
Definition is_empty (s : bset) : bool := N.eqb s 0.
Definition subset (a b : bset) : bool := N.eqb (N.ldiff a b) 0.
Definition disjoint (a b : bset) : bool := N.eqb (N.land a b) 0.
Definition beq (a b : bset) : bool := N.eqb a b.
(** ascending iteration *)
Definition elements (s : bset) : list nat := filter (fun x => mem x s) (seq 0 (N.size_nat s)).
Definition len (s : bset) : nat := length (elements s).
(** [Iterator::collect], [bitset![...]] *)
Definition of_list (l : list nat) : bset := fold_left (fun s x => insert x s) l bempty.
Definition singleton (x : nat) : bset := insert x bempty.
(** fold of [union_with] *)
Definition unions (l : list bset) : bset := fold_left union l bempty.
(** all ids below [n]: [(0..n).collect()] *)
Definition below (n : nat) : bset := of_list (seq 0 n).

(** ** Membership laws *)

Lemma bset_ext a b : (forall x, mem x a = mem x b) -> a = b.
Proof.
  intro H. apply N.bits_inj. intro n. specialize (H (N.to_nat n)).
  unfold mem in H. rewrite N2Nat.id in H. exact H.
Qed.

Lemma mem_empty x : mem x bempty = false.
Proof. apply N.bits_0. Qed.

Lemma mem_insert x y s : mem x (insert y s) = (x =? y) || mem x s.
Proof.
  unfold mem, insert. rewrite N.setbit_eqb. f_equal.
  destruct (Nat.eqb_spec x y) as [->|Hn].
  - apply N.eqb_refl.
  - apply N.eqb_neq. intro E. apply Hn. symmetry. apply Nat2N.inj. exact E.
Qed.

Lemma mem_remove x y s : mem x (remove y s) = mem x s && negb (x =? y).
Proof.
  unfold mem, remove. rewrite N.clearbit_eqb. f_equal. f_equal.
  destruct (Nat.eqb_spec x y) as [->|Hn].
  - apply N.eqb_refl.
  - apply N.eqb_neq. intro E. apply Hn. symmetry. apply Nat2N.inj. exact E.
Qed.

Lemma mem_union x a b : mem x (union a b) = mem x a || mem x b.
Proof. apply N.lor_spec. Qed.
Lemma mem_inter x a b : mem x (inter a b) = mem x a && mem x b.
Proof. apply N.land_spec. Qed.
Lemma mem_diff x a b : mem x (diff a b) = mem x a && negb (mem x b).
Proof. apply N.ldiff_spec. Qed.

Lemma mem_singleton x y : mem x (singleton y) = (x =? y).
Proof. unfold singleton. rewrite mem_insert, mem_empty, orb_false_r. reflexivity. Qed.

Lemma is_empty_iff s : is_empty s = true <-> forall x, mem x s = false.
Proof.
  unfold is_empty. rewrite N.eqb_eq. split.
  - intros -> x. apply mem_empty.
  - intro H. apply bset_ext. intro x. rewrite H. symmetry. apply mem_empty.
Qed.

Lemma is_empty_eq s : is_empty s = true <-> s = bempty.
Proof. apply N.eqb_eq. Qed.

Lemma subset_iff a b : subset a b = true <-> forall x, mem x a = true -> mem x b = true.
Proof.
  unfold subset. rewrite N.eqb_eq. split.
  - intros H x Hx.
    assert (E : mem x (diff a b) = false) by (unfold diff; rewrite H; apply mem_empty).
    rewrite mem_diff, Hx in E. destruct (mem x b); simpl in E; congruence.
  - intro H. apply bset_ext. intro x. change (N.ldiff a b) with (diff a b).
    rewrite mem_diff. change 0%N with bempty. rewrite mem_empty.
    destruct (mem x a) eqn:Ea; auto. rewrite (H x Ea). reflexivity.
Qed.

Lemma disjoint_iff a b : disjoint a b = true <-> forall x, mem x a = true -> mem x b = true -> False.
Proof.
  unfold disjoint. rewrite N.eqb_eq. split.
  - intros H x Ha Hb.
    assert (E : mem x (inter a b) = false) by (unfold inter; rewrite H; apply mem_empty).
    rewrite mem_inter, Ha, Hb in E. discriminate.
  - intro H. apply bset_ext. intro x. change (N.land a b) with (inter a b).
    rewrite mem_inter. change 0%N with bempty. rewrite mem_empty.
    destruct (mem x a) eqn:Ea; auto. destruct (mem x b) eqn:Eb; auto.
    exfalso. eauto.
Qed.

Lemma beq_eq a b : beq a b = true <-> a = b.
Proof. apply N.eqb_eq. Qed.

Lemma beq_refl a : beq a a = true.
Proof. apply N.eqb_refl. Qed.

Lemma bset_eq_dec (a b : bset) : {a = b} + {a <> b}.
Proof. apply N.eq_dec. Defined.

Lemma pos_testbit_bound p : forall x, Pos.testbit_nat p x = true -> x < Pos.size_nat p.
Proof.
  induction p as [p IH|p IH|]; intros [|x] H; simpl in *; try lia; try discriminate.
  - specialize (IH x H). lia.
  - specialize (IH x H). lia.
Qed.

Lemma mem_bound x s : mem x s = true -> x < N.size_nat s.
Proof.
  unfold mem. rewrite Ntestbit_Nbit. destruct s as [|p]; simpl; [discriminate|].
  apply pos_testbit_bound.
Qed.

Lemma elements_spec x s : In x (elements s) <-> mem x s = true.
Proof.
  unfold elements. rewrite filter_In, in_seq. split; [tauto|].
  intro H. split; auto. apply mem_bound in H. lia.
Qed.

Lemma seq_sorted n m : StronglySorted lt (seq n m).
Proof.
  revert n. induction m as [|m IH]; intro n; simpl; constructor; auto.
  apply Forall_forall. intros x Hx. apply in_seq in Hx. lia.
Qed.

Lemma sorted_filter {A} (R : A -> A -> Prop) f l : StronglySorted R l -> StronglySorted R (filter f l).
Proof.
  induction 1 as [|a l Hl IH Ha]; simpl; [constructor|].
  destruct (f a); auto. constructor; auto.
  rewrite Forall_forall in *. intros x Hx. apply filter_In in Hx. apply Ha. tauto.
Qed.

Lemma elements_sorted s : StronglySorted lt (elements s).
Proof. apply sorted_filter, seq_sorted. Qed.

Lemma sorted_lt_nodup l : StronglySorted lt l -> NoDup l.
Proof.
  induction 1 as [|a l Hl IH Ha]; constructor; auto.
  intro Hin. rewrite Forall_forall in Ha. specialize (Ha a Hin). lia.
Qed.

Lemma elements_nodup s : NoDup (elements s).
Proof. apply sorted_lt_nodup, elements_sorted. Qed.

Lemma mem_fold_insert x l s : mem x (fold_left (fun s y => insert y s) l s) = true <-> In x l \/ mem x s = true.
Proof.
  revert s. induction l as [|y l IH]; intro s; simpl; [tauto|].
  rewrite IH, mem_insert, orb_true_iff, Nat.eqb_eq. intuition.
Qed.

Lemma mem_of_list x l : mem x (of_list l) = true <-> In x l.
Proof. unfold of_list. rewrite mem_fold_insert, mem_empty. intuition discriminate. Qed.

Lemma mem_fold_union x l s : mem x (fold_left union l s) = true <-> (exists a, In a l /\ mem x a = true) \/ mem x s = true.
Proof.
  revert s. induction l as [|y l IH]; intro s; simpl.
  - split; [auto|]. intros [(a & [] & _)|]; auto.
  - rewrite IH, mem_union, orb_true_iff. split.
    + intros [(a & Ha & Hx)|[Hs|Hy]]; eauto.
    + intros [(a & [<-|Ha] & Hx)|Hs]; eauto.
Qed.

Lemma mem_unions x l : mem x (unions l) = true <-> exists a, In a l /\ mem x a = true.
Proof. unfold unions. rewrite mem_fold_union, mem_empty. intuition discriminate. Qed.

Lemma mem_below x n : mem x (below n) = true <-> x < n.
Proof. unfold below. rewrite mem_of_list, in_seq. lia. Qed.

Lemma of_list_elements s : of_list (elements s) = s.
Proof.
  apply bset_ext. intro x. apply eq_true_iff_eq. rewrite mem_of_list. apply elements_spec.
Qed.

(** lists strictly sorted with the same members are equal *)
Lemma sorted_ext {A} (R : A -> A -> Prop) (Hirr : forall x, ~ R x x) (Htr : forall x y z, R x y -> R y z -> R x z) l1 l2 :
  StronglySorted R l1 -> StronglySorted R l2 -> (forall x, In x l1 <-> In x l2) -> l1 = l2.
Proof.
  intro H1. revert l2. induction H1 as [|a l1 Hl1 IH Ha]; intros l2 H2 Hin.
  - destruct l2 as [|b l2]; auto. exfalso. apply (Hin b). left; auto.
  - destruct H2 as [|b l2 Hl2 Hb].
    + exfalso. apply (Hin a). left; auto.
    + rewrite Forall_forall in Ha, Hb.
      assert (E : a = b).
      { destruct (proj1 (Hin a) (or_introl eq_refl)) as [|Hab]; auto.
        destruct (proj2 (Hin b) (or_introl eq_refl)) as [|Hba]; auto.
        exfalso. apply (Hirr a). eauto. }
      subst b. f_equal. apply IH; auto. intro x. split; intro Hx.
      * destruct (proj1 (Hin x) (or_intror Hx)) as [<-|]; auto.
        exfalso. eapply Hirr. eauto.
      * destruct (proj2 (Hin x) (or_intror Hx)) as [<-|]; auto.
        exfalso. eapply Hirr. eauto.
Qed.

Lemma elements_of_sorted l : StronglySorted lt l -> elements (of_list l) = l.
Proof.
  intro H. apply (sorted_ext lt Nat.lt_irrefl Nat.lt_trans); auto.
  - apply elements_sorted.
  - intro x. rewrite elements_spec. apply mem_of_list.
Qed.

Lemma elements_inj a b : elements a = elements b -> a = b.
Proof. intro H. rewrite <- (of_list_elements a), H. apply of_list_elements. Qed.

Lemma elements_empty : elements bempty = [].
Proof. reflexivity. Qed.

Lemma elements_nil s : elements s = [] <-> s = bempty.
Proof. split; [|intros ->; reflexivity]. intro H. apply elements_inj. exact H. Qed.

Lemma nodup_incl_filter {A} (eqd : forall x y : A, {x = y} + {x <> y}) (l1 l2 : list A) :
  NoDup l1 -> incl l1 l2 -> length l1 <= length l2.
Proof. intros. apply NoDup_incl_length; auto. Qed.

Lemma len_subset a b : (forall x, mem x a = true -> mem x b = true) -> len a <= len b.
Proof.
  intro H. apply NoDup_incl_length; [apply elements_nodup|].
  intros x. rewrite !elements_spec. apply H.
Qed.

Lemma len_subset_eq a b : (forall x, mem x a = true -> mem x b = true) -> len b <= len a -> a = b.
Proof.
  intros H Hl. apply bset_ext. intro x. apply eq_true_iff_eq. split; [apply H|].
  intro Hx. rewrite <- elements_spec in *.
  refine (NoDup_length_incl (elements_nodup a) Hl _ x Hx).
  intros y. rewrite !elements_spec. apply H.
Qed.

Lemma len_remove x s : mem x s = true -> len s = S (len (remove x s)).
Proof.
  intro H. unfold len.
  assert (P : Permutation (elements s) (x :: elements (remove x s))).
  { apply NoDup_Permutation.
    - apply elements_nodup.
    - constructor; [|apply elements_nodup]. rewrite elements_spec, mem_remove, Nat.eqb_refl, andb_false_r. discriminate.
    - intro y. simpl. rewrite !elements_spec, mem_remove, andb_true_iff, negb_true_iff, Nat.eqb_neq.
      destruct (Nat.eq_dec x y) as [<-|Hn]; intuition. }
  apply Permutation_length in P. exact P.
Qed.

Lemma len_insert x s : mem x s = false -> len (insert x s) = S (len s).
Proof.
  intro H. rewrite (len_remove x (insert x s)).
  - f_equal. f_equal. apply bset_ext. intro y.
    rewrite mem_remove, mem_insert. destruct (Nat.eqb_spec y x) as [->|]; simpl.
    + rewrite H. reflexivity.
    + apply andb_true_r.
  - rewrite mem_insert, Nat.eqb_refl. reflexivity.
Qed.

Lemma len_zero s : len s = 0 <-> s = bempty.
Proof. unfold len. rewrite length_zero_iff_nil. apply elements_nil. Qed.

Lemma len_of_list_le l : len (of_list l) <= length l.
Proof.
  apply NoDup_incl_length; [apply elements_nodup|]. intro x. rewrite elements_spec. apply mem_of_list.
Qed.

Lemma len_of_list l : NoDup l -> len (of_list l) = length l.
Proof.
  intro H. apply Permutation_length, NoDup_Permutation; auto using elements_nodup.
  intro x. rewrite elements_spec. apply mem_of_list.
Qed.

Lemma len_below n : len (below n) = n.
Proof. unfold below. rewrite len_of_list by apply seq_NoDup. apply seq_length. Qed.

Lemma len_elements s : len s = length (elements s).
Proof. reflexivity. Qed.

Global Opaque mem insert remove union inter diff is_empty subset disjoint beq elements of_list unions below singleton len bempty.

(** ** Automation

    [bset] normalises boolean set operations to membership and closes
    goals propositionally. *)
Lemma not_true_false b : ~ b = true <-> b = false.
Proof. destruct b; intuition congruence. Qed.

Ltac bnorm :=
  repeat first
    [ rewrite mem_empty in * | rewrite mem_insert in * | rewrite mem_remove in * | rewrite mem_union in *
    | rewrite mem_inter in * | rewrite mem_diff in * | rewrite mem_singleton in *
    | rewrite orb_true_iff in * | rewrite andb_true_iff in * | rewrite negb_true_iff in *
    | rewrite orb_false_iff in * | rewrite andb_false_iff in * | rewrite negb_false_iff in *
    | rewrite Nat.eqb_eq in * | rewrite Nat.eqb_neq in *
    | rewrite subset_iff in * | rewrite disjoint_iff in * ].
