(** Facts about the library functions of [ListUtil]. *)
From Verif Require Export Spec.
Local Open Scope list_scope.

(** ** comparison functions *)
Record cmp_ok {A} (cmp : A -> A -> comparison) : Prop := {
  cmp_eq : forall x y, cmp x y = Eq <-> x = y;
  cmp_opp : forall x y, cmp y x = CompOpp (cmp x y);
  cmp_trans : forall x y z, cmp x y = Lt -> cmp y z = Lt -> cmp x z = Lt }.

Lemma nat_cmp_ok : cmp_ok Nat.compare.
Proof.
  split.
  - apply Nat.compare_eq_iff.
  - intros. apply Nat.compare_antisym.
  - intros x y z. rewrite !Nat.compare_lt_iff. lia.
Qed.

Lemma lex_cmp_ok {A} (cmp : A -> A -> comparison) : cmp_ok cmp -> cmp_ok (lex_compare cmp).
Proof.
  intros [He Ho Ht]. split.
  - induction x as [|a x IH]; intros [|b y]; simpl; try (split; congruence).
    destruct (cmp a b) eqn:E.
    + apply He in E. subst b. rewrite IH. split; congruence.
    + split; [congruence|]. intro H. injection H as -> ->.
      assert (cmp b b = Eq) by (apply He; reflexivity). congruence.
    + split; [congruence|]. intro H. injection H as -> ->.
      assert (cmp b b = Eq) by (apply He; reflexivity). congruence.
  - induction x as [|a x IH]; intros [|b y]; simpl; auto.
    rewrite (Ho a b). destruct (cmp a b) eqn:E; simpl; auto.
  - induction x as [|a x IH]; intros [|b y] [|c z]; simpl; try congruence.
    destruct (cmp a b) eqn:E1; try congruence; destruct (cmp b c) eqn:E2; try congruence; intros H1 H2.
    + apply He in E1. apply He in E2. subst. rewrite (proj2 (He c c) eq_refl). eauto.
    + apply He in E1. subst. rewrite E2. reflexivity.
    + apply He in E2. subst. rewrite E1. reflexivity.
    + rewrite (Ht _ _ _ E1 E2). reflexivity.
Qed.

Lemma bset_cmp_ok : cmp_ok bset_compare.
Proof.
  destruct (lex_cmp_ok _ nat_cmp_ok) as [He Ho Ht]. unfold bset_compare. split; eauto.
  intros x y. rewrite He. split; [apply elements_inj|congruence].
Qed.

Lemma lex_compare_lt a : forall b, lex_compare Nat.compare a b = Lt <-> lex_lt a b.
Proof.
  induction a as [|x a IH]; intros [|y b]; simpl.
  - split; [discriminate|inversion 1].
  - split; [constructor|auto].
  - split; [discriminate|inversion 1].
  - destruct (Nat.compare_spec x y) as [->|H|H].
    + rewrite IH. split; [apply lex_lt_tail|]. inversion 1; subst; auto; lia.
    + split; [intros _; apply lex_lt_head; auto|auto].
    + split; [discriminate|]. inversion 1; subst; lia.
Qed.

(** ** sorting *)
Section Sort.
Context {A : Type} (cmp : A -> A -> comparison).

Lemma insert_by_perm x l : Permutation (insert_by cmp x l) (x :: l).
Proof.
  induction l as [|y l IH]; simpl; auto.
  destruct (cmp x y); auto.
  eapply perm_trans; [apply perm_skip, IH|]. apply perm_swap.
Qed.

Lemma sort_by_perm l : Permutation (sort_by cmp l) l.
Proof.
  induction l as [|x l IH]; simpl; auto.
  eapply perm_trans; [apply insert_by_perm|]. auto.
Qed.

Lemma sort_by_in x l : In x (sort_by cmp l) <-> In x l.
Proof. split; apply Permutation_in; [|symmetry]; apply sort_by_perm. Qed.

Lemma sort_by_length l : List.length (sort_by cmp l) = List.length l.
Proof. apply Permutation_length, sort_by_perm. Qed.

Lemma sort_by_nodup l : NoDup l -> NoDup (sort_by cmp l).
Proof. apply Permutation_NoDup. symmetry. apply sort_by_perm. Qed.

(** any total preorder given as "not Gt" *)
Hypothesis Htot : forall x y, cmp x y = Gt -> cmp y x <> Gt.
Hypothesis Htr : forall x y z, cmp x y <> Gt -> cmp y z <> Gt -> cmp x z <> Gt.

Lemma insert_by_sorted x l :
  StronglySorted (fun a b => cmp a b <> Gt) l -> StronglySorted (fun a b => cmp a b <> Gt) (insert_by cmp x l).
Proof.
  induction 1 as [|y l Hl IH Hy]; simpl; [repeat constructor|].
  assert (HF : cmp x y <> Gt -> StronglySorted (fun a b => cmp a b <> Gt) (x :: y :: l)).
  { intro E. constructor; [constructor; auto|]. constructor; auto.
    eapply Forall_impl; [|exact Hy]. cbv beta. intros a Ha. eauto. }
  destruct (cmp x y) eqn:E; try (apply HF; congruence).
  constructor; auto. apply Forall_forall. intros z Hz.
  apply (Permutation_in _ (insert_by_perm x l)) in Hz. destruct Hz as [<-|Hz]; auto.
  rewrite Forall_forall in Hy. auto.
Qed.

Lemma sort_by_sorted l : StronglySorted (fun a b => cmp a b <> Gt) (sort_by cmp l).
Proof. induction l as [|x l IH]; simpl; [constructor|]. apply insert_by_sorted, IH. Qed.
End Sort.

Lemma cmp_ok_tot {A} (cmp : A -> A -> comparison) : cmp_ok cmp -> forall x y, cmp x y = Gt -> cmp y x <> Gt.
Proof. intros [He Ho Ht] x y H. rewrite (Ho x y), H. discriminate. Qed.

Lemma cmp_ok_tr {A} (cmp : A -> A -> comparison) : cmp_ok cmp ->
  forall x y z, cmp x y <> Gt -> cmp y z <> Gt -> cmp x z <> Gt.
Proof.
  intros [He Ho Ht] x y z H1 H2.
  destruct (cmp x y) eqn:E1; [apply He in E1; subst; auto| |congruence].
  destruct (cmp y z) eqn:E2; [apply He in E2; subst; congruence| |congruence].
  rewrite (Ht _ _ _ E1 E2). discriminate.
Qed.

Lemma cmp_sort_sorted {A} (cmp : A -> A -> comparison) l :
  cmp_ok cmp -> StronglySorted (fun a b => cmp a b <> Gt) (sort_by cmp l).
Proof. intro H. apply sort_by_sorted; [apply cmp_ok_tot|apply cmp_ok_tr]; auto. Qed.

(** sorted permutations are equal *)
Lemma sorted_perm_eq {A} (R : A -> A -> Prop) (Hanti : forall x y, R x y -> R y x -> x = y) l1 l2 :
  StronglySorted R l1 -> StronglySorted R l2 -> Permutation l1 l2 -> l1 = l2.
Proof.
  intro H1. revert l2. induction H1 as [|a l1 Hl1 IH Ha]; intros l2 H2 P.
  - apply Permutation_nil in P. auto.
  - destruct H2 as [|b l2 Hl2 Hb].
    + symmetry in P. apply Permutation_nil_cons in P. contradiction.
    + rewrite Forall_forall in Ha, Hb.
      assert (E : a = b).
      { assert (In b (a :: l1)) as [|Hba] by (eapply Permutation_in; [symmetry; exact P|left; auto]); auto.
        assert (In a (b :: l2)) as [|Hab] by (eapply Permutation_in; [exact P|left; auto]); auto. }
      subst b. f_equal. apply IH; auto. eapply Permutation_cons_inv. exact P.
Qed.

Lemma cmp_ok_anti {A} (cmp : A -> A -> comparison) : cmp_ok cmp -> forall x y, cmp x y <> Gt -> cmp y x <> Gt -> x = y.
Proof.
  intros [He Ho Ht] x y H1 H2. rewrite (Ho x y) in H2. apply He.
  destruct (cmp x y); simpl in *; congruence.
Qed.

Lemma sort_by_perm_eq {A} (cmp : A -> A -> comparison) l1 l2 :
  cmp_ok cmp -> Permutation l1 l2 -> sort_by cmp l1 = sort_by cmp l2.
Proof.
  intros H P. eapply sorted_perm_eq; [apply (cmp_ok_anti _ H)|apply cmp_sort_sorted; auto|apply cmp_sort_sorted; auto|].
  eapply perm_trans; [apply sort_by_perm|]. eapply perm_trans; [exact P|]. symmetry. apply sort_by_perm.
Qed.

Lemma sort_by_id {A} (cmp : A -> A -> comparison) l :
  cmp_ok cmp -> StronglySorted (fun a b => cmp a b <> Gt) l -> sort_by cmp l = l.
Proof.
  intros H S. eapply sorted_perm_eq; [apply (cmp_ok_anti _ H)|apply cmp_sort_sorted; auto|auto|apply sort_by_perm].
Qed.

(** stability: sorting a list sorted by [c1] with [c2] gives the lexicographic order *)
Lemma insert_by_lex {A} (c1 c2 : A -> A -> comparison) x l
  (Htr : forall x y z, c2 x y <> Gt -> c2 y z <> Gt -> c2 x z <> Gt)
  (Hop : forall x y, c2 y x = CompOpp (c2 x y)) :
  let R := fun a b => c2 a b = Lt \/ (c2 a b = Eq /\ c1 a b <> Gt) in
  (forall a b c, R a b -> R b c -> R a c) ->
  StronglySorted R l -> Forall (fun y => c1 x y <> Gt) l -> StronglySorted R (insert_by c2 x l).
Proof.
  intros R HR. induction 1 as [|y l Hl IH Hy]; intro HF; simpl; [repeat constructor|].
  inversion HF as [|? ? Hxy HF']; subst.
  assert (HRxy : c2 x y <> Gt -> R x y).
  { unfold R. destruct (c2 x y); intuition congruence. }
  assert (HF2 : c2 x y <> Gt -> StronglySorted R (x :: y :: l)).
  { intro E. constructor; [constructor; auto|]. constructor; auto.
    eapply Forall_impl; [|exact Hy]. cbv beta. intros a Ha. eauto. }
  destruct (c2 x y) eqn:E; try (apply HF2; congruence).
  constructor; auto. apply Forall_forall. intros z Hz.
  apply (Permutation_in _ (insert_by_perm c2 x l)) in Hz. destruct Hz as [<-|Hz].
  - left. rewrite (Hop x y), E. reflexivity.
  - rewrite Forall_forall in Hy. auto.
Qed.

Definition lencmp (a b : bset) := Nat.compare (len a) (len b).
Definition before_or_eq (a b : bset) := lencmp a b = Lt \/ (lencmp a b = Eq /\ bset_compare a b <> Gt).

Lemma before_or_eq_trans a b c : before_or_eq a b -> before_or_eq b c -> before_or_eq a c.
Proof.
  unfold before_or_eq, lencmp. rewrite !Nat.compare_lt_iff, !Nat.compare_eq_iff.
  pose proof (cmp_ok_tr _ bset_cmp_ok a b c). intuition lia || intuition congruence.
Qed.

Lemma sort_len_lex l : StronglySorted (fun a b => bset_compare a b <> Gt) l ->
  StronglySorted before_or_eq (sort_by lencmp l).
Proof.
  induction 1 as [|x l Hl IH Hx]; simpl; [constructor|].
  apply (insert_by_lex bset_compare lencmp).
  - unfold lencmp. intros a b c. rewrite !Nat.compare_le_iff. lia.
  - intros. unfold lencmp. apply Nat.compare_antisym.
  - apply before_or_eq_trans.
  - exact IH.
  - apply Forall_forall. intros y Hy. apply (proj1 (sort_by_in lencmp y l)) in Hy.
    rewrite Forall_forall in Hx. auto.
Qed.

(** ** subsequences *)
Lemma subseq_refl {A} (l : list A) : subseq l l.
Proof. induction l; [apply subseq_nil|apply subseq_take; auto]. Qed.

Lemma subseq_nil_l {A} (l : list A) : subseq [] l.
Proof. induction l; constructor; auto. Qed.

Lemma subseq_in {A} (l l' : list A) : subseq l l' -> forall x, In x l -> In x l'.
Proof. induction 1; simpl; firstorder. Qed.

Lemma subseq_length {A} (l l' : list A) : subseq l l' -> List.length l <= List.length l'.
Proof. induction 1; simpl; lia. Qed.

Lemma subseq_trans {A} (l1 l2 l3 : list A) : subseq l1 l2 -> subseq l2 l3 -> subseq l1 l3.
Proof.
  intros H1 H2. revert l1 H1. induction H2; intros l1 H1; auto.
  - apply subseq_skip. auto.
  - inversion H1; subst; [apply subseq_skip|apply subseq_take]; auto.
Qed.

Lemma subseq_full {A} (l l' : list A) : subseq l l' -> List.length l' <= List.length l -> l = l'.
Proof.
  induction 1 as [|a l l' H IH|a l l' H IH]; simpl; intro Hl; auto.
  - apply subseq_length in H. lia.
  - f_equal. apply IH. lia.
Qed.

Lemma subseq_filter {A} (f : A -> bool) l : subseq (filter f l) l.
Proof. induction l as [|a l IH]; simpl; [constructor|]. destruct (f a); [apply subseq_take|apply subseq_skip]; auto. Qed.

Lemma subseq_firstn {A} n (l : list A) : subseq (firstn n l) l.
Proof.
  revert n. induction l as [|a l IH]; intros [|n]; simpl; auto using subseq_nil_l.
  apply subseq_take. auto.
Qed.

Lemma subseq_filter_max {A} (f : A -> bool) l l' :
  subseq l l' -> (forall x, In x l -> f x = true) -> List.length l <= List.length (filter f l').
Proof.
  induction 1 as [|a l l' H IH|a l l' H IH]; simpl; intro Hf; auto.
  - destruct (f a); simpl; auto.
  - rewrite (Hf a (or_introl eq_refl)). simpl. apply le_n_S, IH. auto.
Qed.

Lemma subseq_app {A} (a b c d : list A) : subseq a b -> subseq c d -> subseq (a ++ c) (b ++ d).
Proof. induction 1; simpl; intros; auto; [apply subseq_skip|apply subseq_take]; auto. Qed.

Lemma subseq_map {A B} (f : A -> B) l l' : subseq l l' -> subseq (map f l) (map f l').
Proof. induction 1; simpl; [apply subseq_nil|apply subseq_skip|apply subseq_take]; auto. Qed.

Lemma subseq_map_inv {A B} (f : A -> B) l' : forall l, subseq l (map f l') -> exists l0, subseq l0 l' /\ l = map f l0.
Proof.
  induction l' as [|a l' IH]; simpl; intros l H; inversion H; subst.
  - exists []. split; constructor.
  - destruct (IH _ H2) as (l0 & H0 & ->). exists l0. split; [constructor; auto|auto].
  - destruct (IH _ H2) as (l0' & H0 & ->). exists (a :: l0'). split; [apply subseq_take; auto|auto].
Qed.

Lemma subseq_app_inv {A} (l2 l3 : list A) : forall l, subseq l (l2 ++ l3) ->
  exists a b, l = a ++ b /\ subseq a l2 /\ subseq b l3.
Proof.
  induction l2 as [|x l2 IH]; simpl; intros l H.
  - exists [], l. repeat split; auto. constructor.
  - inversion H; subst.
    + destruct (IH _ H2) as (a & b & -> & Ha & Hb). exists a, b. repeat split; auto. constructor; auto.
    + destruct (IH _ H2) as (a & b & -> & Ha & Hb). exists (x :: a), b. repeat split; auto. apply subseq_take; auto.
Qed.

Lemma subseq_nodup {A} (l l' : list A) : subseq l l' -> NoDup l' -> NoDup l.
Proof.
  induction 1 as [|a l l' H IH|a l l' H IH]; intro Hn; auto.
  - inversion Hn; auto.
  - inversion Hn; subst. constructor; auto. intro Hin. eapply subseq_in in Hin; eauto.
Qed.

Lemma subseq_pick {A} k (l : list A) : k <= List.length l -> subseq (firstn k l) l /\ List.length (firstn k l) = k.
Proof. intro. split; [apply subseq_firstn|apply firstn_length_le; auto]. Qed.

(** a subsequence of length [k] with [k <= length] exists below any given one *)
Lemma subseq_shorten {A} k (l l' : list A) : subseq l l' -> k <= List.length l ->
  exists l0, subseq l0 l /\ List.length l0 = k.
Proof. intros H Hk. exists (firstn k l). apply subseq_pick, Hk. Qed.

(** ** combinations and products *)
Lemma combinations_spec {A} (l : list A) : forall k c,
  In c (combinations k l) <-> subseq c l /\ List.length c = k.
Proof.
  induction l as [|a l IH]; intros [|k] c; simpl.
  - split; [intros [<-|[]]; split; auto; constructor|]. intros [H Hl]. inversion H; auto.
  - split; [tauto|]. intros [H Hl]. inversion H; subst. discriminate.
  - split; [intros [<-|[]]; split; auto; apply subseq_nil_l|]. intros [H Hl].
    destruct c; auto; discriminate.
  - rewrite in_app_iff, in_map_iff, IH. split.
    + intros [(c' & <- & Hc)|[Hs Hl]].
      * apply IH in Hc. destruct Hc as [Hs Hl]. split; [apply subseq_take; auto|simpl; lia].
      * split; [constructor; auto|auto].
    + intros [Hs Hl]. inversion Hs; subst.
      * right. auto.
      * left. eexists. split; [reflexivity|]. apply IH. split; auto.
Qed.

Lemma product_spec {A} (l : list (list A)) : forall p, In p (product l) <-> Forall2 (fun x xs => In x xs) p l.
Proof.
  induction l as [|xs l IH]; intro p; simpl.
  - split; [intros [<-|[]]; constructor|]. inversion 1; auto.
  - rewrite in_flat_map. split.
    + intros (x & Hx & Hp). apply in_map_iff in Hp. destruct Hp as (p' & <- & Hp').
      constructor; auto. apply IH, Hp'.
    + inversion 1 as [|x xs' p' l' Hx Hp']; subst. exists x. split; auto.
      apply in_map. apply IH, Hp'.
Qed.

Lemma mcp_spec {A} (l : list (list A)) p :
  In p (multi_cartesian_product l) <-> l <> [] /\ Forall2 (fun x xs => In x xs) p l.
Proof.
  destruct l as [|xs l]; unfold multi_cartesian_product.
  - simpl. intuition congruence.
  - rewrite product_spec. intuition congruence.
Qed.

Lemma combine_groups_spec k gs s :
  In s (combine_groups k gs) <->
  exists c p, subseq c gs /\ List.length c = k /\ c <> [] /\ Forall2 (fun x xs => In x xs) p c /\ s = unions p.
Proof.
  unfold combine_groups. rewrite in_flat_map. split.
  - intros (c & Hc & Hs). apply combinations_spec in Hc. apply in_map_iff in Hs.
    destruct Hs as (p & <- & Hp). apply mcp_spec in Hp. exists c, p. intuition.
  - intros (c & p & Hc & Hl & Hn & Hp & ->). exists c. split.
    + apply combinations_spec. auto.
    + apply in_map. apply mcp_spec. auto.
Qed.

(** ** association lists *)
Lemma assoc_in {K V} (eqb : K -> K -> bool) (Heq : forall a b, eqb a b = true <-> a = b) k (m : list (K * V)) v :
  assoc eqb k m = Some v -> In (k, v) m.
Proof.
  induction m as [|[k' v'] m IH]; simpl; [discriminate|].
  destruct (eqb k k') eqn:E; intro H.
  - apply Heq in E. injection H as ->. subst. auto.
  - auto.
Qed.

Lemma assoc_none {K V} (eqb : K -> K -> bool) (Heq : forall a b, eqb a b = true <-> a = b) k (m : list (K * V)) :
  assoc eqb k m = None <-> ~ In k (map fst m).
Proof.
  induction m as [|[k' v'] m IH]; simpl; [tauto|].
  destruct (eqb k k') eqn:E.
  - apply Heq in E. subst. split; [discriminate|]. intro H. exfalso. auto.
  - rewrite IH. assert (k' <> k) by (intros ->; assert (eqb k k = true) by (apply Heq; auto); congruence).
    intuition.
Qed.

Lemma assoc_nodup {K V} (eqb : K -> K -> bool) (Heq : forall a b, eqb a b = true <-> a = b) k (m : list (K * V)) v :
  NoDup (map fst m) -> (assoc eqb k m = Some v <-> In (k, v) m).
Proof.
  intro Hn. split; [apply assoc_in; auto|].
  induction m as [|[k' v'] m IH]; simpl in *; [tauto|].
  inversion Hn as [|? ? Hnin Hn']; subst. intros [H|H].
  - injection H as -> ->. rewrite (proj2 (Heq k k) eq_refl). reflexivity.
  - destruct (eqb k k') eqn:E; auto. apply Heq in E. subst k'.
    exfalso. apply Hnin. apply in_map_iff. exists (k, v). auto.
Qed.

(** ** update *)
Lemma update_length {A} i (x : A) l : List.length (update i x l) = List.length l.
Proof. revert i. induction l as [|a l IH]; intros [|i]; simpl; auto. Qed.

Lemma nth_error_update {A} i j (x : A) l :
  nth_error (update i x l) j = if (j =? i) && (j <? List.length l) then Some x else nth_error l j.
Proof.
  revert i j. induction l as [|a l IH]; intros [|i] [|j]; simpl; auto.
  - rewrite andb_false_r. auto.
  - rewrite IH. reflexivity.
Qed.

(** ** mapM *)
Lemma mapM_ok {A B} (g : A -> res B) (h : A -> B) l :
  (forall x, In x l -> g x = Ok (h x)) -> mapM g l = Ok (map h l).
Proof.
  induction l as [|a l IH]; simpl; intro H; auto.
  rewrite H by auto. simpl. rewrite IH by auto. reflexivity.
Qed.

Lemma mapM_inv {A B} (g : A -> res B) l r : mapM g l = Ok r -> Forall2 (fun a b => g a = Ok b) l r.
Proof.
  revert r. induction l as [|a l IH]; simpl; intros r H.
  - injection H as <-. constructor.
  - destruct (g a) as [b|] eqn:E; [|discriminate]. simpl in H.
    destruct (mapM g l) as [bs|]; [|discriminate]. simpl in H. injection H as <-. constructor; auto.
Qed.

Lemma mapM_panic {A B} (g : A -> res B) l : mapM g l = Panic <-> exists x, In x l /\ g x = Panic.
Proof.
  induction l as [|a l IH]; simpl.
  - split; [discriminate|]. intros (x & [] & _).
  - destruct (g a) as [b|] eqn:E; simpl.
    + destruct (mapM g l) as [bs|]; simpl.
      * split; [discriminate|]. intros (x & [<-|Hx] & Hp); [congruence|].
        assert (Ok bs = Panic) by (apply IH; eauto). discriminate.
      * split; auto. intros _. destruct (proj1 IH eq_refl) as (x & Hx & Hp). eauto.
    + split; eauto.
Qed.

