(** Shrinking of id spaces. *)
From Verif Require Export P_Nonint M_FrontEnd.
Local Open Scope list_scope.

(** [renamed table s' s]: [s] is the image of [s'] under the table *)
Definition up (table : list nat) (s' : bset) : bset := of_list (filter_map (nth_error table) (elements s')).
Definition down (table : list nat) (s : bset) : bset :=
  of_list (filter (fun i => match nth_error table i with Some x => mem x s | None => false end) (seq 0 (List.length table))).

Lemma filter_map_in {A B} (g : A -> option B) l b : In b (filter_map g l) <-> exists a, In a l /\ g a = Some b.
Proof.
  induction l as [|a l IH]; simpl.
  - split; [intros []|intros (a & [] & _)].
  - destruct (g a) as [b'|] eqn:E; simpl; rewrite IH; split.
    + intros [<-|(c & Hc & E')]; eauto.
    + intros (c & [<-|Hc] & E'); [left; congruence|right; eauto].
    + intros (c & Hc & E'); eauto.
    + intros (c & [<-|Hc] & E'); [congruence|eauto].
Qed.

Lemma mem_up table s' x : mem x (up table s') = true <-> exists i, mem i s' = true /\ nth_error table i = Some x.
Proof.
  unfold up. rewrite mem_of_list, filter_map_in. split; intros (i & Hi & E); exists i; split; auto; apply elements_spec; auto.
Qed.

Lemma mem_down table s i : mem i (down table s) = true <-> exists x, mem x s = true /\ nth_error table i = Some x.
Proof.
  unfold down. rewrite mem_of_list, filter_In, in_seq. split.
  - intros [_ H]. destruct (nth_error table i) as [x|]; [exists x; auto|discriminate].
  - intros (x & Hx & E). rewrite E. split; auto. assert (i < List.length table) by (apply nth_error_Some; congruence). lia.
Qed.

Lemma nth_error_inj {A} (l : list A) i j x : NoDup l -> nth_error l i = Some x -> nth_error l j = Some x -> i = j.
Proof.
  intros Hn Hi Hj. eapply NoDup_nth_error; eauto; [|congruence]. apply nth_error_Some. congruence.
Qed.

Lemma up_down table s : (forall x, mem x s = true -> In x table) -> up table (down table s) = s.
Proof.
  intros Hs. apply bset_ext. intro x. apply eq_true_iff_eq. rewrite mem_up. split.
  - intros (i & Hi & E). apply mem_down in Hi. destruct Hi as (y & Hy & E'). congruence.
  - intros Hx. destruct (In_nth_error _ _ (Hs x Hx)) as (i & Hi). exists i. split; auto. apply mem_down. eauto.
Qed.

Lemma down_up table s' : NoDup table -> (forall i, mem i s' = true -> i < List.length table) -> down table (up table s') = s'.
Proof.
  intros Hn Hs. apply bset_ext. intro i. apply eq_true_iff_eq. rewrite mem_down. split.
  - intros (x & Hx & E). apply mem_up in Hx. destruct Hx as (j & Hj & E'). rewrite (nth_error_inj table i j x); auto.
  - intros Hi. destruct (nth_error table i) as [x|] eqn:E.
    + exists x. split; auto. apply mem_up. eauto.
    + apply nth_error_None in E. apply Hs in Hi. lia.
Qed.

Lemma up_incl table a b : incl_set a b -> incl_set (up table a) (up table b).
Proof. intros H x Hx. apply mem_up in Hx. destruct Hx as (i & Hi & E). apply mem_up. eauto. Qed.
Lemma down_incl table a b : incl_set a b -> incl_set (down table a) (down table b).
Proof. intros H i Hi. apply mem_down in Hi. destruct Hi as (x & Hx & E). apply mem_down. eauto. Qed.
Lemma up_range table s' x : mem x (up table s') = true -> In x table.
Proof. intro H. apply mem_up in H. destruct H as (i & _ & E). eapply nth_error_In; eauto. Qed.
Lemma down_range table s i : mem i (down table s) = true -> i < List.length table.
Proof. intro H. apply mem_down in H. destruct H as (x & _ & E). apply nth_error_Some. congruence. Qed.

(** ** order *)
Lemma nth_error_lt table i j x y : StronglySorted lt table -> nth_error table i = Some x -> nth_error table j = Some y -> i < j -> x < y.
Proof.
  intro Hs. revert i j. induction Hs as [|a l Hs IH Ha]; intros [|i] [|j] Hi Hj L; simpl in *; try discriminate; try lia.
  - inversion Hi; subst. rewrite Forall_forall in Ha. apply Ha. eapply nth_error_In; eauto.
  - eapply IH; eauto. lia.
Qed.

Lemma elements_up table s' : StronglySorted lt table -> elements (up table s') = filter_map (nth_error table) (elements s').
Proof.
  intro Hs. apply elements_of_sorted. assert (H := elements_sorted s'). induction H as [|i l H IH Hi]; simpl; [constructor|].
  destruct (nth_error table i) as [x|] eqn:E; auto. constructor; auto. apply Forall_forall. intros y Hy.
  apply filter_map_in in Hy. destruct Hy as (j & Hj & Ej). rewrite Forall_forall in Hi. apply (nth_error_lt table i j x y); auto.
Qed.

Lemma filter_map_length {A B} (g : A -> option B) l : (forall a, In a l -> g a <> None) -> List.length (filter_map g l) = List.length l.
Proof.
  induction l as [|a l IH]; intro H; simpl; auto. destruct (g a) eqn:E.
  - simpl. f_equal. apply IH. intros; apply H; right; auto.
  - exfalso. apply (H a); simpl; auto.
Qed.

Definition in_range (table : list nat) (s' : bset) := forall i, mem i s' = true -> i < List.length table.

Lemma len_up table s' : StronglySorted lt table -> in_range table s' -> len (up table s') = len s'.
Proof.
  intros Hs Hr. rewrite !len_elements, elements_up by auto. apply filter_map_length. intros i Hi. apply nth_error_Some, Hr, elements_spec; auto.
Qed.

Lemma lex_lt_up table a b : StronglySorted lt table -> (forall i, In i a -> i < List.length table) -> (forall i, In i b -> i < List.length table) ->
  (lex_lt (filter_map (nth_error table) a) (filter_map (nth_error table) b) <-> lex_lt a b).
Proof.
  intro Hs. revert b. induction a as [|i a IH]; intros [|j b] Ha Hb.
  - simpl. split; inversion 1.
  - simpl. destruct (nth_error table j) eqn:E.
    + split; intros; constructor.
    + apply nth_error_None in E. specialize (Hb j (or_introl eq_refl)). lia.
  - simpl. destruct (nth_error table i) eqn:E.
    + split; inversion 1.
    + apply nth_error_None in E. specialize (Ha i (or_introl eq_refl)). lia.
  - simpl. destruct (nth_error table i) as [x|] eqn:Ei.
    2:{ apply nth_error_None in Ei. specialize (Ha i (or_introl eq_refl)). lia. }
    destruct (nth_error table j) as [y|] eqn:Ej.
    2:{ apply nth_error_None in Ej. specialize (Hb j (or_introl eq_refl)). lia. }
    assert (Hij : i < j -> x < y) by (intro L; eapply nth_error_lt; eauto).
    assert (Hji : j < i -> y < x) by (intro L; eapply nth_error_lt; eauto).
    assert (Hn : NoDup table) by (apply sorted_lt_nodup; auto).
    assert (Hxy : x = y -> i = j) by (intros ->; eapply nth_error_inj; eauto).
    split; inversion 1; subst.
    + apply lex_lt_head. destruct (lt_eq_lt_dec i j) as [[L|L]|L]; auto; [subst; rewrite Ei in Ej; inversion Ej; lia|apply Hji in L; lia].
    + rewrite Hxy by auto. apply lex_lt_tail. apply IH; auto; intros; [apply Ha|apply Hb]; right; auto.
    + apply lex_lt_head. auto.
    + rewrite Ei in Ej. inversion Ej; subst. apply lex_lt_tail. apply IH; auto; intros; [apply Ha|apply Hb]; right; auto.
Qed.

Lemma before_up table a b : StronglySorted lt table -> in_range table a -> in_range table b ->
  (before (up table a) (up table b) <-> before a b).
Proof.
  intros Hs Ha Hb. unfold before. rewrite !len_up by auto. rewrite !elements_up by auto. rewrite lex_lt_up; auto; [tauto| |];
  intros i Hi; apply elements_spec in Hi; auto.
Qed.

(** ** the manager *)
Definition table_of (K : bset) : list nat := elements K.

Lemma enumerate_spec {A} (l : list A) i x : In (i, x) (enumerate l) <-> nth_error l i = Some x.
Proof.
  unfold enumerate.
  assert (H : forall l n, In (i, x) (combine (seq n (List.length l)) l) <-> n <= i /\ nth_error l (i - n) = Some x).
  { clear. induction l as [|a l IH]; intro n; simpl.
    - split; [intros []|]. intros [_ H]. destruct (i - n); discriminate.
    - rewrite IH. split.
      + intros [H|[H1 H2]].
        * inversion H; subst. rewrite Nat.sub_diag. auto.
        * split; [lia|]. replace (i - n) with (S (i - S n)) by lia. auto.
      + intros [H1 H2]. destruct (Nat.eq_dec i n) as [->|Hne].
        * rewrite Nat.sub_diag in H2. simpl in H2. left. congruence.
        * right. split; [lia|]. replace (i - n) with (S (i - S n)) in H2 by lia. auto. }
  rewrite H, Nat.sub_0_r. intuition lia.
Qed.

Lemma nat_eqb_eq a b : (a =? b) = true <-> a = b. Proof. apply Nat.eqb_eq. Qed.

Lemma shrink_map_spec K x i : assoc Nat.eqb x (shrink_map (sm_new K)) = Some i <-> nth_error (elements K) i = Some x.
Proof.
  assert (Hin : In (x, i) (shrink_map (sm_new K)) <-> nth_error (elements K) i = Some x).
  { simpl. rewrite in_map_iff. split.
    - intros ([j y] & E & Hj). simpl in E. inversion E; subst. apply enumerate_spec; auto.
    - intro H. exists (i, x). split; auto. apply enumerate_spec; auto. }
  rewrite <- Hin. split.
  - apply assoc_in, nat_eqb_eq.
  - apply assoc_nodup; [apply nat_eqb_eq|]. simpl. rewrite map_map. simpl.
    replace (map (fun p : nat * nat => snd p) (enumerate (elements K))) with (elements K); [apply elements_nodup|].
    unfold enumerate. symmetry. clear. generalize 0. induction (elements K); intro n; simpl; f_equal; auto.
Qed.

Lemma shrink_map_none K x : assoc Nat.eqb x (shrink_map (sm_new K)) = None <-> mem x K = false.
Proof.
  rewrite <- not_true_iff_false, <- elements_spec. split.
  - intros H Hin. apply In_nth_error in Hin. destruct Hin as (i & Hi). apply shrink_map_spec in Hi. congruence.
  - intro H. destruct (assoc _ _ _) as [i|] eqn:E; auto. exfalso. apply H. apply shrink_map_spec in E. eapply nth_error_In; eauto.
Qed.

Lemma of_mapM (g : nat -> option nat) (t : bset) l r :
  mapM (fun id => unwrap (g id)) l = Ok r -> (forall y, mem y t = true <-> exists x, In x l /\ g x = Some y) -> of_list r = t.
Proof.
  intros Hm Ht. apply mapM_inv in Hm. apply bset_ext. intro y. apply eq_true_iff_eq. rewrite mem_of_list, Ht. split.
  - intro Hy. destruct (Forall2_in_r _ _ _ y Hm Hy) as (x & Hx & E). exists x. split; auto. destruct (g x); simpl in *; congruence.
  - intros (x & Hx & E). destruct (Forall2_in_l _ _ _ x Hm Hx) as (z & Hz & E'). rewrite E in E'. simpl in E'. congruence.
Qed.

Lemma shrink_set_ok K s : incl_set s K -> shrink_set (sm_new K) s = Ok (down (elements K) s).
Proof.
  intro Hs. unfold shrink_set, shrink_set_with.
  destruct (mapM _ (elements s)) as [r|] eqn:E.
  - simpl. f_equal. eapply of_mapM; [exact E|]. intro y. rewrite mem_down. split.
    + intros (x & Hx & Ex). exists x. split; [apply elements_spec; auto|]. apply shrink_map_spec; auto.
    + intros (x & Hx & Ex). exists x. split; [apply elements_spec; auto|]. apply shrink_map_spec; auto.
  - exfalso. apply mapM_panic in E. destruct E as (x & Hx & E).
    destruct (assoc _ _ _) eqn:Ea; [discriminate|]. apply shrink_map_none in Ea. apply elements_spec, Hs in Hx. congruence.
Qed.

Lemma shrink_set_panic K s : shrink_set (sm_new K) s = Panic <-> ~ incl_set s K.
Proof.
  split.
  - intros H Hs. rewrite shrink_set_ok in H by auto. discriminate.
  - intro H. unfold shrink_set, shrink_set_with. destruct (mapM _ (elements s)) as [r|] eqn:E; auto. exfalso. apply H.
    intros x Hx. apply mapM_inv in E. apply elements_spec in Hx. destruct (Forall2_in_l _ _ _ x E Hx) as (z & Hz & E').
    destruct (assoc _ _ _) as [i|] eqn:Ea; [|discriminate]. apply shrink_map_spec in Ea. apply elements_spec. eapply nth_error_In; eauto.
Qed.

Lemma unshrink_set_ok table s' : in_range table s' -> unshrink_set_with table s' = Ok (up table s').
Proof.
  intro Hs. unfold unshrink_set_with. destruct (mapM _ (elements s')) as [r|] eqn:E.
  - simpl. f_equal. eapply of_mapM; [exact E|]. intro y. rewrite mem_up.
    split; intros (x & Hx & Ex); exists x; split; auto; apply elements_spec; auto.
  - exfalso. apply mapM_panic in E. destruct E as (x & Hx & E). apply elements_spec, Hs, nth_error_Some in Hx.
    destruct (nth_error table x); [discriminate|congruence].
Qed.

Lemma unshrink_set_panic table s' : unshrink_set_with table s' = Panic <-> ~ in_range table s'.
Proof.
  split.
  - intros H Hs. rewrite unshrink_set_ok in H by auto. discriminate.
  - intro H. unfold unshrink_set_with. destruct (mapM _ (elements s')) as [r|] eqn:E; auto. exfalso. apply H.
    intros x Hx. apply mapM_inv in E. apply elements_spec in Hx. destruct (Forall2_in_l _ _ _ x E Hx) as (z & Hz & E').
    apply nth_error_Some. intro En. rewrite En in E'. discriminate.
Qed.

Lemma reshrink_map_spec new old i j : 
  assoc Nat.eqb i (reshrink_map (sm_new new) (sm_new old)) = Some j <->
  exists x, nth_error (elements old) i = Some x /\ nth_error (elements new) j = Some x.
Proof.
  set (m := reshrink_map _ _).
  assert (Hin : In (i, j) m <-> exists x, nth_error (elements old) i = Some x /\ nth_error (elements new) j = Some x).
  { unfold m, reshrink_map. rewrite filter_map_in. split.
    - intros ([k x] & Hk & E). apply enumerate_spec in Hk. simpl in Hk.
      destruct (assoc Nat.eqb x _) as [n|] eqn:Ea; simpl in E; [|discriminate]. inversion E; subst.
      apply shrink_map_spec in Ea. eauto.
    - intros (x & H1 & H2). exists (i, x). split; [apply enumerate_spec; auto|]. apply shrink_map_spec in H2. rewrite H2. auto. }
  rewrite <- Hin. split; [apply assoc_in, nat_eqb_eq|]. apply assoc_nodup; [apply nat_eqb_eq|].
  unfold m, reshrink_map. simpl.
  assert (H : forall l n g, NoDup (map fst (filter_map (fun p : nat * nat => let '(c, o) := p in option_map (fun k : nat => (c, k)) (g o))
              (combine (seq n (List.length l)) l)))).
  { clear. induction l as [|a l IH]; intros n g; simpl; [constructor|]. destruct (g a); simpl; auto. constructor; auto.
    rewrite in_map_iff. intros ([c k] & E & H). simpl in E. subst c. apply filter_map_in in H. destruct H as ([c o] & Hc & Ec).
    destruct (g o); simpl in Ec; [|discriminate]. inversion Ec; subst. apply in_combine_l, in_seq in Hc. lia. }
  apply H.
Qed.

Lemma reshrink_set new old s : 
  shrink_set_with (reshrink_map (sm_new new) (sm_new old)) s =
  (u <- unshrink_set (sm_new old) s ;; shrink_set (sm_new new) u).
Proof.
  destruct (unshrink_set (sm_new old) s) as [u|] eqn:Eu; simpl.
  - assert (Hr : in_range (elements old) s).
    { intros i Hi. unfold unshrink_set in Eu. simpl in Eu. apply nth_error_Some. intro En.
      assert (Hp : unshrink_set_with (elements old) s = Panic); [|congruence].
      apply unshrink_set_panic. intro H. apply H, nth_error_Some in Hi. auto. }
    unfold unshrink_set in Eu. simpl in Eu. rewrite unshrink_set_ok in Eu by auto. inversion Eu; subst u. clear Eu.
    destruct (shrink_set (sm_new new) (up (elements old) s)) as [v|] eqn:Ev.
    + assert (Hi : incl_set (up (elements old) s) new).
      { destruct (subset (up (elements old) s) new) eqn:Es; [apply incl_subset; auto|]. exfalso.
        assert (Hp : shrink_set (sm_new new) (up (elements old) s) = Panic); [|congruence].
        apply shrink_set_panic. rewrite <- incl_subset. congruence. }
      rewrite shrink_set_ok in Ev by auto. inversion Ev; subst v. unfold shrink_set_with.
      destruct (mapM _ (elements s)) as [r|] eqn:E.
      * simpl. f_equal. eapply of_mapM; [exact E|]. intro y. rewrite mem_down. split.
        -- intros (x & Hx & Ex). apply mem_up in Hx. destruct Hx as (i & Hi' & Ei). exists i. split; [apply elements_spec; auto|].
           apply reshrink_map_spec. eauto.
        -- intros (i & Hi' & Ei). apply reshrink_map_spec in Ei. destruct Ei as (x & E1 & E2). exists x. split; auto. apply mem_up.
           exists i. split; auto. apply elements_spec; auto.
      * exfalso. apply mapM_panic in E. destruct E as (i & Hi' & E). destruct (assoc _ _ _) eqn:Ea; [discriminate|].
        apply elements_spec in Hi'. assert (Hl := Hr i Hi'). apply nth_error_Some in Hl.
        destruct (nth_error (elements old) i) as [x|] eqn:Ex; [|congruence].
        assert (Hx : mem x new = true) by (apply Hi, mem_up; eauto). apply elements_spec, In_nth_error in Hx. destruct Hx as (j & Hj).
        assert (Hc := proj2 (reshrink_map_spec new old i j) (ex_intro _ x (conj Ex Hj))). congruence.
    + apply shrink_set_panic in Ev. unfold shrink_set_with.
      destruct (mapM _ (elements s)) as [r|] eqn:E; auto. exfalso. apply Ev. intros x Hx. apply mem_up in Hx.
      destruct Hx as (i & Hi & Ei). apply mapM_inv in E. apply elements_spec in Hi. destruct (Forall2_in_l _ _ _ i E Hi) as (z & Hz & E').
      destruct (assoc _ _ _) as [j|] eqn:Ea; [|discriminate]. apply reshrink_map_spec in Ea. destruct Ea as (y & E1 & E2).
      assert (x = y) by congruence. subst y. apply elements_spec. eapply nth_error_In; eauto.
  - unfold unshrink_set in Eu. simpl in Eu. apply unshrink_set_panic in Eu. unfold shrink_set_with.
    destruct (mapM _ (elements s)) as [r|] eqn:E; auto. exfalso. apply Eu. intros i Hi. apply mapM_inv in E. apply elements_spec in Hi.
    destruct (Forall2_in_l _ _ _ i E Hi) as (z & Hz & E'). destruct (assoc _ _ _) as [j|] eqn:Ea; [|discriminate].
    apply reshrink_map_spec in Ea. destruct Ea as (y & E1 & E2). apply nth_error_Some. congruence.
Qed.

Lemma reshrink_sets_eq new old l :
  reshrink_sets (sm_new new) l (sm_new old) = (u <- unshrink_sets (sm_new old) l ;; shrink_sets (sm_new new) u).
Proof.
  unfold reshrink_sets, unshrink_sets, shrink_sets, shrink_sets_with, unshrink_sets_with.
  induction l as [|s l IH]; simpl; auto. rewrite reshrink_set, IH. unfold unshrink_set, shrink_set. simpl.
  destruct (unshrink_set_with (elements old) s) as [u|]; simpl; auto.
  destruct (mapM (unshrink_set_with (elements old)) l) as [us|]; simpl.
  - destruct (shrink_set_with _ u) as [v|]; simpl; auto.
  - destruct (shrink_set_with _ u); auto.
Qed.

Lemma unshrink_sets_ok table l : (forall s, In s l -> in_range table s) -> unshrink_sets_with table l = Ok (map (up table) l).
Proof. intro H. apply mapM_ok. intros s Hs. apply unshrink_set_ok; auto. Qed.
Lemma shrink_sets_ok K l : (forall s, In s l -> incl_set s K) -> shrink_sets (sm_new K) l = Ok (map (down (elements K)) l).
Proof. intro H. apply mapM_ok. intros s Hs. apply shrink_set_ok; auto. Qed.
