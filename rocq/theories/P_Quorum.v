(** Quorums: [is_quorum], [find_satisfiable_nodes], [contains_quorum]. *)
From Verif Require Export P_Slices M_Ext.
Local Open Scope list_scope.

Lemma incl_refl s : incl_set s s.
Proof. intros x Hx; auto. Qed.

Lemma incl_trans a b c : incl_set a b -> incl_set b c -> incl_set a c.
Proof. intros H1 H2 x Hx. auto. Qed.

Lemma incl_subset a b : subset a b = true <-> incl_set a b.
Proof. apply subset_iff. Qed.

Lemma incl_antisym a b : incl_set a b -> incl_set b a -> a = b.
Proof. intros H1 H2. apply bset_ext. intro x. apply eq_true_iff_eq. split; auto. Qed.

Lemma meets_sym a b : meets a b -> meets b a.
Proof. intros (x & H1 & H2). exists x. auto. Qed.

Lemma not_disjoint_meets a b : disjoint a b = false <-> meets a b.
Proof.
  split.
  - intro H. destruct (is_empty (inter a b)) eqn:E.
    + exfalso. rewrite is_empty_iff in E. apply not_true_iff_false in H. apply H. apply disjoint_iff.
      intros x Hx Hy. specialize (E x). rewrite mem_inter, Hx, Hy in E. discriminate.
    + apply not_empty_mem in E. destruct E as (x & Hx). rewrite mem_inter, andb_true_iff in Hx. exists x; auto.
  - intros (x & Hx & Hy). apply not_true_iff_false. intro H. rewrite disjoint_iff in H. eauto.
Qed.

Lemma inhabited_iff s : inhabited_set s <-> is_empty s = false.
Proof. symmetry. apply not_empty_mem. Qed.

Lemma node_of_fun f x q q' : node_of f x q -> node_of f x q' -> q = q'.
Proof. intros (n & H & <-) (n' & H' & <-). congruence. Qed.

Lemma node_of_range f x q : node_of f x q -> x < number_of_nodes f.
Proof. intros (n & H & _). apply nth_error_Some. congruence. Qed.

Lemma node_of_qset_of f x q : node_of f x q -> qset_of f x = q.
Proof. intros (n & H & <-). unfold qset_of. rewrite H. auto. Qed.

Lemma qset_of_node f x : x < number_of_nodes f -> node_of f x (qset_of f x).
Proof.
  intro H. unfold number_of_nodes in H. apply nth_error_Some in H. unfold qset_of.
  destruct (nth_error (nodes f) x) as [n|] eqn:E; [|congruence]. exists n. auto.
Qed.

Lemma sat_iff f x s : sat f x s = true <-> exists q, node_of f x q /\ slice (fun y => mem y s = true) q.
Proof.
  unfold sat, qset_of. destruct (nth_error (nodes f) x) as [n|] eqn:E.
  - rewrite is_quorum_slice_iff. split.
    + intro H. exists (node_qset n). split; auto. exists n; auto.
    + intros (q & (n' & H & <-) & Hs). assert (n' = n) by congruence. subst; auto.
  - split.
    + intro H. exfalso. apply is_quorum_slice_meets in H. destruct H as (x' & H & _).
      apply contained_list_spec in H. destruct H.
    + intros (q & (n' & H & _) & _). congruence.
Qed.

Lemma sat_range f x s : sat f x s = true -> x < number_of_nodes f.
Proof. intro H. apply sat_iff in H. destruct H as (q & H & _). eapply node_of_range; eauto. Qed.

Lemma sat_mono f x s s' : incl_set s s' -> sat f x s = true -> sat f x s' = true.
Proof. apply is_quorum_slice_mono. Qed.

(** closed sets: quorums or empty *)
Definition closed (f : fbas) (s : bset) : Prop := forall x, mem x s = true -> sat f x s = true.

Lemma quorum_closed f s : quorum f s <-> inhabited_set s /\ closed f s.
Proof.
  unfold quorum, closed. split; intros [H1 H2]; split; auto; intros x Hx; specialize (H2 x Hx);
    apply sat_iff; auto.
Qed.

Lemma closed_union f a b : closed f a -> closed f b -> closed f (union a b).
Proof.
  intros Ha Hb x Hx. rewrite mem_union, orb_true_iff in Hx. destruct Hx as [Hx|Hx].
  - eapply sat_mono; [|apply Ha; exact Hx]. intros y Hy. rewrite mem_union, Hy. auto.
  - eapply sat_mono; [|apply Hb; exact Hx]. intros y Hy. rewrite mem_union, Hy. apply orb_true_r.
Qed.

Lemma closed_unions f l : (forall s, In s l -> closed f s) -> closed f (unions l).
Proof.
  intros H x Hx. apply mem_unions in Hx. destruct Hx as (s & Hs & Hx).
  eapply sat_mono; [|apply (H s Hs); exact Hx]. intros y Hy. apply mem_unions. eauto.
Qed.

Lemma closed_empty f : closed f bempty.
Proof. intros x Hx. rewrite mem_empty in Hx. discriminate. Qed.

Lemma quorum_union f a b : quorum f a -> quorum f b -> quorum f (union a b).
Proof.
  rewrite !quorum_closed. intros [(x & Hx) Ha] [_ Hb]. split; [|apply closed_union; auto].
  exists x. rewrite mem_union, Hx. auto.
Qed.

Lemma quorum_nodes f s : quorum f s -> incl_set s (all_nodes f).
Proof.
  intros [_ H] x Hx. destruct (H x Hx) as (q & Hq & _). unfold all_nodes. apply mem_below.
  eapply node_of_range; eauto.
Qed.

Lemma closed_nodes f s : closed f s -> incl_set s (all_nodes f).
Proof. intros H x Hx. unfold all_nodes. apply mem_below. eapply sat_range; eauto. Qed.

Lemma mem_all_nodes f x : mem x (all_nodes f) = true <-> x < number_of_nodes f.
Proof. unfold all_nodes. apply mem_below. Qed.

Lemma is_quorum_iff f s : is_quorum f s = true <-> quorum f s.
Proof.
  unfold is_quorum. rewrite andb_true_iff, negb_true_iff, forallb_forall, quorum_closed, inhabited_iff.
  unfold closed. split; intros [H1 H2]; split; auto; intros x Hx; apply H2; apply elements_spec; auto.
Qed.

Lemma is_quorum_false f s : is_quorum f s = false <-> ~ quorum f s.
Proof. rewrite <- is_quorum_iff. apply not_true_iff_false || (symmetry; apply not_true_iff_false). Qed.

(** ** greatest closed subset *)
Lemma satisfiable_loop_spec fuel f : forall s u, len s <= fuel ->
  let r := satisfiable_loop fuel f s u in
  closed f (fst r) /\ incl_set (fst r) s /\ (forall t, closed f t -> incl_set t s -> incl_set t (fst r)) /\
  snd r = union u (diff s (fst r)).
Proof.
  induction fuel as [|n IH]; intros s u Hl; simpl;
    destruct (find (fun x => negb (sat f x s)) (elements s)) as [x|] eqn:E; simpl.
  - exfalso. apply find_some in E. destruct E as [E _]. apply elements_spec in E.
    assert (L := len_remove x s E). lia.
  - repeat split; auto using incl_refl.
    + intros x Hx. apply elements_spec in Hx. assert (H := find_none _ _ E _ Hx). apply negb_false_iff in H. auto.
    + apply bset_ext. intro x. rewrite mem_union, mem_diff. destruct (mem x u), (mem x s); auto.
  - apply find_some in E. destruct E as [Hx Hs]. apply elements_spec in Hx. apply negb_true_iff in Hs.
    assert (L := len_remove x s Hx).
    destruct (IH (remove x s) (insert x u)) as (H1 & H2 & H3 & H4); [lia|].
    repeat split; auto.
    + intros y Hy. apply H2 in Hy. rewrite mem_remove, andb_true_iff in Hy. tauto.
    + intros t Ht Hts. apply H3; auto. intros y Hy. rewrite mem_remove, andb_true_iff. split; auto.
      apply negb_true_iff. apply Nat.eqb_neq. intro Eyx. subst y.
      assert (Q : sat f x s = true) by (eapply sat_mono; eauto). congruence.
    + rewrite H4. apply bset_ext. intro y. rewrite !mem_union, !mem_diff, mem_remove, mem_insert.
      set (K := fst _) in *. destruct (mem y K) eqn:EK.
      * simpl. rewrite !andb_false_r, !orb_false_r. destruct (Nat.eqb_spec y x); auto. subst y.
        apply H2 in EK. rewrite mem_remove, Nat.eqb_refl, andb_false_r in EK. discriminate.
      * simpl. rewrite !andb_true_r. destruct (Nat.eqb_spec y x); simpl; rewrite ?andb_true_r; auto.
        subst y. rewrite Hx. destruct (mem x u); auto.
  - repeat split; auto using incl_refl.
    + intros x Hx. apply elements_spec in Hx. assert (H := find_none _ _ E _ Hx). apply negb_false_iff in H. auto.
    + apply bset_ext. intro x. rewrite mem_union, mem_diff. destruct (mem x u), (mem x s); auto.
Qed.

Lemma find_satisfiable_nodes_spec f s :
  let r := find_satisfiable_nodes s f in
  closed f (fst r) /\ incl_set (fst r) s /\ (forall t, closed f t -> incl_set t s -> incl_set t (fst r)) /\
  snd r = diff s (fst r).
Proof.
  unfold find_satisfiable_nodes.
  set (a := of_list (filter (fun x => sat f x s) (elements s))).
  set (b := of_list (filter (fun x => negb (sat f x s)) (elements s))).
  assert (Ha : forall x, mem x a = true <-> mem x s = true /\ sat f x s = true).
  { intro x. unfold a. rewrite mem_of_list, filter_In, elements_spec. tauto. }
  assert (Hb : forall x, mem x b = true <-> mem x s = true /\ sat f x s = false).
  { intro x. unfold b. rewrite mem_of_list, filter_In, elements_spec, negb_true_iff. tauto. }
  destruct (satisfiable_loop_spec (len a) f a b (le_n _)) as (H1 & H2 & H3 & H4).
  repeat split; auto.
  - intros x Hx. apply H2, Ha in Hx. tauto.
  - intros t Ht Hts. apply H3; auto. intros x Hx. apply Ha. split; auto. eapply sat_mono; eauto.
  - rewrite H4. set (K := fst _) in *. apply bset_ext. intro x. rewrite mem_union, !mem_diff.
    specialize (Ha x). specialize (Hb x). specialize (H2 x).
    destruct (mem x a), (mem x b), (mem x s), (mem x K), (sat f x s); simpl; auto; exfalso; intuition discriminate.
Qed.

Lemma contains_quorum_loop_spec fuel f : forall s, len s <= fuel ->
  contains_quorum_loop fuel f s = negb (is_empty (fst (satisfiable_loop fuel f s bempty))).
Proof.
  assert (H : forall s u u', fst (satisfiable_loop fuel f s u) = fst (satisfiable_loop fuel f s u')).
  { induction fuel as [|n IH]; intros s u u'; simpl; destruct (find _ _); simpl; auto. }
  revert H. induction fuel as [|n IH]; intros H s Hl; simpl; destruct (find _ _) eqn:E; simpl; auto.
  apply find_some in E. destruct E as [E _]. apply elements_spec in E. assert (L := len_remove n0 s E).
  assert (H' : forall s u u', fst (satisfiable_loop n f s u) = fst (satisfiable_loop n f s u')).
  { clear. induction n as [|n IH]; intros s u u'; simpl; destruct (find _ _); simpl; auto. }
  rewrite IH; [|auto|lia]. f_equal. f_equal. apply H'.
Qed.

Lemma contains_quorum_iff f s : contains_quorum s f = true <-> exists q, incl_set q s /\ quorum f q.
Proof.
  unfold contains_quorum. rewrite contains_quorum_loop_spec by auto. rewrite negb_true_iff, <- inhabited_iff.
  destruct (satisfiable_loop_spec (len s) f s bempty (le_n _)) as (H1 & H2 & H3 & _). split.
  - intro H. eexists. split; [exact H2|]. apply quorum_closed. auto.
  - intros (q & Hq & Hqq). apply quorum_closed in Hqq. destruct Hqq as [(x & Hx) Hc]. exists x.
    apply (H3 q); auto.
Qed.

Lemma contains_quorum_false f s : contains_quorum s f = false <-> forall q, quorum f q -> ~ incl_set q s.
Proof.
  rewrite <- not_true_iff_false, contains_quorum_iff. split.
  - intros H q Hq Hi. apply H. eauto.
  - intros H (q & Hi & Hq). eapply H; eauto.
Qed.

Lemma contains_quorum_mono f a b : incl_set a b -> contains_quorum a f = true -> contains_quorum b f = true.
Proof. rewrite !contains_quorum_iff. intros H (q & H1 & H2). exists q. split; auto. eapply incl_trans; eauto. Qed.

Lemma satisfiable_nodes_spec f :
  closed f (satisfiable_nodes f) /\ (forall t, closed f t -> incl_set t (satisfiable_nodes f)).
Proof.
  destruct (find_satisfiable_nodes_spec f (all_nodes f)) as (H1 & H2 & H3 & _). split; auto.
  intros t Ht. apply H3; auto. apply closed_nodes; auto.
Qed.

Lemma mem_of_nil x : mem x (of_list []) = false.
Proof. apply not_true_iff_false. rewrite mem_of_list. auto. Qed.

(** ** minimal quorums exist below every quorum *)
Lemma minimal_below (P : bset -> Prop) (dec : forall s, P s \/ ~ P s) s : P s ->
  exists m, incl_set m s /\ minimal P m.
Proof.
  remember (len s) as n eqn:En. revert s En. induction n as [n IH] using lt_wf_ind. intros s En Hs.
  (* is there a proper subset in P? search the finitely many subsets *)
  assert (D : (exists s', P s' /\ incl_set s' s /\ s' <> s) \/ ~ exists s', P s' /\ incl_set s' s /\ s' <> s).
  { assert (Hfin : forall l, NoDup l -> forall base, (exists l', incl l' l /\ P (union base (of_list l')) /\ union base (of_list l') <> s)
       \/ ~ (exists l', incl l' l /\ P (union base (of_list l')) /\ union base (of_list l') <> s)).
    { induction l as [|x l IHl]; intros Hnd base.
      - destruct (dec base) as [Hb|Hb]; [destruct (bset_eq_dec base s) as [e|e]|].
        + right. intros (l' & Hi & HP & Hne). assert (l' = []) by (destruct l' as [|y l']; auto; exfalso; apply (Hi y); left; auto).
          subst l'. apply Hne. subst s. apply bset_ext. intro x. rewrite mem_union. rewrite mem_of_nil, orb_false_r. auto.
        + left. exists []. assert (Eb : union base (of_list []) = base).
          { apply bset_ext. intro x. rewrite mem_union. rewrite mem_of_nil, orb_false_r. auto. }
          rewrite Eb. repeat split; auto. intros x Hx; auto.
        + right. intros (l' & Hi & HP & Hne). assert (l' = []) by (destruct l' as [|y l']; auto; exfalso; apply (Hi y); left; auto).
          subst l'. apply Hb. assert (Eb : union base (of_list []) = base).
          { apply bset_ext. intro x. rewrite mem_union. rewrite mem_of_nil, orb_false_r. auto. }
          rewrite Eb in HP. auto.
      - inversion Hnd; subst. destruct (IHl H2 base) as [(l' & Hi & HP)|H'].
        + left. exists l'. split; auto. intros y Hy. right. auto.
        + destruct (IHl H2 (insert x base)) as [(l' & Hi & HP)|H''].
          * left. exists (x :: l'). split; [intros y [<-|Hy]; simpl; auto|].
            replace (union base (of_list (x :: l'))) with (union (insert x base) (of_list l')); auto.
            apply bset_ext. intro y. apply eq_true_iff_eq.
            rewrite !mem_union, !orb_true_iff, mem_insert, orb_true_iff, !mem_of_list, Nat.eqb_eq. simpl. intuition.
          * right. intros (l' & Hi & HP). destruct (in_dec Nat.eq_dec x l') as [Hx|Hx].
            -- apply H''. exists (List.remove Nat.eq_dec x l'). split.
               ++ intros y Hy. apply in_remove in Hy. destruct Hy as [Hy Hyx]. apply Hi in Hy. destruct Hy; congruence.
               ++ replace (union (insert x base) (of_list (List.remove Nat.eq_dec x l'))) with (union base (of_list l')); auto.
                  apply bset_ext. intro y. apply eq_true_iff_eq.
                  rewrite !mem_union, !orb_true_iff, mem_insert, orb_true_iff, !mem_of_list, Nat.eqb_eq.
                  destruct (Nat.eq_dec x y) as [->|Hxy].
                  ** tauto.
                  ** split; intros [H|H]; auto. { right. apply in_in_remove; auto. }
                     { destruct H; [congruence|auto]. } { apply in_remove in H. tauto. }
            -- apply H'. exists l'. split; auto. intros y Hy. specialize (Hi y Hy). destruct Hi; congruence. }
    destruct (Hfin (elements s) (elements_nodup s) bempty) as [(l' & Hi & HP & Hne)|H'].
    - left. exists (union bempty (of_list l')). repeat split; auto.
      intros x Hx. rewrite mem_union, mem_empty in Hx. simpl in Hx. apply mem_of_list in Hx. apply Hi in Hx.
      apply elements_spec; auto.
    - right. intros (s' & HP & Hi & Hne). apply H'. exists (elements s').
      assert (Es : union bempty (of_list (elements s')) = s').
      { apply bset_ext. intro x. rewrite mem_union, mem_empty, of_list_elements. auto. }
      rewrite Es. repeat split; auto. intros x Hx. apply elements_spec. apply Hi. apply elements_spec; auto. }
  destruct D as [(s' & HP & Hi & Hne)|D].
  - destruct (IH (len s')) with (s := s') as (m & Hm & Hmin); auto.
    + subst n. assert (len s' <= len s) by (apply len_subset; auto).
      destruct (Nat.eq_dec (len s') (len s)) as [El|]; [|lia].
      exfalso. apply Hne. apply len_subset_eq; auto. lia.
    + exists m. split; auto. eapply incl_trans; eauto.
  - exists s. split; [apply incl_refl|]. split; auto. intros S' HP Hi.
    destruct (bset_eq_dec S' s); auto. exfalso. apply D. eauto.
Qed.

Lemma quorum_dec f s : quorum f s \/ ~ quorum f s.
Proof. destruct (is_quorum f s) eqn:E; [left; apply is_quorum_iff|right; apply is_quorum_false]; auto. Qed.

Lemma minimal_quorum_below f s : quorum f s -> exists m, incl_set m s /\ minimal_quorum f m.
Proof. apply minimal_below. apply quorum_dec. Qed.
