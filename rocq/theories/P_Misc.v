(** Remaining facts about quorums used by the theorem files. *)
From Verif Require Export P_TopTier.
Local Open Scope list_scope.

Lemma is_quorum_checked_ok f S : (forall x, mem x S = true -> x < number_of_nodes f) ->
  is_quorum_checked f S = Ok (is_quorum f S).
Proof.
  intro Hr. unfold is_quorum_checked, is_quorum. destruct (is_empty S) eqn:Ee; auto. simpl.
  assert (H : forall l, (forall x, In x l -> x < number_of_nodes f) ->
    all_res (fun x => match nth_error (nodes f) x with Some n => Ok (is_quorum_slice (node_qset n) S) | None => Panic end) l
    = Ok (forallb (fun x => sat f x S) l)).
  { induction l as [|x l IH]; intro Hl; simpl; auto. unfold sat at 1, qset_of.
    destruct (nth_error (nodes f) x) as [n|] eqn:En.
    - simpl. destruct (is_quorum_slice (node_qset n) S); simpl; auto; apply IH; intros; apply Hl; right; auto.
    - exfalso. apply nth_error_None in En. specialize (Hl x (or_introl eq_refl)). unfold number_of_nodes in Hl. lia. }
  apply H. intros x Hx. apply Hr, elements_spec; auto.
Qed.

Lemma is_quorum_checked_spec f S :
  (forall b, is_quorum_checked f S = Ok b -> (b = true <-> quorum f S)) /\
  (is_quorum_checked f S = Panic -> exists x, mem x S = true /\ number_of_nodes f <= x).
Proof.
  split.
  - unfold is_quorum_checked. destruct (is_empty S) eqn:Ee.
    + intros b H. inversion H; subst. split; [discriminate|]. intros [Hi _]. apply inhabited_iff in Hi. congruence.
    + intros b H. rewrite <- is_quorum_iff. unfold is_quorum. rewrite Ee. simpl.
      enough (G : b = forallb (fun x => sat f x S) (elements S)) by (rewrite G; tauto).
      revert H. generalize (elements S). induction l as [|x l IH]; simpl.
      * congruence.
      * unfold sat at 1, qset_of. destruct (nth_error (nodes f) x) as [n|]; simpl; [|discriminate].
        destruct (is_quorum_slice (node_qset n) S); simpl; auto. congruence.
  - intro HP. destruct (forallb (fun x => x <? number_of_nodes f) (elements S)) eqn:Ef.
    + rewrite forallb_forall in Ef. rewrite is_quorum_checked_ok in HP; [discriminate|].
      intros x Hx. apply Nat.ltb_lt, Ef, elements_spec; auto.
    + assert (exists x, In x (elements S) /\ (x <? number_of_nodes f) = false).
      { revert Ef. clear. induction (elements S) as [|x l IH]; simpl; [discriminate|].
        destruct (x <? number_of_nodes f) eqn:Ex; simpl.
        - intro H. destruct (IH H) as (y & Hy & H'). eauto.
        - eauto. }
      destruct H as (x & Hx & Hl). exists x. split; [apply elements_spec; auto|]. apply Nat.ltb_ge; auto.
Qed.

Lemma find_satisfiable_nodes_quorums f S :
  (forall x, mem x (fst (find_satisfiable_nodes S f)) = true <-> exists Q, quorum f Q /\ incl_set Q S /\ mem x Q = true) /\
  (forall x, mem x (snd (find_satisfiable_nodes S f)) = true <->
     mem x S = true /\ ~ exists Q, quorum f Q /\ incl_set Q S /\ mem x Q = true) /\
  (inhabited_set (fst (find_satisfiable_nodes S f)) -> quorum f (fst (find_satisfiable_nodes S f))).
Proof.
  destruct (find_satisfiable_nodes_spec f S) as (H1 & H2 & H3 & H4).
  set (a := fst (find_satisfiable_nodes S f)) in *. set (b := snd (find_satisfiable_nodes S f)) in *.
  assert (Ha : forall x, mem x a = true <-> exists Q, quorum f Q /\ incl_set Q S /\ mem x Q = true).
  { intro x. split.
    - intro Hx. exists a. split; [apply quorum_closed; split; auto; exists x; auto|]. auto.
    - intros (Q & HQ & Hi & Hx). apply (H3 Q); auto. apply quorum_closed in HQ. apply HQ. }
  split; [exact Ha|]. split.
  - intro x. rewrite <- Ha, H4, mem_diff, andb_true_iff, negb_true_iff. rewrite not_true_iff_false. tauto.
  - intro Hi. apply quorum_closed. auto.
Qed.

Lemma slice_monotone q a b : (forall x, mem x a = true -> mem x b = true) ->
  is_quorum_slice q a = true -> is_quorum_slice q b = true.
Proof. apply is_quorum_slice_mono. Qed.

Lemma threshold_zero q : is_quorum_slice q bempty = false /\ forall vs is_ S, is_quorum_slice (QS 0 vs is_) S = false.
Proof.
  split; [apply is_quorum_slice_empty|]. intros. apply not_true_iff_false. rewrite is_quorum_slice_matches. lia.
Qed.

Lemma remove_non_minimal_sorted l : StronglySorted (fun a b => len a <= len b) (remove_non_minimal_node_sets l).
Proof. apply minimal_from_buckets_sorted; [constructor|intros s []]. Qed.

(** buckets keep the lexicographic order *)
Lemma sorted_filter_gen {A} (R : A -> A -> Prop) (p : A -> bool) l : StronglySorted R l -> StronglySorted R (filter p l).
Proof.
  induction 1 as [|x l Hs IH Hx]; simpl; [constructor|]. destruct (p x); auto. constructor; auto.
  rewrite Forall_forall in *. intros y Hy. apply filter_In in Hy. apply Hx. tauto.
Qed.

Lemma sorted_app {A} (R : A -> A -> Prop) a b : StronglySorted R a -> StronglySorted R b ->
  (forall x y, In x a -> In y b -> R x y) -> StronglySorted R (a ++ b).
Proof.
  induction 1 as [|x l Hs IH Hx]; simpl; auto. intros Hb Hab. constructor; [apply IH; auto|].
  rewrite Forall_forall in *. intros y Hy. apply in_app_iff in Hy. destruct Hy; auto.
Qed.

Lemma dedup_sorted l : StronglySorted (fun a b => bset_compare a b <> Gt) l ->
  StronglySorted (fun a b => bset_compare a b = Lt) (dedup beq l).
Proof.
  intro Hs. assert (Hn := dedup_sorted_nodup l Hs).
  assert (Hs' : StronglySorted (fun a b => bset_compare a b <> Gt) (dedup beq l)).
  { clear Hn. induction Hs as [|a l Hs IH Ha]; [constructor|]. cbn [dedup]. destruct l as [|b l]; [constructor; constructor|].
    destruct (beq a b); auto. constructor; auto. rewrite Forall_forall in *. intros y Hy.
    apply (proj1 (dedup_in _ _)) in Hy. auto. }
  revert Hn. induction Hs' as [|a l' Hs' IH Ha]; intro Hn; [constructor|]. inversion Hn; subst. constructor; auto.
  rewrite Forall_forall in *. intros y Hy. specialize (Ha y Hy). destruct (bset_compare a y) eqn:Ec; congruence || auto.
  exfalso. apply (cmp_eq _ bset_cmp_ok) in Ec. subst y. auto.
Qed.

Lemma minimal_from_buckets_before ns : StronglySorted (fun a b => bset_compare a b = Lt) ns -> forall k from minimal,
  StronglySorted before minimal -> (forall s, In s minimal -> len s < from) ->
  StronglySorted before (minimal_from_buckets minimal (map (fun k => filter (fun s => len s =? k) ns) (seq from k))).
Proof.
  intro Hns. induction k as [|k IH]; intros from minimal Hs Hl; simpl; auto.
  assert (Hlen : forall s, In s (filter_bucket minimal (filter (fun s => len s =? from) ns)) -> len s = from).
  { intros s Hs'. apply filter_In in Hs'. destruct Hs' as [Hs' _]. apply filter_In in Hs'. apply Nat.eqb_eq. tauto. }
  apply IH.
  - apply sorted_app; auto.
    + assert (Hb : StronglySorted (fun a b => bset_compare a b = Lt) (filter_bucket minimal (filter (fun s => len s =? from) ns))).
      { apply sorted_filter_gen, sorted_filter_gen. auto. }
      revert Hlen Hb. generalize (filter_bucket minimal (filter (fun s => len s =? from) ns)). induction 2 as [|a l Hb IHb Ha]; constructor.
      * apply IHb. intros; apply Hlen; right; auto.
      * rewrite Forall_forall in *. intros y Hy. right. split; [rewrite !Hlen; simpl; auto|]. apply bset_compare_lt. auto.
    + intros x y Hx Hy. left. rewrite (Hlen y Hy). auto.
  - intros s Hs'. apply in_app_iff in Hs'. destruct Hs' as [Hs'|Hs']; [specialize (Hl s Hs'); lia|].
    rewrite (Hlen s Hs'). lia.
Qed.

Lemma remove_non_minimal_before l : StronglySorted before (remove_non_minimal_node_sets l).
Proof.
  apply minimal_from_buckets_before; [|constructor|intros s []]. apply dedup_sorted. apply cmp_sort_sorted. apply bset_cmp_ok.
Qed.
