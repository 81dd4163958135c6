(** Building FBASs: ids and public keys. *)
From Coq Require Decimal DecimalNat DecimalString.
From Verif Require Export P_Blocking.
Local Open Scope list_scope.

Lemma string_eqb_eq a b : String.eqb a b = true <-> a = b.
Proof. apply String.eqb_eq. Qed.

Lemma keys_ok_new : keys_ok fbas_new.
Proof. intros pk i. unfold get_node_id. simpl. split; [discriminate|]. destruct i; discriminate. Qed.

Lemma nth_error_snoc {A} (l : list A) x i :
  nth_error (l ++ [x]) i = if i =? List.length l then Some x else nth_error l i.
Proof.
  destruct (Nat.eqb_spec i (List.length l)) as [->|Hne].
  - rewrite nth_error_app2, Nat.sub_diag; auto.
  - destruct (lt_dec i (List.length l)).
    + apply nth_error_app1; auto.
    + rewrite (proj2 (nth_error_None l i)) by lia. apply nth_error_None. rewrite app_length. simpl. lia.
Qed.

Lemma add_node_spec f n f' i : add_node f n = Ok (f', i) ->
  i = List.length (nodes f) /\ get_node_id f (node_pk n) = None /\ nodes f' = nodes f ++ [n] /\
  pk_to_id f' = (node_pk n, i) :: pk_to_id f.
Proof.
  unfold add_node, get_node_id. destruct (assoc String.eqb (node_pk n) (pk_to_id f)); [discriminate|].
  inversion 1; subst. auto.
Qed.

Lemma keys_ok_add f n f' i : keys_ok f -> add_node f n = Ok (f', i) -> keys_ok f'.
Proof.
  intros Hk Ha. apply add_node_spec in Ha. destruct Ha as (-> & Hn & En & Ep). intros pk j.
  unfold get_node_id in *. rewrite En, Ep, nth_error_snoc. simpl. destruct (String.eqb pk (node_pk n)) eqn:Eq.
  - apply String.eqb_eq in Eq. subst pk. split.
    + inversion 1; subst. rewrite Nat.eqb_refl. auto.
    + destruct (Nat.eqb_spec j (List.length (nodes f))) as [->|Hne]; auto. intro H. exfalso.
      apply Hk in H. unfold get_node_id in H. congruence.
  - specialize (Hk pk j). unfold get_node_id in Hk. rewrite Hk.
    destruct (Nat.eqb_spec j (List.length (nodes f))) as [->|Hne]; [|tauto].
    rewrite (proj2 (nth_error_None (nodes f) _)) by lia. simpl. split; [discriminate|]. intro H. exfalso. inversion H; subst.
    rewrite String.eqb_refl in Eq. discriminate.
Qed.

Lemma swap_spec f i q f' q' : swap_quorum_set f i q = Ok (f', q') ->
  exists n, nth_error (nodes f) i = Some n /\ q' = node_qset n /\ pk_to_id f' = pk_to_id f /\
    nodes f' = update i (mk_node (node_pk n) q) (nodes f).
Proof.
  unfold swap_quorum_set. destruct (nth_error (nodes f) i) as [n|]; [|discriminate]. inversion 1; subst. exists n. auto.
Qed.

Lemma keys_ok_swap f i q f' q' : keys_ok f -> swap_quorum_set f i q = Ok (f', q') -> keys_ok f'.
Proof.
  intros Hk Hs. apply swap_spec in Hs. destruct Hs as (n & Hn & -> & Ep & En). intros pk j.
  specialize (Hk pk j). unfold get_node_id in *. rewrite Ep, Hk, En, nth_error_update.
  destruct (Nat.eqb_spec j i) as [->|Hne]; simpl; [|tauto]. rewrite Hn. simpl. destruct (Nat.ltb_spec i (List.length (nodes f))); simpl; [tauto|].
  exfalso. assert (nth_error (nodes f) i <> None) by congruence. apply nth_error_Some in H0. lia.
Qed.

Lemma build_all_keys_ok l : forall f f', keys_ok f -> build_all f l = Ok f' -> keys_ok f'.
Proof.
  induction l as [|b l IH]; intros f f' Hk; simpl; [inversion 1; subst; auto|].
  destruct (build f b) as [f1|] eqn:Eb; simpl; [|discriminate]. apply IH. destruct b; simpl in Eb; unfold add_generic_node in Eb.
  - destruct (add_node f n) as [[g j]|] eqn:Ea; inversion Eb; subst. eapply keys_ok_add; eauto.
  - destruct (add_node f _) as [[g j]|] eqn:Ea; inversion Eb; subst. eapply keys_ok_add; eauto.
  - destruct (swap_quorum_set f node_id q) as [[g j]|] eqn:Ea; inversion Eb; subst. eapply keys_ok_swap; eauto.
Qed.

(** generic names *)
Lemma to_uint_not_nil n : Nat.to_uint n <> Decimal.Nil.
Proof.
  intro E. assert (H := DecimalNat.Unsigned.of_to n). rewrite E in H. simpl in H. subst n. discriminate.
Qed.

Lemma generic_name_inj i j : generate_generic_node_name i = generate_generic_node_name j -> i = j.
Proof.
  unfold generate_generic_node_name. simpl. intro H. injection H as H.
  apply (f_equal DecimalString.NilZero.uint_of_string) in H. rewrite !DecimalString.NilZero.usu in H by apply to_uint_not_nil.
  injection H as H. apply DecimalNat.Unsigned.to_uint_inj. auto.
Qed.

(** all keys are generic names of earlier ids *)
Definition generic_keys (f : fbas) : Prop :=
  forall i n, nth_error (nodes f) i = Some n -> node_pk n = generate_generic_node_name i.

Lemma add_generic_ok f q : keys_ok f -> generic_keys f ->
  exists f', add_generic_node f q = Ok (f', List.length (nodes f)) /\ keys_ok f' /\ generic_keys f' /\ nodes f' = nodes f ++ [mk_node (generate_generic_node_name (List.length (nodes f))) q].
Proof.
  intros Hk Hg. unfold add_generic_node. set (n := mk_node _ q).
  destruct (add_node f n) as [[f' i]|] eqn:Ea.
  - assert (Ha := add_node_spec _ _ _ _ Ea). destruct Ha as (-> & _ & En & _). exists f'. split; auto.
    split; [eapply keys_ok_add; eauto|]. split; auto.
    intros i m. rewrite En, nth_error_snoc. destruct (Nat.eqb_spec i (List.length (nodes f))) as [->|Hne]; auto.
    inversion 1; subst. auto.
  - exfalso. unfold add_node in Ea. destruct (assoc String.eqb (node_pk n) (pk_to_id f)) as [j|] eqn:Eas; [|discriminate].
    assert (Hj := Hk (node_pk n) j). unfold get_node_id in Hj. apply Hj in Eas.
    destruct (nth_error (nodes f) j) as [m|] eqn:Em; [|discriminate]. simpl in Eas. injection Eas as Eas.
    rewrite (Hg j m Em) in Eas. simpl in Eas. apply generic_name_inj in Eas.
    assert (nth_error (nodes f) j <> None) by congruence. apply nth_error_Some in H. lia.
Qed.

Lemma generic_build l : forall f, keys_ok f -> generic_keys f ->
  exists f', build_all f (map B_add_generic_node l) = Ok f' /\ keys_ok f' /\ generic_keys f' /\ map node_qset (nodes f') = map node_qset (nodes f) ++ l.
Proof.
  induction l as [|q l IH]; intros f Hk Hg; simpl.
  - exists f. rewrite app_nil_r. auto.
  - destruct (add_generic_ok f q Hk Hg) as (f1 & E1 & Hk1 & Hg1 & En1). rewrite E1. simpl.
    destruct (IH f1 Hk1 Hg1) as (f' & E' & Hk' & Hg' & En'). exists f'. split; auto. split; auto. split; auto.
    rewrite En', En1, map_app, <- app_assoc. reflexivity.
Qed.

Lemma generic_new : generic_keys fbas_new.
Proof. intros i n. destruct i; discriminate. Qed.

(** swapping twice restores *)
Lemma update_same {A} i (x : A) l : nth_error l i = Some x -> update i x l = l.
Proof. revert i. induction l as [|a l IH]; intros [|i] H; simpl in *; try discriminate; [congruence|f_equal; auto]. Qed.

Lemma update_update {A} i (x y : A) l : update i x (update i y l) = update i x l.
Proof. revert i. induction l as [|a l IH]; intros [|i]; simpl; auto. f_equal. auto. Qed.

Lemma swap_back f i q f' q' : swap_quorum_set f i q = Ok (f', q') -> swap_quorum_set f' i q' = Ok (f, q).
Proof.
  intro H. apply swap_spec in H. destruct H as (n & Hn & -> & Ep & En). unfold swap_quorum_set. rewrite En, nth_error_update.
  assert (L : i < List.length (nodes f)) by (apply nth_error_Some; congruence).
  rewrite Nat.eqb_refl, (proj2 (Nat.ltb_lt _ _) L). simpl. rewrite update_update, Ep, update_same.
  - destruct f; auto.
  - rewrite Hn. destruct n; auto.
Qed.
