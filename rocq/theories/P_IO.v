(** Lemmas about reading and writing an FBAS. *)
From Coq Require Import Ascii ZArith.
From Verif Require Export Spec_IO P_Results P_Renumber.
Local Open Scope list_scope.

Lemma raw_qset_ind' (P : raw_qset -> Prop) :
  (forall t vs is_, (forall i, In i is_ -> P i) -> P (RQ t vs is_)) -> forall q, P q.
Proof.
  intro H. fix IH 1. intros [t vs is_]. apply H. revert is_. fix IHl 1. intros [|a l] i Hi.
  - destruct Hi.
  - destruct Hi as [<-|Hi]; [apply IH|]. eapply IHl; eauto.
Qed.

(** ** strings *)
Lemma nat_of_ascii_inj a b : nat_of_ascii a = nat_of_ascii b -> a = b.
Proof. intro H. rewrite <- (ascii_nat_embedding a), <- (ascii_nat_embedding b), H. auto. Qed.
Lemma bytes_inj a b : bytes a = bytes b -> a = b.
Proof.
  unfold bytes. intro H. rewrite <- (string_of_list_ascii_of_string a), <- (string_of_list_ascii_of_string b). f_equal.
  revert H. generalize (list_ascii_of_string a) (list_ascii_of_string b). clear. induction l as [|x l IH]; intros [|y m] H; simpl in *; try discriminate; auto.
  inversion H as [[H1 H2]]. apply nat_of_ascii_inj in H1. subst. f_equal. auto.
Qed.
Lemma string_cmp_ok : cmp_ok string_compare.
Proof.
  destruct (lex_cmp_ok _ nat_cmp_ok) as [He Ho Ht]. unfold string_compare. split; eauto.
  intros x y. rewrite He. split; [apply bytes_inj|congruence].
Qed.
Lemma string_compare_lt a b : string_compare a b = Lt <-> string_before a b.
Proof. apply lex_compare_lt. Qed.

Lemma strong_sorted_nodup_lt l : NoDup l -> StronglySorted (fun a b => string_compare a b <> Gt) l -> StronglySorted string_before l.
Proof.
  intros Hn H. induction H as [|a l Hl IH Ha]; constructor; inversion Hn; subst; auto.
  rewrite Forall_forall in *. intros b Hb. apply string_compare_lt. specialize (Ha b Hb). destruct (string_compare a b) eqn:E; auto; [|congruence].
  apply (cmp_eq _ string_cmp_ok) in E. subst b. contradiction.
Qed.

(** ** public keys *)
Lemma enumerate_snoc {A} (l : list A) x : enumerate (l ++ [x]) = enumerate l ++ [(List.length l, x)].
Proof.
  unfold enumerate. rewrite app_length. simpl. rewrite seq_app. simpl.
  assert (H : forall (a : list nat) (b : list A) c d, List.length a = List.length b -> combine (a ++ [c]) (b ++ [d]) = combine a b ++ [(c, d)]).
  { clear. induction a as [|x a IH]; intros [|y b] c d H; simpl in *; try discriminate; auto. rewrite IH; auto. }
  apply H. apply seq_length.
Qed.

Definition key_map (l : list raw_node) : list (public_key * nat) :=
  rev (map (fun p => (raw_public_key (snd p), fst p)) (enumerate l)).
Lemma key_map_snoc l n : key_map (l ++ [n]) = (raw_public_key n, List.length l) :: key_map l.
Proof. unfold key_map. rewrite enumerate_snoc, map_app, rev_app_distr. auto. Qed.

Lemma key_map_spec l pk i : assoc String.eqb pk (key_map l) = Some i <-> last_with_key l pk i.
Proof.
  revert i. induction l as [|n l IH] using rev_ind; intro i.
  - simpl. split; [discriminate|]. intros [H _]. destruct i; discriminate.
  - rewrite key_map_snoc. cbn [assoc]. destruct (String.eqb pk (raw_public_key n)) eqn:E.
    + apply string_eqb_eq in E. subst pk. split.
      * intro H. inversion H; subst i. split.
        -- rewrite nth_error_app2, Nat.sub_diag by lia. auto.
        -- intros j Hj. assert (nth_error (l ++ [n]) j = None) as ->; [|discriminate]. apply nth_error_None. rewrite app_length. simpl. lia.
      * intros [H1 H2]. f_equal. destruct (lt_eq_lt_dec i (List.length l)) as [[Hl| ->]|Hg]; auto; exfalso.
        -- apply (H2 (List.length l) Hl). rewrite nth_error_app2, Nat.sub_diag by lia. auto.
        -- assert (nth_error (l ++ [n]) i = None) as Hn; [|rewrite Hn in H1; discriminate]. apply nth_error_None. rewrite app_length. simpl. lia.
    + rewrite IH. assert (Hne : pk <> raw_public_key n) by (intros ->; rewrite String.eqb_refl in E; discriminate).
      unfold last_with_key. split; intros [H1 H2].
      * assert (Hi : i < List.length l). { apply nth_error_Some. destruct (nth_error l i); discriminate. }
        split; [rewrite nth_error_app1; auto|]. intros j Hj. destruct (lt_eq_lt_dec j (List.length l)) as [[Hl| ->]|Hg].
        -- rewrite nth_error_app1 by auto. auto.
        -- rewrite nth_error_app2, Nat.sub_diag by lia. simpl. congruence.
        -- assert (nth_error (l ++ [n]) j = None) as ->; [|discriminate]. apply nth_error_None. rewrite app_length. simpl. lia.
      * destruct (lt_eq_lt_dec i (List.length l)) as [[Hl| ->]|Hg].
        -- rewrite nth_error_app1 in H1 by auto. split; auto. intros j Hj.
           destruct (lt_dec j (List.length l)) as [Hjl|Hjl].
           ++ specialize (H2 j Hj). rewrite nth_error_app1 in H2 by auto. auto.
           ++ assert (nth_error l j = None) as ->; [|discriminate]. apply nth_error_None. lia.
        -- rewrite nth_error_app2, Nat.sub_diag in H1 by lia. simpl in H1. congruence.
        -- assert (nth_error (l ++ [n]) i = None) as Hn; [|rewrite Hn in H1; discriminate]. apply nth_error_None. rewrite app_length. simpl. lia.
Qed.
Lemma key_map_range l pk i : assoc String.eqb pk (key_map l) = Some i -> i < List.length l.
Proof. intro H. apply key_map_spec in H. destruct H as [H _]. apply nth_error_Some. destruct (nth_error l i); discriminate. Qed.
Lemma key_map_none l pk : assoc String.eqb pk (key_map l) = None <-> forall i, ~ last_with_key l pk i.
Proof.
  split.
  - intros H i Hi. apply key_map_spec in Hi. congruence.
  - intro H. destruct (assoc _ _ _) as [i|] eqn:E; auto. apply key_map_spec in E. destruct (H i E).
Qed.

(** ** C08 *)
Lemma fbas_from_raw_keys l : map node_pk (nodes (fbas_from_raw l)) = map raw_public_key l.
Proof. cbn. rewrite map_map. auto. Qed.

Lemma nat_sort_sorted l : StronglySorted le (sort_by Nat.compare l).
Proof.
  assert (H := cmp_sort_sorted Nat.compare l nat_cmp_ok). revert H. generalize (sort_by Nat.compare l). clear.
  induction 1 as [|a l Hl IH Ha]; constructor; auto. eapply Forall_impl; [|exact Ha]. intros b Hb. apply Nat.compare_le_iff. auto.
Qed.
Lemma nat_sorted_id l : StronglySorted le l -> sort_by Nat.compare l = l.
Proof.
  intro H. apply sort_by_id; [apply nat_cmp_ok|]. induction H as [|a l Hl IH Ha]; constructor; auto.
  eapply Forall_impl; [|exact Ha]. intros b Hb. apply Nat.compare_le_iff. auto.
Qed.

Section Resolve.
Variable m : list (public_key * nat).
Variable names : public_key -> nat -> Prop.
Hypothesis Hm : forall pk i, assoc String.eqb pk m = Some i <-> names pk i.

Lemma known_filter_map vs : known_ids names vs (filter_map (fun x => assoc String.eqb x m) vs).
Proof.
  induction vs as [|pk vs IH]; simpl; [constructor|]. destruct (assoc String.eqb pk m) as [i|] eqn:E.
  - constructor; auto. apply Hm; auto.
  - apply known_skip; auto. intros i Hi. apply Hm in Hi. congruence.
Qed.
Lemma qset_from_raw_resolves q : resolves names q (qset_from_raw q m).
Proof.
  induction q as [t vs is_ IH] using raw_qset_ind'. cbn [qset_from_raw]. econstructor.
  - apply known_filter_map.
  - symmetry. apply sort_by_perm.
  - apply nat_sort_sorted.
  - instantiate (1 := map (fun i => qset_from_raw i m) is_). clear - IH. induction is_ as [|i is_ IHl]; simpl; constructor.
    + apply IH. left; auto.
    + apply IHl. intros; apply IH; right; auto.
  - symmetry. apply sort_by_perm.
Qed.
End Resolve.

Lemma fbas_from_raw_resolves l i n : nth_error l i = Some n ->
  exists q, node_of (fbas_from_raw l) i q /\ resolves (last_with_key l) (raw_quorum_set n) q.
Proof.
  intro H. exists (qset_from_raw (raw_quorum_set n) (key_map l)). split.
  - exists (node_from_raw (key_map l) n). split; auto. cbn. fold (key_map l). rewrite nth_error_map, H. auto.
  - apply qset_from_raw_resolves. intros. apply key_map_spec.
Qed.

Lemma get_node_id_from_raw l pk i : get_node_id (fbas_from_raw l) pk = Some i <-> last_with_key l pk i.
Proof. apply key_map_spec. Qed.

Lemma unique_last l pk i : unique_keys l -> (last_with_key l pk i <-> option_map raw_public_key (nth_error l i) = Some pk).
Proof.
  intro Hu. split; [intros [H _]; auto|]. intro H. split; auto. intros j Hj E.
  unfold unique_keys in Hu. assert (i = j); [|lia]. eapply NoDup_nth_error; eauto.
  - rewrite map_length. apply nth_error_Some. destruct (nth_error l i); discriminate.
  - rewrite !nth_error_map. congruence.
Qed.
Lemma from_raw_keys_ok l : unique_keys l -> keys_ok (fbas_from_raw l).
Proof.
  intros Hu pk i. rewrite get_node_id_from_raw, unique_last by auto. cbn. rewrite nth_error_map. destruct (nth_error l i); simpl; tauto.
Qed.

Lemma qset_from_raw_mentions l q y : mentions y (qset_from_raw q (key_map l)) -> y < List.length l.
Proof.
  induction q as [t vs is_ IH] using raw_qset_ind'. cbn [qset_from_raw]. intro H. apply mentions_inv in H. destruct H as [H|(i & Hi & H)].
  - apply sort_by_in, filter_map_in in H. destruct H as (pk & _ & H). eapply key_map_range; eauto.
  - apply sort_by_in, in_map_iff in Hi. destruct Hi as (j & <- & Hj). eauto.
Qed.
Lemma from_raw_wf l : wf_fbas (fbas_from_raw l).
Proof.
  intros x q y (n & Hn & <-) Hm. unfold number_of_nodes. cbn. rewrite map_length. cbn in Hn. fold (key_map l) in Hn.
  rewrite nth_error_map in Hn. destruct (nth_error l x) as [r|]; inversion Hn; subst n. cbn in Hm. eapply qset_from_raw_mentions; eauto.
Qed.

Lemma filter_map_perm {A B} (g : A -> option B) l l' : Permutation l l' -> Permutation (filter_map g l) (filter_map g l').
Proof.
  induction 1; simpl; auto.
  - destruct (g x); auto.
  - destruct (g x), (g y); auto. constructor.
  - etransitivity; eauto.
Qed.
Lemma same_listing_read m q : forall q', same_listing q q' -> qset_from_raw q m = qset_from_raw q' m.
Proof.
  induction q as [t vs is_ IH] using raw_qset_ind'. intros q' H. inversion H as [? ? vs' ? is1 is' Hp HF Hp']; subst. cbn [qset_from_raw]. f_equal.
  - apply sort_by_perm_eq; [apply nat_cmp_ok|]. apply filter_map_perm; auto.
  - apply sort_by_perm_eq; [apply qset_cmp_ok|]. transitivity (map (fun i => qset_from_raw i m) is1); [|apply Permutation_map; auto].
    assert (map (fun i => qset_from_raw i m) is_ = map (fun i => qset_from_raw i m) is1) as ->; auto.
    clear - HF IH. induction HF as [|a b l l' Hab HF IHF]; simpl; auto. f_equal.
    + apply IH; [left; auto|auto].
    + apply IHF. intros; apply IH; [right|]; auto.
Qed.
Lemma listing_irrelevant l l' : Forall2 same_node_listing l l' -> fbas_from_raw l = fbas_from_raw l'.
Proof.
  intro H. unfold fbas_from_raw. fold (key_map l) (key_map l').
  assert (E : key_map l = key_map l').
  { assert (K : map raw_public_key l = map raw_public_key l').
    { induction H as [|a b l l' [E _] HF IH]; simpl; auto. f_equal; auto. }
    assert (G : forall l, key_map l = rev (combine (map raw_public_key l) (seq 0 (List.length (map raw_public_key l))))).
    { clear. intro l. unfold key_map, enumerate. f_equal. rewrite map_length. generalize 0. induction l as [|n l IH]; intro k; simpl; auto. f_equal. auto. }
    rewrite !G, K. auto. }
  rewrite E. f_equal. clear E. generalize (key_map l'). intro m.
  induction H as [|a b l l' [Ek El] HF IH]; simpl; auto. f_equal; auto. unfold node_from_raw. rewrite Ek. f_equal. apply same_listing_read; auto.
Qed.

(** ** C09 *)
Lemma node_pk_from_raw l i : option_map node_pk (nth_error (nodes (fbas_from_raw l)) i) = option_map raw_public_key (nth_error l i).
Proof. cbn. rewrite nth_error_map. destruct (nth_error l i); auto. Qed.

Lemma to_raw_from_raw_qset l q : qset_from_raw (qset_to_raw (qset_from_raw q (key_map l)) (fbas_from_raw l)) (key_map l) = qset_from_raw q (key_map l).
Proof.
  induction q as [t vs is_ IH] using raw_qset_ind'. cbn [qset_from_raw qset_to_raw]. f_equal.
  - set (ids := sort_by Nat.compare (filter_map (fun x => assoc String.eqb x (key_map l)) vs)).
    assert (Hids : forall i, In i ids -> exists pk, last_with_key l pk i).
    { intros i Hi. apply sort_by_in, filter_map_in in Hi. destruct Hi as (pk & _ & H). exists pk. apply key_map_spec; auto. }
    assert (E : filter_map (fun x => assoc String.eqb x (key_map l)) (map (key_or_missing (fbas_from_raw l)) ids) = ids).
    { clearbody ids. induction ids as [|i ids IHi]; simpl; auto.
      destruct (Hids i (or_introl eq_refl)) as (pk & Hpk). assert (Hk := node_pk_from_raw l i). destruct Hpk as [H1 H2].
      rewrite H1 in Hk. unfold key_or_missing at 1. destruct (nth_error (nodes (fbas_from_raw l)) i) as [n|]; [|discriminate].
      simpl in Hk. inversion Hk as [Hk']. rewrite Hk'. rewrite (proj2 (key_map_spec l pk i)) by (split; auto).
      f_equal. apply IHi. intros; apply Hids; right; auto. }
    rewrite E. apply nat_sorted_id, nat_sort_sorted.
  - set (is1 := sort_by qset_compare (map (fun i => qset_from_raw i (key_map l)) is_)). rewrite map_map.
    assert (E : map (fun i => qset_from_raw (qset_to_raw i (fbas_from_raw l)) (key_map l)) is1 = is1).
    { rewrite <- (map_id is1) at 2. apply map_ext_in. intros i Hi. apply sort_by_in, in_map_iff in Hi. destruct Hi as (j & <- & Hj). auto. }
    rewrite E. apply sort_by_id; [apply qset_cmp_ok|]. apply cmp_sort_sorted, qset_cmp_ok.
Qed.

Lemma key_map_to_raw f l : map node_pk (nodes f) = map raw_public_key l -> key_map (fbas_to_raw f) = key_map l.
Proof.
  intro H. assert (G : forall l, key_map l = rev (combine (map raw_public_key l) (seq 0 (List.length (map raw_public_key l))))).
  { clear. intro l. unfold key_map, enumerate. f_equal. rewrite map_length. generalize 0. induction l as [|n l IH]; intro k; simpl; auto. f_equal. auto. }
  rewrite !G. unfold fbas_to_raw. rewrite map_map. change (map (fun x => raw_public_key (node_to_raw f x)) (nodes f)) with (map node_pk (nodes f)). rewrite H. auto.
Qed.

Lemma round_trip l : fbas_from_raw (fbas_to_raw (fbas_from_raw l)) = fbas_from_raw l.
Proof.
  unfold fbas_from_raw at 1. fold (key_map (fbas_to_raw (fbas_from_raw l))).
  rewrite (key_map_to_raw (fbas_from_raw l) l) by apply fbas_from_raw_keys.
  assert (E : map (node_from_raw (key_map l)) (fbas_to_raw (fbas_from_raw l)) = nodes (fbas_from_raw l)).
  { unfold fbas_to_raw. rewrite map_map. rewrite <- (map_id (nodes (fbas_from_raw l))) at 2. apply map_ext_in. intros n Hn.
    cbn in Hn. fold (key_map l) in Hn. apply in_map_iff in Hn. destruct Hn as (r & <- & Hr).
    unfold node_from_raw. cbn [raw_public_key raw_quorum_set node_to_raw node_pk node_qset]. f_equal. apply to_raw_from_raw_qset. }
  rewrite E. reflexivity.
Qed.

(** writing and reading any FBAS keeps it up to the order of entries *)
Lemma key_unique f x y pk : distinct_keys f -> has_key f x pk -> has_key f y pk -> x = y.
Proof.
  unfold distinct_keys, has_key. intros Hd Hx Hy. eapply NoDup_nth_error; eauto.
  - rewrite map_length. apply nth_error_Some. destruct (nth_error (nodes f) x); discriminate.
  - rewrite !nth_error_map. congruence.
Qed.

Lemma key_map_own f x n : distinct_keys f -> nth_error (nodes f) x = Some n -> assoc String.eqb (node_pk n) (key_map (fbas_to_raw f)) = Some x.
Proof.
  intros Hd Hx. apply key_map_spec. apply unique_last.
  - unfold unique_keys, fbas_to_raw. rewrite map_map. apply Hd.
  - unfold fbas_to_raw. rewrite nth_error_map, Hx. auto.
Qed.

Lemma reread_qset f q : distinct_keys f -> (forall y, mentions y q -> y < number_of_nodes f) ->
  renamed (fun x => x) q (qset_from_raw (qset_to_raw q f) (key_map (fbas_to_raw f))).
Proof.
  intro Hd. induction q as [t vs is_ IH] using qset_ind'. intro Hm. cbn [qset_from_raw qset_to_raw].
  assert (E : filter_map (fun x => assoc String.eqb x (key_map (fbas_to_raw f))) (map (key_or_missing f) vs) = vs).
  { assert (Hv : forall y, In y vs -> y < number_of_nodes f) by (intros; apply Hm; constructor; auto). clear - Hd Hv.
    induction vs as [|v vs IH]; simpl; auto. assert (Hl := Hv v (or_introl eq_refl)). apply nth_error_Some in Hl.
    unfold key_or_missing at 1. destruct (nth_error (nodes f) v) as [n|] eqn:En; [|congruence].
    rewrite (key_map_own f v n Hd En). f_equal. apply IH. intros; apply Hv; right; auto. }
  rewrite E, map_map. econstructor.
  - rewrite map_id. symmetry. apply sort_by_perm.
  - instantiate (1 := map (fun i => qset_from_raw (qset_to_raw i f) (key_map (fbas_to_raw f))) is_).
    assert (Hi : forall i, In i is_ -> renamed (fun x => x) i (qset_from_raw (qset_to_raw i f) (key_map (fbas_to_raw f)))).
    { intros i Hi. apply IH; auto. intros y Hy. apply Hm. eapply mentions_inner; eauto. }
    clear - Hi. induction is_ as [|i is_ IHl]; simpl; constructor; [apply Hi; left; auto|]. apply IHl. intros; apply Hi; right; auto.
  - symmetry. apply sort_by_perm.
Qed.
Lemma reread f : wf_fbas f -> distinct_keys f ->
  renumbering (fun x => x) f (fbas_from_raw (fbas_to_raw f)) /\
  map node_pk (nodes (fbas_from_raw (fbas_to_raw f))) = map node_pk (nodes f) /\ keys_ok (fbas_from_raw (fbas_to_raw f)).
Proof.
  intros Hwf Hd. split; [|split].
  - split; [unfold number_of_nodes; cbn; unfold fbas_to_raw; rewrite !map_length; auto|]. split; auto. split; auto.
    intros x q (n & Hn & <-). exists (qset_from_raw (qset_to_raw (node_qset n) f) (key_map (fbas_to_raw f))). split.
    + exists (node_from_raw (key_map (fbas_to_raw f)) (node_to_raw f n)). split; auto. cbn. fold (key_map (fbas_to_raw f)).
      unfold fbas_to_raw. rewrite map_map, nth_error_map, Hn. auto.
    + apply reread_qset; auto. intros y Hy. apply (Hwf x (node_qset n) y); auto. exists n; auto.
  - rewrite fbas_from_raw_keys. unfold fbas_to_raw. rewrite map_map. auto.
  - apply from_raw_keys_ok. unfold unique_keys, fbas_to_raw. rewrite map_map. apply Hd.
Qed.
