(** Proofs about random choices and graphs. *)
From Verif Require Import Spec_SimGraph P_List.
Local Open Scope list_scope.

(** ** loops *)
Lemma foldM_pre {A B} (k : A -> B -> res A) (I : list B -> A -> Prop) l : forall done s,
  (forall d b rest s, done ++ l = d ++ b :: rest -> I d s -> exists s', k s b = Ok s' /\ I (d ++ [b]) s') ->
  I done s -> exists s', foldM k s l = Ok s' /\ I (done ++ l) s'.
Proof.
  induction l as [|b l IH]; intros done s Hk Hs; cbn [foldM].
  - rewrite app_nil_r. eauto.
  - destruct (Hk done b l s eq_refl Hs) as (s1 & E1 & H1). rewrite E1. cbn [bind].
    destruct (IH (done ++ [b]) s1) as (s2 & E2 & H2); auto.
    + intros d b' rest s0 Hd. rewrite <- app_assoc in Hd. cbn in Hd. eauto.
    + rewrite <- app_assoc in H2. cbn in H2. eauto.
Qed.

Lemma foldM_seq {A} (k : A -> nat -> res A) (I : nat -> A -> Prop) n : forall a s,
  (forall i s, a <= i < a + n -> I i s -> exists s', k s i = Ok s' /\ I (S i) s') ->
  I a s -> exists s', foldM k s (seq a n) = Ok s' /\ I (a + n) s'.
Proof.
  induction n as [|n IH]; intros a s Hk Hs; cbn [seq foldM].
  - rewrite Nat.add_0_r. eauto.
  - destruct (Hk a s) as (s1 & E1 & H1); auto; [lia|]. rewrite E1. cbn [bind].
    destruct (IH (S a) s1) as (s2 & E2 & H2); auto.
    + intros i s0 Hi. apply Hk. lia.
    + exists s2. split; auto. replace (a + S n) with (S a + n) by lia. auto.
Qed.

Lemma foldM_range {A} (k : A -> nat -> res A) (I : nat -> A -> Prop) a b s : a <= b ->
  (forall i s, a <= i < b -> I i s -> exists s', k s i = Ok s' /\ I (S i) s') ->
  I a s -> exists s', foldM k s (range a b) = Ok s' /\ I b s'.
Proof.
  intros Hab Hk Hs. unfold range. destruct (foldM_seq k I (b - a) a s) as (s' & E & H); auto.
  - intros i s0 Hi. apply Hk. lia.
  - exists s'. replace (a + (b - a)) with b in H by lia. auto.
Qed.

Lemma foldM_all {A B} (k : A -> B -> res A) (I : A -> Prop) l s :
  (forall b s, In b l -> I s -> exists s', k s b = Ok s' /\ I s') -> I s -> exists s', foldM k s l = Ok s' /\ I s'.
Proof.
  intros Hk Hs. destruct (foldM_pre k (fun _ => I) l [] s) as (s' & E & H); eauto.
  intros d b rest s0 Hd. cbn in Hd. subst l. apply Hk. apply in_or_app. right. left. auto.
Qed.

Lemma range_in a b x : In x (range a b) <-> a <= x < b.
Proof. unfold range. rewrite in_seq. lia. Qed.
Lemma range_nodup a b : NoDup (range a b).
Proof. apply seq_NoDup. Qed.
Lemma range_length a b : List.length (range a b) = b - a.
Proof. apply seq_length. Qed.
Lemma seq_sorted n : forall a, StronglySorted lt (seq a n).
Proof.
  induction n as [|n IH]; intros a; cbn; constructor; auto.
  rewrite Forall_forall. intros x Hx. apply in_seq in Hx. lia.
Qed.
Lemma range_sorted a b : StronglySorted lt (range a b).
Proof. apply seq_sorted. Qed.

(** ** random choices *)
Lemma gen_index_lt n r : 0 < n -> fst (gen_index n r) < n.
Proof. intros Hn. cbn. pose proof (N.mod_lt (r 0) (N.of_nat n)). lia. Qed.

Lemma swap_perm {A} i j (l : list A) : Permutation (swap i j l) l.
Proof.
  unfold swap. destruct (nth_error l i) as [x|] eqn:Ei; [|auto]. destruct (nth_error l j) as [y|] eqn:Ej; [|auto].
  assert (Li : i < List.length l) by (apply nth_error_Some; congruence).
  assert (Lj : j < List.length l) by (apply nth_error_Some; congruence).
  apply Permutation_sym. apply (Permutation_nth_error l). rewrite !update_length. split; auto.
  exists (fun k => if k =? i then j else if k =? j then i else k). split.
  - intros a b. destruct (Nat.eqb_spec a i), (Nat.eqb_spec b i), (Nat.eqb_spec a j), (Nat.eqb_spec b j); subst; intros; subst; auto; try congruence.
  - intros k. rewrite nth_error_update, update_length. destruct (Nat.eqb_spec i k) as [->|Hk].
    + rewrite Nat.eqb_refl. destruct (Nat.ltb_spec k (List.length l)); [|lia]. cbn. auto.
    + cbn. rewrite nth_error_update. destruct (Nat.eqb_spec k i); [congruence|]. destruct (Nat.eqb_spec j k) as [->|Hk'].
      * rewrite Nat.eqb_refl. destruct (Nat.ltb_spec k (List.length l)); [|lia]. cbn. auto.
      * cbn. destruct (Nat.eqb_spec k j); [congruence|]. auto.
Qed.

Lemma shuffle_from_perm {A} i : forall (l : list A) r, Permutation (fst (shuffle_from i l r)) l.
Proof.
  induction i as [|i IH]; intros l r; [cbn; auto|]. cbn [shuffle_from]. destruct (gen_index (S (S i)) r) as [j r'].
  rewrite IH. apply swap_perm.
Qed.
Lemma shuffle_perm {A} (l : list A) r : Permutation (fst (shuffle l r)) l.
Proof. apply shuffle_from_perm. Qed.

Lemma choose_some {A} (l : list A) r x r' : choose l r = (Some x, r') -> In x l.
Proof.
  unfold choose. destruct l as [|a l]; [discriminate|]. cbn [gen_index]. intros H. injection H as H _.
  apply nth_error_In in H. auto.
Qed.
Lemma choose_none {A} (l : list A) r r' : choose l r = (None, r') -> l = [].
Proof.
  unfold choose. destruct l as [|a l]; auto. destruct (gen_index (List.length (a :: l)) r) as [i s] eqn:E. intros H. injection H as H _.
  apply nth_error_None in H. pose proof (gen_index_lt (List.length (a :: l)) r) as Hi. rewrite E in Hi. cbn [fst] in Hi.
  cbn [List.length] in *. lia.
Qed.

Lemma pick_weighted_some {A} (w : A -> nat) l : forall v, v < list_sum (map w l) ->
  exists x, pick_weighted w l v = Some x /\ In x l /\ 0 < w x.
Proof.
  induction l as [|a l IH]; intros v Hv; [cbn in Hv; lia|]. cbn [map] in Hv. change (list_sum (w a :: map w l)) with (w a + list_sum (map w l)) in Hv.
  cbn [pick_weighted]. destruct (Nat.ltb_spec v (w a)).
  - exists a. split; [auto|]. split; [left; auto|lia].
  - destruct (IH (v - w a)) as (x & E & Hx & Hw); [lia|]. exists x. split; auto. split; [right; auto|auto].
Qed.
Lemma choose_weighted_some {A} (w : A -> nat) l r : 0 < list_sum (map w l) ->
  exists x r', choose_weighted w l r = (Some x, r') /\ In x l /\ 0 < w x.
Proof.
  intros H. unfold choose_weighted. destruct (Nat.eqb_spec (list_sum (map w l)) 0); [lia|].
  pose proof (gen_index_lt (list_sum (map w l)) r H) as Hi. destruct (gen_index (list_sum (map w l)) r) as [v r']. cbn [fst] in Hi.
  destruct (pick_weighted_some w l v Hi) as (x & E & Hx). rewrite E. eauto.
Qed.
Lemma choose_weighted_none {A} (w : A -> nat) l r : (forall x, In x l -> w x = 0) -> fst (choose_weighted w l r) = None.
Proof.
  intros H. unfold choose_weighted. replace (list_sum (map w l)) with 0; [auto|].
  induction l as [|a l IH]; auto. cbn [map]. change (0 = w a + list_sum (map w l)). rewrite (H a); [|left; auto].
  rewrite <- IH; auto. intros. apply H. right. auto.
Qed.

(** ** basic facts about graphs *)
Lemma link_links g i j : link g i j <-> In j (links g i).
Proof.
  unfold link, links. split.
  - intros (l & E & H). apply (nth_error_nth _ _ []) in E. rewrite E. auto.
  - intros H. destruct (nth_error g i) as [l|] eqn:E.
    + exists l. split; auto. apply (nth_error_nth _ _ []) in E. rewrite E in H. auto.
    + apply nth_error_None in E. rewrite nth_overflow in H; auto. destruct H.
Qed.
Lemma link_lt g i j : link g i j -> i < List.length g.
Proof. intros (l & E & _). apply nth_error_Some. congruence. Qed.

Lemma set_at_ok {A} i (x : A) l : i < List.length l -> set_at i x l = Ok (update i x l).
Proof. intros H. unfold set_at. apply Nat.ltb_lt in H. rewrite H. auto. Qed.
Lemma nth_update {A} i j (x d : A) l : nth j (update i x l) d = if (j =? i) && (j <? List.length l) then x else nth j l d.
Proof.
  pose proof (nth_error_update i j x l) as H. destruct (nth_error (update i x l) j) as [y|] eqn:E.
  - apply (nth_error_nth _ _ d) in E. rewrite E. destruct ((j =? i) && (j <? List.length l)); [congruence|].
    symmetry in H. apply (nth_error_nth _ _ d) in H. auto.
  - apply nth_error_None in E. rewrite nth_overflow; auto. rewrite update_length in E.
    destruct (Nat.ltb_spec j (List.length l)); [lia|]. rewrite andb_false_r. rewrite nth_overflow; auto.
Qed.
Lemma nth_error_some_nth {A} (l : list A) i d : i < List.length l -> nth_error l i = Some (nth i l d).
Proof. intros H. destruct (nth_error l i) eqn:E; [|apply nth_error_None in E; lia]. apply (nth_error_nth _ _ d) in E. congruence. Qed.
Lemma nth_map_range {A} (h : nat -> A) n i d : i < n -> nth i (map h (range 0 n)) d = h i.
Proof.
  intros H. apply nth_error_nth. erewrite map_nth_error; [reflexivity|]. unfold range. rewrite Nat.sub_0_r.
  rewrite (nth_error_some_nth _ i 0); [|rewrite seq_length; auto]. rewrite seq_nth; auto.
Qed.
Lemma no_repeated_nth g : no_repeated_links g <-> forall i, NoDup (links g i).
Proof.
  unfold no_repeated_links. rewrite Forall_forall. split.
  - intros H i. unfold links. destruct (nth_in_or_default i g []) as [Hi| ->]; auto. constructor.
  - intros H l Hl. apply In_nth_error in Hl. destruct Hl as [i Hi]. apply (nth_error_nth _ _ []) in Hi. rewrite <- Hi. apply H.
Qed.

(** ** [is_undirected] *)
Lemma all_checked_spec {A} (p : A -> res bool) l : (forall x, In x l -> p x <> Panic) ->
  exists b, all_checked p l = Ok b /\ (b = true <-> forall x, In x l -> p x = Ok true).
Proof.
  induction l as [|a l IH]; intros H.
  - exists true. split; auto. split; auto. intros _ x [].
  - cbn [all_checked]. destruct (p a) as [b|] eqn:Ea; [|exfalso; apply (H a); [left; auto|auto]]. cbn [bind].
    destruct b.
    + destruct IH as (b & E & Hb); [intros; apply H; right; auto|]. exists b. split; auto. rewrite Hb. split.
      * intros H1 x [<-|Hx]; auto.
      * intros H1 x Hx. apply H1. right. auto.
    + exists false. split; auto. split; [discriminate|]. intros H1. rewrite H1 in Ea; [discriminate|left; auto].
Qed.

Lemma enumerate_in {A} (l : list A) i x : In (i, x) (enumerate l) <-> nth_error l i = Some x.
Proof.
  unfold enumerate.
  assert (G : forall a, In (a + i, x) (combine (seq a (List.length l)) l) <-> nth_error l i = Some x).
  { revert i. induction l as [|b l IH]; intros i a.
    - cbn. destruct i; cbn; (split; [intros []|discriminate]).
    - cbn [List.length seq combine]. cbn [In]. destruct i as [|i]; cbn [nth_error].
      + split.
        * intros [H|H]; [congruence|]. exfalso. apply in_combine_l in H. apply in_seq in H. lia.
        * intros H. left. f_equal; [lia|congruence].
      + rewrite <- (IH i (S a)). replace (S a + i) with (a + S i) by lia. split; auto.
        intros [H|H]; auto. exfalso. assert (a = a + S i) by congruence. lia. }
  apply (G 0).
Qed.

Lemma is_undirected_spec g : wf_graph g -> exists b, is_undirected g = Ok b /\ (b = true <-> undirected g).
Proof.
  intros Hwf. unfold is_undirected.
  assert (Hin : forall i l, In (i, l) (enumerate g) -> exists b,
    all_checked (fun j => cons_j <- unwrap (nth_error g j) ;; Ok (existsb (Nat.eqb i) cons_j)) l = Ok b /\
    (b = true <-> forall j, In j l -> link g j i)).
  { intros i l Hi. apply enumerate_in in Hi.
    destruct (all_checked_spec (fun j => cons_j <- unwrap (nth_error g j) ;; Ok (existsb (Nat.eqb i) cons_j)) l) as (b & E & Hb).
    - intros j Hj. assert (Hl : link g i j) by (exists l; auto). apply Hwf in Hl. rewrite (nth_error_some_nth g j []); auto. cbn. discriminate.
    - exists b. split; auto. rewrite Hb. clear E Hb b.
      assert (Q : forall j, In j l -> (cons_j <- unwrap (nth_error g j) ;; Ok (existsb (Nat.eqb i) cons_j)) = Ok true <-> link g j i).
      { intros j Hj. assert (Hl : link g i j) by (exists l; auto). apply Hwf in Hl. unfold link.
        rewrite (nth_error_some_nth g j []); auto. cbn [unwrap bind]. split.
        - intros H. assert (H' : existsb (Nat.eqb i) (nth j g []) = true) by congruence. apply existsb_exists in H'.
          destruct H' as (x & Hx & Ex). apply Nat.eqb_eq in Ex. subst x. eauto.
        - intros (l' & El & Hx). f_equal. apply existsb_exists. exists i. split; [|apply Nat.eqb_refl]. congruence. }
      split; intros H j Hj; apply Q; auto. }
  destruct (all_checked_spec (fun '(i, cons_i) =>
                 all_checked (fun j => cons_j <- unwrap (nth_error g j) ;; Ok (existsb (Nat.eqb i) cons_j)) cons_i) (enumerate g)) as (b & E & Hb).
  - intros [i l] Hi. destruct (Hin i l Hi) as (b & -> & _). discriminate.
  - exists b. split; auto. rewrite Hb. split.
    + intros H i j (l & El & Hj). assert (Hi : In (i, l) (enumerate g)) by (apply enumerate_in; auto).
      specialize (H _ Hi). cbn in H. destruct (Hin i l Hi) as (b' & E' & Hb'). rewrite E' in H. apply Hb'; [congruence|auto].
    + intros H [i l] Hi. destruct (Hin i l Hi) as (b' & E' & Hb'). rewrite E'. f_equal. apply Hb'. intros j Hj. apply H.
      apply enumerate_in in Hi. exists l. auto.
Qed.
