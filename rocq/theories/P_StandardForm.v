(** Lemmas about [to_standard_form]. *)
From Coq Require Import Ascii ZArith.
From Verif Require Export P_IO P_Transfer.
Local Open Scope list_scope.

Lemma nth_error_ext' {A} (l l' : list A) : (forall i, nth_error l i = nth_error l' i) -> l = l'.
Proof.
  revert l'. induction l as [|a l IH]; intros [|b l'] H; auto.
  - specialize (H 0). discriminate.
  - specialize (H 0). discriminate.
  - assert (H0 := H 0). cbn in H0. inversion H0. f_equal. apply IH. intro i. apply (H (S i)).
Qed.

Lemma NoDup_map_in {A B} (k : A -> B) l : (forall x y, In x l -> In y l -> k x = k y -> x = y) -> NoDup l -> NoDup (map k l).
Proof.
  intros H Hn. induction Hn as [|a l Ha Hn IH]; cbn; constructor.
  - intro Hin. apply in_map_iff in Hin. destruct Hin as (b & E & Hb). assert (b = a) by (apply H; auto; [right|left]; auto). subst b. auto.
  - apply IH. intros; apply H; auto; right; auto.
Qed.

(** ** sorting by a key *)
Lemma map_sort {A B} (k : A -> B) (c : B -> B -> comparison) l : map k (sort_by (fun a b => c (k a) (k b)) l) = sort_by c (map k l).
Proof.
  assert (Hins : forall x l, map k (insert_by (fun a b => c (k a) (k b)) x l) = insert_by c (k x) (map k l)).
  { clear. intros x l. induction l as [|y l IH]; cbn; auto. destruct (c (k x) (k y)); cbn; auto. rewrite IH. auto. }
  induction l as [|a l IH]; cbn; auto. unfold sort_by in IH. rewrite <- IH. apply Hins.
Qed.
Lemma sort_by_ext {A} (c c' : A -> A -> comparison) l : (forall a b, c a b = c' a b) -> sort_by c l = sort_by c' l.
Proof.
  intro H. induction l as [|a l IH]; cbn; auto. unfold sort_by in IH. rewrite IH.
  generalize (fold_right (insert_by c') [] l). intro r. induction r as [|b r IHr]; cbn; auto. rewrite H. destruct (c' a b); auto. rewrite IHr. auto.
Qed.
Lemma map_sort_key {A B C} (h : A -> B) (ka : A -> C) (kb : B -> C) (c : C -> C -> comparison) l : (forall a, kb (h a) = ka a) ->
  map h (sort_by (fun a b => c (ka a) (ka b)) l) = sort_by (fun a b => c (kb a) (kb b)) (map h l).
Proof.
  intro H. rewrite <- (map_sort h (fun a b => c (kb a) (kb b))). f_equal. apply sort_by_ext. intros. rewrite !H. auto.
Qed.
Lemma keyed_sort_perm {A} (k : A -> string) l l' : NoDup (map k l) -> Permutation l l' ->
  sort_by (fun a b => string_compare (k a) (k b)) l = sort_by (fun a b => string_compare (k a) (k b)) l'.
Proof.
  intros Hn Hp.
  assert (Hs : forall l, NoDup (map k l) -> StronglySorted (fun a b => string_compare (k a) (k b) = Lt) (sort_by (fun a b => string_compare (k a) (k b)) l)).
  { clear. intros l Hn.
    assert (Hn' : NoDup (map k (sort_by (fun a b => string_compare (k a) (k b)) l))).
    { rewrite map_sort. apply (Permutation_NoDup (l := map k l)); auto. symmetry. apply sort_by_perm. }
    assert (Hs : StronglySorted (fun a b => string_compare a b <> Gt) (map k (sort_by (fun a b => string_compare (k a) (k b)) l))).
    { rewrite map_sort. apply cmp_sort_sorted, string_cmp_ok. }
    revert Hn' Hs. generalize (sort_by (fun a b => string_compare (k a) (k b)) l). clear. intros r Hn Hs.
    induction r as [|a r IH]; constructor; inversion Hn; inversion Hs; subst; auto.
    rewrite Forall_forall in *. intros b Hb. destruct (string_compare (k a) (k b)) eqn:E; auto.
    - apply (cmp_eq _ string_cmp_ok) in E. exfalso. match goal with H : ~ In _ _ |- _ => apply H end. rewrite E. apply in_map; auto.
    - exfalso. match goal with H : forall x, In x (map k r) -> _ |- _ => apply (H (k b)); auto end. apply in_map; auto. }
  eapply (sorted_perm_eq (fun a b => string_compare (k a) (k b) = Lt)).
  - intros x y Hx Hy. assert (Hf := cmp_trans _ string_cmp_ok _ _ _ Hx Hy). rewrite (proj2 (cmp_eq _ string_cmp_ok _ _)) in Hf; auto. discriminate.
  - apply Hs; auto.
  - apply Hs. apply (Permutation_NoDup (l := map k l)); auto. apply Permutation_map; auto.
  - transitivity l; [apply sort_by_perm|]. transitivity l'; auto. symmetry. apply sort_by_perm.
Qed.

(** ** the nodes that are kept *)
Definition pk_of (f : fbas) (x : nat) : public_key := match nth_error (nodes f) x with Some n => node_pk n | None => EmptyString end.
Lemma has_key_pk f x pk : has_key f x pk <-> x < number_of_nodes f /\ pk = pk_of f x.
Proof.
  unfold has_key, pk_of. destruct (nth_error (nodes f) x) as [n|] eqn:E; cbn.
  - assert (x < number_of_nodes f) by (apply nth_error_Some; congruence). split; [intro H0; inversion H0; auto|intros [_ ->]; auto].
  - split; [discriminate|]. intros [H _]. apply nth_error_Some in H. congruence.
Qed.
Lemma pk_of_inj f x y : distinct_keys f -> x < number_of_nodes f -> y < number_of_nodes f -> pk_of f x = pk_of f y -> x = y.
Proof.
  intros Hd Hx Hy E. apply (key_unique f x y (pk_of f x) Hd); apply has_key_pk; auto.
Qed.

Section Kept.
Variable f : fbas.
Variable K : bset.
Hypothesis HK : incl_set K (all_nodes f).
Notation m := (shrink_map (sm_new K)).
Notation g := (shrunken_fbas K f).

Lemma kept_range x : In x (elements K) -> x < number_of_nodes f.
Proof. intro H. apply mem_all_nodes, HK. apply elements_spec; auto. Qed.

Lemma shrunken_nodes_map : nodes g = map (fun x => mk_node (pk_of f x) (qset_shrunken m (qset_of f x))) (elements K).
Proof.
  apply nth_error_ext'. intro i. rewrite shrunken_node, nth_error_map. destruct (nth_error (elements K) i) as [x|] eqn:E; cbn; auto.
  assert (Hx := kept_range x (nth_error_In _ _ E)). unfold pk_of, qset_of. apply nth_error_Some in Hx. destruct (nth_error (nodes f) x); [auto|congruence].
Qed.
Lemma shrunken_pk i x : nth_error (elements K) i = Some x -> key_or_missing g i = pk_of f x.
Proof.
  intro H. unfold key_or_missing. rewrite shrunken_nodes_map, nth_error_map, H. auto.
Qed.

Definition raw_kept (x : nat) : raw_node := mk_raw_node (pk_of f x) (qset_to_raw (qset_shrunken m (qset_of f x)) g) None None.
Lemma raw_shrunken : fbas_to_raw g = map raw_kept (elements K).
Proof. unfold fbas_to_raw. rewrite shrunken_nodes_map, map_map. auto. Qed.
Lemma shrunken_keys : map node_pk (nodes g) = map (pk_of f) (elements K).
Proof. rewrite shrunken_nodes_map, map_map. auto. Qed.
Lemma shrunken_distinct : distinct_keys f -> distinct_keys g.
Proof.
  intro Hd. unfold distinct_keys. rewrite shrunken_keys. apply NoDup_map_in.
  - intros x y Hx Hy. apply pk_of_inj; auto; apply kept_range; auto.
  - apply elements_nodup.
Qed.
End Kept.

(** ** relevant nodes of renumbered FBASs *)
Section Relevant.
Variable p : nat -> nat.
Variables f h : fbas.
Hypothesis Hf : wf_fbas f.
Hypothesis Hr : renumbering p f h.

Lemma renamed_mentions_fwd q : forall q' y, renamed p q q' -> mentions y q -> mentions (p y) q'.
Proof.
  induction q as [t vs is_ IH] using qset_ind'. intros q' y Hren Hy. inversion Hren as [? ? vs' ? is1 is' Pv Fi Pi]; subst.
  apply mentions_inv in Hy. destruct Hy as [Hy|(i & Hi & Hy)].
  - constructor. apply (Permutation_in _ Pv). apply in_map; auto.
  - destruct (Forall2_in_l _ _ _ i Fi Hi) as (i1 & Hi1 & Hren1). apply mentions_inner with i1; [apply (Permutation_in _ Pi); auto|]. eapply IH; eauto.
Qed.
Lemma trusts_image x y : trusts f x y -> trusts h (p x) (p y).
Proof.
  intros (q & Hq & Hy). destruct Hr as (_ & _ & _ & H). destruct (H x q Hq) as (q' & Hq' & Hren). exists q'. split; auto. eapply renamed_mentions_fwd; eauto.
Qed.
Lemma trusts_preimage x y' : x < number_of_nodes f -> trusts h (p x) y' -> exists y, trusts f x y /\ y' = p y.
Proof.
  intros Hx (q' & Hq' & Hy). destruct Hr as (_ & _ & _ & H). assert (Hn := qset_of_node f x Hx). destruct (H x _ Hn) as (q1 & Hq1 & Hren).
  assert (q1 = q') by (eapply node_of_fun; eauto). subst q1. destruct (renamed_mentions p _ q' y' Hren Hy) as (y & Hy' & ->).
  exists y. split; auto. exists (qset_of f x). auto.
Qed.
Lemma trans_image x y : trusts_transitively f x y -> trusts_transitively h (p x) (p y).
Proof. induction 1; [apply rt_step, trusts_image; auto|apply rt_refl|eapply rt_trans; eauto]. Qed.
Lemma trans_preimage x y : x < number_of_nodes f -> y < number_of_nodes f -> trusts_transitively h (p x) (p y) -> trusts_transitively f x y.
Proof.
  intros Hx Hy H. unfold trusts_transitively in *. apply clos_rt_rt1n in H. remember (p x) as x' eqn:Ex. remember (p y) as y' eqn:Ey.
  revert x Hx Ex. induction H as [x'|x' z' y' Hs H IH]; intros x Hx Ex.
  - assert (x = y) by (apply Hr; auto; congruence). subst. apply rt_refl.
  - subst x'. destruct (trusts_preimage x z' Hx Hs) as (z & Hz & ->). apply rt_trans with z; [apply rt_step; auto|]. apply IH; auto.
    destruct Hz as (q & Hq & Hm). eapply Hf; eauto.
Qed.
Lemma relevant_image x : x < number_of_nodes f -> (relevant f x <-> relevant h (p x)).
Proof.
  intro Hx. split.
  - intros [(Q & HQ & Hxq) (R & HR & Hl)]. split.
    + exists (image p Q). split; [apply (quorum_image p f h Hf Hr); auto; apply quorum_nodes; auto|]. apply mem_image; eauto.
    + exists (image p R). split; [apply (quorum_image p f h Hf Hr); auto; apply quorum_nodes; auto|]. intros y' Hy. apply mem_image in Hy.
      destruct Hy as (y & Hy & ->). destruct (Hl y Hy). split; apply trans_image; auto.
  - intros [(Q' & HQ & Hxq) (R' & HR & Hl)].
    destruct (quorum_from_image p f h Hf Hr Q' HQ) as (Q & HwQ & -> & HfQ). destruct (quorum_from_image p f h Hf Hr R' HR) as (R & HwR & -> & HfR). split.
    + exists Q. split; auto. rewrite (mem_image_p p f h Hr) in Hxq; auto.
    + exists R. split; auto. intros y Hy. assert (Hyl : y < number_of_nodes f) by (apply mem_all_nodes; auto).
      destruct (Hl (p y)) as [H1 H2]; [apply mem_image; eauto|]. split; apply trans_preimage; auto.
Qed.
End Relevant.

Lemma shrunken_vs_keys f K vs : incl_set K (all_nodes f) ->
  map (key_or_missing (shrunken_fbas K f)) (filter_map (fun x => assoc Nat.eqb x (shrink_map (sm_new K))) vs) = map (pk_of f) (filter (fun x => mem x K) vs).
Proof.
  intro HK. induction vs as [|v vs IH]; cbn [filter_map filter map]; auto. destruct (assoc Nat.eqb v (shrink_map (sm_new K))) as [i|] eqn:E.
  - apply shrink_map_spec in E. assert (Hm : mem v K = true) by (apply elements_spec; eapply nth_error_In; eauto). rewrite Hm. cbn [map].
    rewrite IH, (shrunken_pk f K HK i v E). auto.
  - apply shrink_map_none in E. rewrite E. auto.
Qed.

Lemma filter_map_comp {A B} (g : B -> bool) (k : A -> B) l : filter g (map k l) = map k (filter (fun a => g (k a)) l).
Proof. induction l as [|a l IH]; cbn; auto. destruct (g (k a)); cbn; rewrite IH; auto. Qed.
Lemma filter_perm {A} (g : A -> bool) l l' : Permutation l l' -> Permutation (filter g l) (filter g l').
Proof. induction 1; cbn; auto; [destruct (g x); auto|destruct (g x), (g y); auto; constructor|etransitivity; eauto]. Qed.
Lemma forall2_len {A B} (R : A -> B -> Prop) l l' : Forall2 R l l' -> List.length l = List.length l'.
Proof. induction 1; cbn; auto. Qed.
Lemma sort_nil {A} (c : A -> A -> comparison) l : sort_by c l = [] <-> l = [].
Proof.
  split; [|intros ->; auto]. intro H. assert (P := sort_by_perm c l). rewrite H in P. apply Permutation_nil in P. auto.
Qed.

Section Canonical.
Variable p : nat -> nat.
Variables f h : fbas.
Variables K K' : bset.
Hypothesis Hf : wf_fbas f.
Hypothesis Hr : renumbering p f h.
Hypothesis HK : incl_set K (all_nodes f).
Hypothesis HK' : incl_set K' (all_nodes h).
Hypothesis Hkk : forall x, x < number_of_nodes f -> mem (p x) K' = mem x K.
Hypothesis Hpk : forall x, x < number_of_nodes f -> pk_of h (p x) = pk_of f x.
Notation m := (shrink_map (sm_new K)).
Notation m' := (shrink_map (sm_new K')).
Notation g := (shrunken_fbas K f).
Notation g' := (shrunken_fbas K' h).

Lemma vs_keys_perm vs vs' : (forall v, In v vs -> v < number_of_nodes f) -> Permutation (map p vs) vs' ->
  Permutation (map (pk_of f) (filter (fun x => mem x K) vs)) (map (pk_of h) (filter (fun x => mem x K') vs')).
Proof.
  intros Hv P. transitivity (map (pk_of h) (filter (fun x => mem x K') (map p vs))); [|apply Permutation_map, filter_perm; auto].
  rewrite filter_map_comp, map_map. clear P. induction vs as [|v vs IH]; cbn; auto.
  assert (Hl := Hv v (or_introl eq_refl)). rewrite Hkk by auto. destruct (mem v K); cbn; [rewrite Hpk by auto; constructor|]; apply IH; intros; apply Hv; right; auto.
Qed.

Lemma map_key_perm vs1 vs2 (k : nat -> public_key) : Permutation vs1 vs2 -> Permutation (map k vs1) (map k vs2).
Proof. apply Permutation_map. Qed.

Definition reread_as (q : qset) (G : fbas) (M : list (public_key * nat)) := qset_from_raw (qset_to_raw q G) M.

Lemma canonical_qset q : forall q', (forall x, mentions x q -> x < number_of_nodes f) -> renamed p q q' ->
  (qset_shrunken m q = qset_new <-> qset_shrunken m' q' = qset_new) /\
  forall M, reread_as (qset_shrunken m q) g M = reread_as (qset_shrunken m' q') g' M.
Proof.
  induction q as [t vs is_ IH] using qset_ind'. intros q' Hm Hren. inversion Hren as [? ? vs' ? is1 is' Pv Fi Pi]; subst.
  assert (Hv : Permutation (map (key_or_missing g) (filter_map (fun x => assoc Nat.eqb x m) vs)) (map (key_or_missing g') (filter_map (fun x => assoc Nat.eqb x m') vs'))).
  { rewrite !shrunken_vs_keys by auto. apply vs_keys_perm; auto. intros v Hin. apply Hm. constructor; auto. }
  assert (HF : Forall2 (fun i i' => (qset_shrunken m i = qset_new <-> qset_shrunken m' i' = qset_new) /\
                                    forall M, reread_as (qset_shrunken m i) g M = reread_as (qset_shrunken m' i') g' M) is_ is1).
  { assert (Hin : forall i, In i is_ -> forall i', renamed p i i' -> (qset_shrunken m i = qset_new <-> qset_shrunken m' i' = qset_new) /\
                                    forall M, reread_as (qset_shrunken m i) g M = reread_as (qset_shrunken m' i') g' M).
    { intros i Hi i' Hri. apply IH; auto. intros x Hx. apply Hm. eapply mentions_inner; eauto. }
    clear - Fi Hin. induction Fi as [|i i' l l' Hri Fi IHF]; constructor; [apply Hin; auto; left; auto|]. apply IHF. intros; apply Hin; auto. right; auto. }
  set (ne := fun i => negb (qset_eqb i qset_new)).
  assert (HE : Forall2 (fun i i' => forall M, reread_as i g M = reread_as i' g' M) (filter ne (map (qset_shrunken m) is_)) (filter ne (map (qset_shrunken m') is1))).
  { clear - HF. induction HF as [|i i' l l' [H1 H2] HF IH]; cbn [map filter]; [constructor|].
    assert (En : ne (qset_shrunken m i) = ne (qset_shrunken m' i')).
    { unfold ne. f_equal. apply eq_true_iff_eq. rewrite !qset_eqb_eq. auto. }
    rewrite En. destruct (ne (qset_shrunken m' i')); auto. }
  assert (HP : Permutation (filter ne (map (qset_shrunken m') is1)) (filter ne (map (qset_shrunken m') is'))).
  { apply filter_perm, Permutation_map; auto. }
  split.
  - cbn [qset_shrunken]. fold ne. unfold qset_new.
    assert (Hnil : forall T V I, QS T (sort_by Nat.compare V) (sort_by qset_compare I) = QS 0 [] [] <-> T = 0 /\ V = [] /\ I = []).
    { intros T V I. split.
      - intro H. injection H as H1 H2 H3. split; [exact H1|]. split; [exact (proj1 (sort_nil _ _) H2)|exact (proj1 (sort_nil _ _) H3)].
      - intros (-> & -> & ->). auto. }
    rewrite !Hnil.
    assert (E1 : filter_map (fun old_id => assoc Nat.eqb old_id m) vs = [] <-> filter_map (fun old_id => assoc Nat.eqb old_id m') vs' = []).
    { apply Permutation_length in Hv. rewrite !map_length in Hv. rewrite <- !length_zero_iff_nil. rewrite Hv. tauto. }
    assert (E2 : filter ne (map (qset_shrunken m) is_) = [] <-> filter ne (map (qset_shrunken m') is') = []).
    { rewrite <- !length_zero_iff_nil. rewrite <- (Permutation_length HP), (forall2_len _ _ _ HE). tauto. }
    rewrite E1, E2. tauto.
  - intro M. unfold reread_as. cbn [qset_shrunken qset_to_raw qset_from_raw]. fold ne. f_equal.
    + apply sort_by_perm_eq; [apply nat_cmp_ok|]. apply filter_map_perm.
      transitivity (map (key_or_missing g) (filter_map (fun x => assoc Nat.eqb x m) vs)); [apply Permutation_map, sort_by_perm|].
      etransitivity; [exact Hv|]. apply Permutation_map. symmetry. apply sort_by_perm.
    + apply sort_by_perm_eq; [apply qset_cmp_ok|]. rewrite !map_map.
      transitivity (map (fun i => reread_as i g M) (filter ne (map (qset_shrunken m) is_))); [apply Permutation_map, sort_by_perm|].
      assert (EM : map (fun i => reread_as i g M) (filter ne (map (qset_shrunken m) is_)) = map (fun i => reread_as i g' M) (filter ne (map (qset_shrunken m') is1))).
      { clear - HE. induction HE as [|i i' l l' H HE IH]; cbn; auto. rewrite H, IH. auto. }
      rewrite EM. transitivity (map (fun i => reread_as i g' M) (filter ne (map (qset_shrunken m') is'))); [apply Permutation_map; auto|].
      apply Permutation_map. symmetry. apply sort_by_perm.
Qed.

Lemma kept_perm : Permutation (map p (elements K)) (elements K').
Proof.
  apply NoDup_Permutation.
  - apply NoDup_map_in; [|apply elements_nodup]. intros x y Hx Hy. apply Hr; apply (kept_range f K); auto.
  - apply elements_nodup.
  - intro y. rewrite in_map_iff, elements_spec. split.
    + intros (x & <- & Hx). rewrite Hkk by (apply (kept_range f K); auto). apply elements_spec; auto.
    + intro Hy. assert (Hyl : y < number_of_nodes h) by (apply mem_all_nodes, HK'; auto). destruct Hr as (En & _). rewrite En in Hyl.
      destruct (p_onto p f h Hr y Hyl) as (x & Hx & <-). exists x. split; auto. apply elements_spec. rewrite <- Hkk; auto.
Qed.

Definition by_key (a b : raw_node) := string_compare (raw_public_key a) (raw_public_key b).
Lemma canonical_list : distinct_keys f -> fbas_from_raw (sort_by by_key (fbas_to_raw g)) = fbas_from_raw (sort_by by_key (fbas_to_raw g')).
Proof.
  intro Hd. rewrite (raw_shrunken f K HK), (raw_shrunken h K' HK').
  set (L := sort_by by_key (map (raw_kept f K) (elements K))). set (L' := sort_by by_key (map (raw_kept h K') (elements K'))).
  assert (Hkeys : Permutation (map (pk_of f) (elements K)) (map (pk_of h) (elements K'))).
  { transitivity (map (pk_of h) (map p (elements K))); [|apply Permutation_map, kept_perm]. rewrite map_map.
    assert (E : map (pk_of f) (elements K) = map (fun x => pk_of h (p x)) (elements K)); [|rewrite E; auto].
    apply map_ext_in. intros x Hx. rewrite Hpk; auto. apply (kept_range f K); auto. }
  assert (EK : map raw_public_key L = map raw_public_key L').
  { unfold L, L', by_key. rewrite !map_sort, !map_map. cbn [raw_kept raw_public_key]. apply sort_by_perm_eq; [apply string_cmp_ok|]. exact Hkeys. }
  assert (EM : key_map L = key_map L').
  { assert (G : forall l, key_map l = rev (combine (map raw_public_key l) (seq 0 (List.length (map raw_public_key l))))).
    { clear. intro l. unfold key_map, enumerate. f_equal. rewrite map_length. generalize 0. induction l as [|n l IH]; intro k; simpl; auto. f_equal. auto. }
    rewrite !G, EK. auto. }
  unfold fbas_from_raw. fold (key_map L) (key_map L'). rewrite EM. f_equal. generalize (key_map L'). intro M.
  unfold L, L', by_key.
  rewrite !(map_sort_key (node_from_raw M) raw_public_key node_pk string_compare) by auto. rewrite !map_map. apply keyed_sort_perm.
  - rewrite map_map. cbn [node_from_raw raw_kept raw_public_key node_pk].
    assert (Hdg := shrunken_distinct f K HK Hd). unfold distinct_keys in Hdg. rewrite (shrunken_keys f K HK) in Hdg. exact Hdg.
  - transitivity (map (fun x => node_from_raw M (raw_kept h K' x)) (map p (elements K))); [|apply Permutation_map, kept_perm]. rewrite map_map.
    assert (E : map (fun x => node_from_raw M (raw_kept f K x)) (elements K) = map (fun x => node_from_raw M (raw_kept h K' (p x))) (elements K)); [|rewrite E; auto].
    apply map_ext_in. intros x Hx. assert (Hl := kept_range f K HK x Hx). unfold node_from_raw, raw_kept. cbn [raw_public_key raw_quorum_set]. rewrite Hpk by auto. f_equal.
    assert (Hn := qset_of_node f x Hl). destruct Hr as (_ & _ & _ & H). destruct (H x _ Hn) as (q' & Hq' & Hren).
    rewrite (node_of_qset_of h (p x) q' Hq'). apply canonical_qset; auto. intros y Hy. eapply Hf; eauto.
Qed.
End Canonical.

(** ** the result *)
Lemma relevant_in E f : ext_ok E -> wf_fbas f -> incl_set (relevant_nodes E f) (all_nodes f).
Proof.
  intros HE Hwf x Hx. apply (mem_relevant_iff E f x HE Hwf) in Hx. destruct Hx as [(Q & HQ & Hx) _]. apply (quorum_nodes f Q HQ). auto.
Qed.
Definition standard (K : bset) (f : fbas) : fbas := fbas_from_raw (sort_by by_key (fbas_to_raw (shrunken_fbas K f))).
Lemma to_standard_form_eq E f : to_standard_form E f = Ok (standard (relevant_nodes E f) f).
Proof. unfold to_standard_form. rewrite shrunken_eq. auto. Qed.

Lemma standard_canonical E E' p f h : ext_ok E -> ext_ok E' -> wf_fbas f -> distinct_keys f -> renumbering p f h ->
  (forall x pk, has_key f x pk -> has_key h (p x) pk) -> to_standard_form E f = to_standard_form E' h.
Proof.
  intros HE HE' Hf Hd Hr Hk. assert (Hh := renumbering_wf p f h Hf Hr). rewrite !to_standard_form_eq. f_equal. unfold standard.
  apply (canonical_list p f h); auto.
  - apply relevant_in; auto.
  - apply relevant_in; auto.
  - intros x Hx. apply eq_true_iff_eq. rewrite !mem_relevant_iff by auto. symmetry. apply (relevant_image p f h); auto.
  - intros x Hx. symmetry. apply (has_key_pk h (p x)). apply Hk. apply has_key_pk. auto.
Qed.

Lemma reread_gen f M p q : (forall v, v < number_of_nodes f -> assoc String.eqb (key_or_missing f v) M = Some (p v)) ->
  (forall y, mentions y q -> y < number_of_nodes f) -> renamed p q (qset_from_raw (qset_to_raw q f) M).
Proof.
  intro Hp. induction q as [t vs is_ IH] using qset_ind'. intro Hm. cbn [qset_from_raw qset_to_raw].
  assert (E : filter_map (fun x => assoc String.eqb x M) (map (key_or_missing f) vs) = map p vs).
  { assert (Hv : forall y, In y vs -> y < number_of_nodes f) by (intros; apply Hm; constructor; auto). clear - Hp Hv.
    induction vs as [|v vs IH]; simpl; auto. rewrite Hp by (apply Hv; left; auto). f_equal. apply IH. intros; apply Hv; right; auto. }
  rewrite E, map_map. econstructor.
  - symmetry. apply sort_by_perm.
  - instantiate (1 := map (fun i => qset_from_raw (qset_to_raw i f) M) is_).
    assert (Hi : forall i, In i is_ -> renamed p i (qset_from_raw (qset_to_raw i f) M)).
    { intros i Hi. apply IH; auto. intros y Hy. apply Hm. eapply mentions_inner; eauto. }
    clear - Hi. induction is_ as [|i is_ IHl]; simpl; constructor; [apply Hi; left; auto|]. apply IHl. intros; apply Hi; right; auto.
  - symmetry. apply sort_by_perm.
Qed.

Definition index_in (l : list raw_node) (g : fbas) (x : nat) : nat := match assoc String.eqb (pk_of g x) (key_map l) with Some i => i | None => 0 end.
Lemma key_or_missing_pk g x : x < number_of_nodes g -> key_or_missing g x = pk_of g x.
Proof. intro H. unfold key_or_missing, pk_of. apply nth_error_Some in H. destruct (nth_error (nodes g) x); [auto|congruence]. Qed.

Lemma reordered g l : wf_fbas g -> distinct_keys g -> Permutation (fbas_to_raw g) l ->
  renumbering (index_in l g) g (fbas_from_raw l) /\
  (forall x, x < number_of_nodes g -> has_key (fbas_from_raw l) (index_in l g x) (pk_of g x)) /\ unique_keys l.
Proof.
  intros Hg Hd P.
  assert (Hkr : map raw_public_key (fbas_to_raw g) = map node_pk (nodes g)) by (unfold fbas_to_raw; rewrite map_map; auto).
  assert (Hu : unique_keys l).
  { unfold unique_keys. apply (Permutation_NoDup (l := map raw_public_key (fbas_to_raw g))); [apply Permutation_map; auto|]. rewrite Hkr. exact Hd. }
  assert (Hidx : forall x, x < number_of_nodes g -> assoc String.eqb (pk_of g x) (key_map l) = Some (index_in l g x) /\
                           option_map raw_public_key (nth_error l (index_in l g x)) = Some (pk_of g x)).
  { intros x Hx.
    assert (Hin : In (pk_of g x) (map raw_public_key l)).
    { apply (Permutation_in _ (Permutation_map raw_public_key P)). rewrite Hkr. assert (Hk : has_key g x (pk_of g x)) by (apply has_key_pk; auto).
      unfold has_key in Hk. destruct (nth_error (nodes g) x) as [n|] eqn:En; [|discriminate]. cbn in Hk. inversion Hk as [Hk'].
      apply in_map_iff. exists n. split; auto. eapply nth_error_In; eauto. }
    apply in_map_iff in Hin. destruct Hin as (n & En & Hn). apply In_nth_error in Hn. destruct Hn as (i & Hi).
    assert (Hl : last_with_key l (pk_of g x) i) by (apply unique_last; auto; rewrite Hi; cbn; congruence).
    apply key_map_spec in Hl. unfold index_in. rewrite Hl. split; auto. rewrite Hi. cbn. congruence. }
  assert (Hlen : number_of_nodes (fbas_from_raw l) = number_of_nodes g).
  { unfold number_of_nodes. cbn. rewrite map_length, <- (Permutation_length P). unfold fbas_to_raw. rewrite map_length. auto. }
  split; [|split]; auto.
  - split; auto. split; [|split].
    + intros x Hx. destruct (Hidx x Hx) as [H _]. apply key_map_range in H. unfold number_of_nodes in Hlen. cbn in Hlen. rewrite map_length in Hlen. unfold number_of_nodes. lia.
    + intros x y Hx Hy E. destruct (Hidx x Hx) as [_ H1]. destruct (Hidx y Hy) as [_ H2]. rewrite E in H1. apply (pk_of_inj g); auto. congruence.
    + intros x q (n & Hn & <-).
      assert (Hx : x < number_of_nodes g) by (apply nth_error_Some; congruence). destruct (Hidx x Hx) as [_ Hi].
      assert (Hin : In (node_to_raw g n) l). { apply (Permutation_in _ P). unfold fbas_to_raw. apply in_map. eapply nth_error_In; eauto. }
      destruct (nth_error l (index_in l g x)) as [r|] eqn:Er; [|discriminate]. cbn in Hi.
      assert (r = node_to_raw g n).
      { apply In_nth_error in Hin. destruct Hin as (j & Hj). assert (index_in l g x = j); [|congruence].
        eapply NoDup_nth_error; [exact Hu|rewrite map_length; apply nth_error_Some; congruence|]. rewrite !nth_error_map, Er, Hj. cbn.
        inversion Hi as [Hi']. rewrite Hi'. unfold pk_of. rewrite Hn. auto. }
      subst r. exists (qset_from_raw (qset_to_raw (node_qset n) g) (key_map l)). split.
      * exists (node_from_raw (key_map l) (node_to_raw g n)). split; auto. cbn. fold (key_map l). rewrite nth_error_map, Er. auto.
      * apply reread_gen.
        -- intros v Hv. rewrite key_or_missing_pk by auto. apply Hidx; auto.
        -- intros y Hy. apply (Hg x (node_qset n) y); auto. exists n; auto.
  - intros x Hx. destruct (Hidx x Hx) as [_ H]. unfold has_key. rewrite node_pk_from_raw. auto.
Qed.

Section Standard.
Variable E : ext.
Hypothesis HE : ext_ok E.
Variable f : fbas.
Hypothesis Hf : wf_fbas f.
Hypothesis Hd : distinct_keys f.
Notation K := (relevant_nodes E f).
Notation g := (shrunken_fbas K f).
Notation l := (sort_by by_key (fbas_to_raw g)).
Notation s := (standard K f).
Notation p := (index_in l g).
Notation table := (elements K).

Lemma HKf : incl_set K (all_nodes f). Proof. apply relevant_in; auto. Qed.
Lemma standard_reordered : renumbering p g s /\ (forall x, x < number_of_nodes g -> has_key s (p x) (pk_of g x)) /\ unique_keys l.
Proof.
  apply reordered; [apply shrunken_wf|apply shrunken_distinct; auto; apply HKf|]. symmetry. apply sort_by_perm.
Qed.
Lemma g_pk i x : nth_error table i = Some x -> pk_of g i = pk_of f x.
Proof.
  intro H. unfold pk_of at 1. rewrite (shrunken_nodes_map f K HKf), nth_error_map, H. auto.
Qed.
Lemma g_len : number_of_nodes g = List.length table. Proof. rewrite shrunken_nodes, len_elements. auto. Qed.
Lemma key_in_g i x : nth_error table i = Some x -> i < number_of_nodes g.
Proof. intro H. rewrite g_len. apply nth_error_Some. congruence. Qed.
Lemma key_in_s i x : nth_error table i = Some x -> has_key s (p i) (pk_of f x).
Proof. intro H. rewrite <- (g_pk i x H). apply standard_reordered. eapply key_in_g; eauto. Qed.

Lemma standard_distinct : distinct_keys s.
Proof. unfold distinct_keys, standard. rewrite fbas_from_raw_keys. apply standard_reordered. Qed.
Lemma standard_wf : wf_fbas s. Proof. apply from_raw_wf. Qed.

Lemma standard_keys : StronglySorted string_before (map node_pk (nodes s)) /\
  (forall pk, In pk (map node_pk (nodes s)) <-> exists x, relevant f x /\ has_key f x pk) /\ keys_ok s.
Proof.
  split; [|split].
  - unfold standard. rewrite fbas_from_raw_keys. unfold by_key. rewrite map_sort.
    apply strong_sorted_nodup_lt; [|apply cmp_sort_sorted, string_cmp_ok]. rewrite <- map_sort. apply standard_reordered.
  - intro pk. unfold standard. rewrite fbas_from_raw_keys. unfold by_key. rewrite map_sort.
    assert (Hp : forall x (l : list string), In x (sort_by string_compare l) <-> In x l) by (intros; apply sort_by_in).
    rewrite Hp, (raw_shrunken f K HKf), map_map, in_map_iff. cbn [raw_kept raw_public_key]. split.
    + intros (x & <- & Hx). exists x. assert (Hl := kept_range f K HKf x Hx). apply elements_spec in Hx. split.
      * apply (mem_relevant_iff E f x HE Hf); auto.
      * apply has_key_pk. auto.
    + intros (x & Hx & Hk). apply has_key_pk in Hk. exists x. split; [symmetry; tauto|]. apply elements_spec. apply mem_relevant_iff; auto.
  - apply from_raw_keys_ok. apply standard_reordered.
Qed.

(** corresponding sets *)
Lemma same_keys_up S : in_range table S -> same_keys f (up table S) s (image p S).
Proof.
  intros Hr pk. split.
  - intros (x & Hx & Hk). apply mem_up in Hx. destruct Hx as (i & Hi & Ei). exists (p i). split; [apply mem_image; eauto|].
    apply has_key_pk in Hk. destruct Hk as [_ ->]. apply key_in_s; auto.
  - intros (y & Hy & Hk). apply mem_image in Hy. destruct Hy as (i & Hi & ->). assert (Hl := Hr i Hi). apply nth_error_Some in Hl.
    destruct (nth_error table i) as [x|] eqn:Ei; [|congruence]. exists x. split; [apply mem_up; eauto|].
    assert (Hk' := key_in_s i x Ei). unfold has_key in Hk, Hk'. rewrite Hk in Hk'. inversion Hk'. apply has_key_pk. split; auto.
    apply (kept_range f K HKf). eapply nth_error_In; eauto.
Qed.
Lemma same_keys_fun S S1 S2 : incl_set S1 (all_nodes s) -> incl_set S2 (all_nodes s) -> same_keys f S s S1 -> same_keys f S s S2 -> S1 = S2.
Proof.
  assert (G : forall S1 S2, incl_set S1 (all_nodes s) -> same_keys f S s S1 -> same_keys f S s S2 -> incl_set S1 S2).
  { clear S1 S2. intros S1 S2 H1 E1 E2 y Hy. assert (Hk : has_key s y (pk_of s y)) by (apply has_key_pk; split; auto; apply mem_all_nodes; auto).
    destruct (proj2 (E1 (pk_of s y))) as (x & Hx & Hkx); [eauto|]. destruct (proj1 (E2 (pk_of s y))) as (z & Hz & Hkz); [eauto|].
    assert (y = z) by (exact (key_unique s y z (pk_of s y) standard_distinct Hk Hkz)). subst z. auto. }
  intros. apply incl_antisym; eauto.
Qed.
Lemma image_range S : in_range table S -> incl_set (image p S) (all_nodes s).
Proof.
  intro Hr. apply (image_within p g s (proj1 standard_reordered)). intros i Hi. apply mem_all_nodes. rewrite g_len. auto.
Qed.
Lemma in_range_within S : in_range table S <-> within g S.
Proof. unfold within, in_range. split; intros H i Hi; [apply mem_all_nodes; rewrite g_len; auto|rewrite <- g_len; apply mem_all_nodes; auto]. Qed.

Lemma standard_minimal_quorums :
  (forall Q', minimal_quorum s Q' -> exists Q, minimal_quorum f Q /\ same_keys f Q s Q') /\
  (forall Q, minimal_quorum f Q -> exists Q', minimal_quorum s Q' /\ same_keys f Q s Q').
Proof.
  assert (Hr := proj1 standard_reordered). assert (Hg : wf_fbas g) by apply shrunken_wf. split.
  - intros Q' HQ'. destruct (minimal_quorum_from_image p g s Hg Hr Q' HQ') as (Q & Hw & -> & HQ). apply in_range_within in Hw.
    exists (up table Q). split; [apply (minimal_quorum_shrunken K f); auto|]. apply same_keys_up; auto.
  - intros Q HQ. assert (Hi := relevant_covers E f HE Hf Q HQ).
    assert (Hu : up table (down table Q) = Q) by (apply up_down; intros x Hx; apply elements_spec; auto).
    assert (Hdr : in_range table (down table Q)) by (intros i Hin; eapply down_range; eauto).
    exists (image p (down table Q)). split.
    + apply (minimal_quorum_image p g s Hg Hr); [apply in_range_within; auto|]. apply (minimal_quorum_shrunken K f); auto. rewrite Hu. auto.
    + rewrite <- Hu at 1. apply same_keys_up; auto.
Qed.

Lemma standard_slices x y pk S S' q q' : relevant f x -> has_key f x pk -> has_key s y pk -> node_of f x q -> node_of s y q' ->
  (forall z, mem z S = true -> relevant f z) -> incl_set S' (all_nodes s) -> same_keys f S s S' ->
  (slice (fun z => mem z S = true) q <-> slice (fun z => mem z S' = true) q').
Proof.
  intros Hx Hkx Hky Hq Hq' HS HS' Hsk. assert (Hr := proj1 standard_reordered). assert (Hg : wf_fbas g) by apply shrunken_wf.
  assert (HSK : incl_set S K) by (intros z Hz; apply mem_relevant_iff; auto).
  assert (Hu : up table (down table S) = S) by (apply up_down; intros z Hz; apply elements_spec; auto).
  assert (Hdr : in_range table (down table S)) by (intros i Hin; eapply down_range; eauto).
  assert (ES : S' = image p (down table S)).
  { eapply (same_keys_fun S); auto; [apply image_range; auto|]. rewrite <- Hu at 1. apply same_keys_up; auto. }
  apply mem_relevant_iff with (E := E) in Hx; auto. apply elements_spec, In_nth_error in Hx. destruct Hx as (i & Hi).
  assert (Ey : y = p i).
  { eapply key_unique; [apply standard_distinct|exact Hky|]. apply has_key_pk in Hkx. destruct Hkx as [_ ->]. apply key_in_s; auto. }
  subst y S'. assert (Hil := key_in_g i x Hi). assert (Hn := qset_of_node g i Hil).
  destruct (proj2 (proj2 (proj2 Hr)) i _ Hn) as (q1 & Hq1 & Hren). assert (q1 = q') by (eapply node_of_fun; eauto). subst q1.
  rewrite <- !is_quorum_slice_iff. rewrite <- Hu at 1.
  assert (E1 : is_quorum_slice q' (image p (down table S)) = is_quorum_slice q (up table (down table S))).
  { rewrite (renamed_slice p g s Hr (qset_of g i) q' (down table S)); auto.
    - rewrite shrunken_qset, Hi. rewrite (node_of_qset_of f x q Hq). apply qset_shrunken_slice.
    - intros z Hz. eapply Hg; eauto.
    - apply in_range_within; auto. }
  rewrite E1. tauto.
Qed.
End Standard.

(** ** applying it twice *)
Inductive tidy : qset -> Prop :=
| tidy_intro t vs is_ : StronglySorted le vs -> StronglySorted (fun a b => qset_compare a b <> Gt) is_ ->
    (forall i, In i is_ -> i <> qset_new) -> (forall i, In i is_ -> tidy i) -> tidy (QS t vs is_).
Inductive no_empty : qset -> Prop :=
| no_empty_intro t vs is_ : (forall i, In i is_ -> i <> qset_new) -> (forall i, In i is_ -> no_empty i) -> no_empty (QS t vs is_).

Lemma shrunken_no_empty m q : no_empty (qset_shrunken m q).
Proof.
  induction q as [t vs is_ IH] using qset_ind'. cbn [qset_shrunken]. constructor; intros i Hi; apply sort_by_in, filter_In in Hi; destruct Hi as [Hi Hn].
  - intros ->. rewrite (proj2 (qset_eqb_eq qset_new qset_new)) in Hn by auto. discriminate.
  - apply in_map_iff in Hi. destruct Hi as (j & <- & Hj). auto.
Qed.
Lemma renamed_new p q q' : renamed p q q' -> q' = qset_new -> q = qset_new.
Proof.
  unfold qset_new. intros H ->. inversion H as [t vs vs' is_ is1 is' Pv Fi Pi]; subst.
  apply Permutation_sym, Permutation_nil in Pv, Pi. apply map_eq_nil in Pv. subst. inversion Fi; subst. auto.
Qed.
Lemma renamed_no_empty p q : forall q', renamed p q q' -> no_empty q -> no_empty q'.
Proof.
  induction q as [t vs is_ IH] using qset_ind'. intros q' H Hn. inversion H as [? ? vs' ? is1 is' Pv Fi Pi]; subst. inversion Hn as [? ? ? H1 H2]; subst.
  constructor; intros i Hi; apply (Permutation_in _ (Permutation_sym Pi)) in Hi; destruct (Forall2_in_r _ _ _ i Fi Hi) as (j & Hj & Hren).
  - intro E. apply (H1 j Hj). eapply renamed_new; eauto.
  - eapply IH; eauto.
Qed.
Lemma from_raw_tidy M q : no_empty (qset_from_raw q M) -> tidy (qset_from_raw q M).
Proof.
  induction q as [t vs is_ IH] using raw_qset_ind'. cbn [qset_from_raw]. intro H. inversion H as [? ? ? H1 H2]; subst. constructor; auto.
  - apply nat_sort_sorted.
  - apply cmp_sort_sorted, qset_cmp_ok.
  - intros i Hi. specialize (H2 i Hi). apply sort_by_in, in_map_iff in Hi. destruct Hi as (j & <- & Hj). auto.
Qed.
Lemma tidy_shrunken m q : tidy q -> (forall y, mentions y q -> assoc Nat.eqb y m = Some y) -> qset_shrunken m q = q.
Proof.
  induction q as [t vs is_ IH] using qset_ind'. intros Ht Hm. inversion Ht as [? ? ? Hv Hs Hn Hi]; subst. cbn [qset_shrunken]. f_equal.
  - assert (E : filter_map (fun old_id => assoc Nat.eqb old_id m) vs = vs).
    { assert (Hv' : forall v, In v vs -> assoc Nat.eqb v m = Some v) by (intros; apply Hm; constructor; auto). clear - Hv'.
      induction vs as [|v vs IH]; cbn; auto. rewrite Hv' by (left; auto). f_equal. apply IH. intros; apply Hv'; right; auto. }
    rewrite E. apply nat_sorted_id; auto.
  - assert (E : map (qset_shrunken m) is_ = is_).
    { rewrite <- (map_id is_) at 2. apply map_ext_in. intros i Hin. apply IH; auto. intros y Hy. apply Hm. eapply mentions_inner; eauto. }
    rewrite E. assert (E2 : filter (fun i => negb (qset_eqb i qset_new)) is_ = is_).
    { clear - Hn. induction is_ as [|i is_ IH]; cbn; auto. destruct (qset_eqb i qset_new) eqn:Ei.
      - apply qset_eqb_eq in Ei. destruct (Hn i); auto. left; auto.
      - cbn. f_equal. apply IH. intros; apply Hn; right; auto. }
    rewrite E2. apply sort_by_id; auto. apply qset_cmp_ok.
Qed.
Lemma sort_sorted {A} (c : A -> A -> comparison) l : StronglySorted (fun a b => c a b <> Gt) l -> sort_by c l = l.
Proof.
  induction 1 as [|a l Hl IH Ha]; cbn; auto. unfold sort_by in IH. rewrite IH. destruct Ha as [|b l Hb Ha]; cbn; auto. destruct (c a b); congruence.
Qed.
Lemma fbas_to_raw_nodes f g : nodes f = nodes g -> fbas_to_raw f = fbas_to_raw g.
Proof.
  intro E. unfold fbas_to_raw. rewrite E. apply map_ext. intro n. unfold node_to_raw. f_equal.
  induction (node_qset n) as [t vs is_ IH] using qset_ind'. cbn [qset_to_raw]. f_equal.
  - apply map_ext. intro v. unfold key_or_missing. rewrite E. auto.
  - apply map_ext_in. auto.
Qed.

Lemma elements_all f : elements (all_nodes f) = seq 0 (number_of_nodes f).
Proof.
  apply (sorted_perm_eq lt); [lia|apply elements_sorted| |].
  - generalize 0 (number_of_nodes f). intros a n. revert a. induction n as [|n IH]; intro a; cbn; constructor; auto. apply Forall_forall. intros x Hx. apply in_seq in Hx. lia.
  - apply NoDup_Permutation; [apply elements_nodup|apply seq_NoDup|]. intro x. rewrite elements_spec, mem_all_nodes, in_seq. lia.
Qed.

Lemma standard_idempotent E E' f s : ext_ok E -> ext_ok E' -> wf_fbas f -> distinct_keys f -> to_standard_form E f = Ok s ->
  (forall x, x < number_of_nodes s -> relevant s x) -> to_standard_form E' s = Ok s.
Proof.
  intros HE HE' Hf Hd Hs Hrel. rewrite to_standard_form_eq in Hs. inversion Hs as [Es]; clear Hs.
  set (K := relevant_nodes E f) in *. rewrite Es.
  assert (Hws : wf_fbas s) by (subst s; apply standard_wf).
  rewrite to_standard_form_eq. f_equal. unfold standard.
  assert (EK : relevant_nodes E' s = all_nodes s).
  { apply bset_ext. intro x. apply eq_true_iff_eq. rewrite mem_relevant_iff, mem_all_nodes by auto. split; auto.
    intros [(Q & HQ & Hx) _]. apply mem_all_nodes. apply (quorum_nodes s Q HQ); auto. }
  rewrite EK.
  assert (En : nodes (shrunken_fbas (all_nodes s) s) = nodes s).
  { rewrite (shrunken_nodes_map s (all_nodes s)) by (intros x Hx; auto). rewrite elements_all. apply nth_error_ext'. intro i. rewrite nth_error_map.
    destruct (lt_dec i (number_of_nodes s)) as [Hi|Hi].
    - rewrite (nth_error_nth' _ 0) by (rewrite seq_length; auto). rewrite seq_nth by auto. cbn [option_map]. rewrite Nat.add_0_l.
      assert (Hn := Hi). apply nth_error_Some in Hn. unfold pk_of. destruct (nth_error (nodes s) i) as [n|] eqn:Ei; [|congruence]. f_equal.
      assert (Hq : node_of s i (node_qset n)) by (exists n; auto). rewrite (node_of_qset_of s i _ Hq). rewrite tidy_shrunken; [destruct n; auto| |].
      + assert (Hne : no_empty (node_qset n)).
        { subst s. assert (Hr := proj1 (standard_reordered E HE f Hf Hd)). fold K in Hr.
          assert (Hi' : i < number_of_nodes (shrunken_fbas K f)) by (destruct Hr as (<- & _); auto).
          destruct (p_onto _ _ _ Hr i Hi') as (z & Hz & Ez). assert (Hnz := qset_of_node _ z Hz).
          destruct (proj2 (proj2 (proj2 Hr)) z _ Hnz) as (q1 & Hq1 & Hren). rewrite Ez in Hq1. assert (q1 = node_qset n) by (eapply node_of_fun; eauto). subst q1.
          eapply renamed_no_empty; [exact Hren|]. rewrite shrunken_qset. destruct (nth_error (elements K) z); [apply shrunken_no_empty|constructor; intros ? []]. }
        subst s. unfold standard in Ei. cbn in Ei. match type of Ei with nth_error (map (node_from_raw ?M) ?L) i = _ => set (MM := M) in Ei; rewrite nth_error_map in Ei; destruct (nth_error L i) as [r|]; [|discriminate] end.
        cbn in Ei. inversion Ei; subst n. cbn [node_from_raw node_qset] in Hne |- *. apply from_raw_tidy; auto.
      + intros y Hy. apply shrink_map_spec. rewrite elements_all. assert (Hyl : y < number_of_nodes s) by (eapply Hws; eauto).
        rewrite (nth_error_nth' _ 0) by (rewrite seq_length; auto). rewrite seq_nth by auto. auto.
    - assert (nth_error (seq 0 (number_of_nodes s)) i = None) as -> by (apply nth_error_None; rewrite seq_length; lia). cbn. symmetry. apply nth_error_None. unfold number_of_nodes in Hi. lia. }
  rewrite (fbas_to_raw_nodes _ _ En).
  assert (Hso : sort_by by_key (fbas_to_raw s) = fbas_to_raw s).
  { apply sort_sorted. assert (Hk : StronglySorted string_before (map raw_public_key (fbas_to_raw s))).
    { unfold fbas_to_raw. rewrite map_map. subst s. apply (standard_keys E HE f Hf Hd). }
    revert Hk. generalize (fbas_to_raw s). clear. induction l as [|a l IH]; intro H; constructor; inversion H as [|? ? H1 H2]; subst; auto.
    apply Forall_forall. intros b Hb. rewrite Forall_forall in H2. specialize (H2 (raw_public_key b) (in_map _ _ _ Hb)). apply string_compare_lt in H2. unfold by_key. congruence. }
  rewrite Hso. subst s. unfold standard. apply round_trip.
Qed.

Lemma all_relevant_standard E f s : ext_ok E -> wf_fbas f -> distinct_keys f -> to_standard_form E f = Ok s ->
  (forall x, x < number_of_nodes f -> relevant f x) -> forall x, x < number_of_nodes s -> relevant s x.
Proof.
  intros HE Hf Hd Hs Hrel. rewrite to_standard_form_eq in Hs. inversion Hs as [Es]; clear Hs. rewrite Es.
  set (K := relevant_nodes E f) in *. assert (Hr := proj1 (standard_reordered E HE f Hf Hd)). fold K in Hr. rewrite Es in Hr.
  assert (EK : K = all_nodes f).
  { apply bset_ext. intro x. apply eq_true_iff_eq. unfold K. rewrite mem_relevant_iff, mem_all_nodes by auto. split; auto.
    intros [(Q & HQ & Hx) _]. apply mem_all_nodes. apply (quorum_nodes f Q HQ); auto. }
  assert (Hg : wf_fbas (shrunken_fbas K f)) by apply shrunken_wf.
  intros x' Hx'. rewrite (proj1 Hr) in Hx'. destruct (p_onto _ _ _ Hr x' Hx') as (x & Hx & <-). apply (relevant_image _ _ _ Hg Hr); auto.
  assert (Ht : forall i, i < number_of_nodes f -> nth_error (elements K) i = Some i).
  { intros i Hi. rewrite EK, elements_all. rewrite (nth_error_nth' _ 0) by (rewrite seq_length; auto). rewrite seq_nth by auto. auto. }
  assert (Hlen : number_of_nodes (shrunken_fbas K f) = number_of_nodes f) by (rewrite shrunken_nodes, len_elements, EK, elements_all, seq_length; auto).
  rewrite Hlen in Hx.
  assert (Hup : forall S, incl_set S (all_nodes f) -> up (elements K) S = S).
  { intros S HS. apply bset_ext. intro y. apply eq_true_iff_eq. rewrite mem_up. split.
    - intros (i & Hi & Ei). rewrite Ht in Ei by (apply mem_all_nodes; auto). congruence.
    - intro Hy. exists y. split; auto. apply Ht. apply mem_all_nodes; auto. }
  assert (Hq : forall Q, quorum f Q -> quorum (shrunken_fbas K f) Q).
  { intros Q HQ. assert (HQn := quorum_nodes f Q HQ). apply shrunken_quorum; [|rewrite Hup; auto]. intros i Hi. rewrite EK, elements_all, seq_length. apply mem_all_nodes. auto. }
  assert (Htr : forall a b, trusts f a b -> trusts (shrunken_fbas K f) a b).
  { intros a b (q & Hq0 & Hb). assert (Ha := node_of_range f a q Hq0). assert (Hbl : b < number_of_nodes f) by (eapply Hf; eauto).
    exists (qset_shrunken (shrink_map (sm_new K)) q). split.
    - assert (Hn := qset_of_node (shrunken_fbas K f) a). rewrite Hlen in Hn. specialize (Hn Ha). rewrite shrunken_qset, (Ht a Ha), (node_of_qset_of f a q Hq0) in Hn. auto.
    - apply (qset_shrunken_mentions_back K q b b); auto. }
  assert (Htt : forall a b, trusts_transitively f a b -> trusts_transitively (shrunken_fbas K f) a b).
  { intros a b H. induction H; [apply rt_step; auto|apply rt_refl|eapply rt_trans; eauto]. }
  destruct (Hrel x Hx) as [(Q & HQ & Hxq) (R & HR & Hl)]. split; [exists Q; auto|]. exists R. split; auto. intros y Hy. destruct (Hl y Hy). auto.
Qed.
