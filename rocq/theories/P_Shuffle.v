(** Proofs about shuffling. *)
From Verif Require Import Spec_SimGraph P_List P_SimGraph P_Mesh.
Local Open Scope list_scope.

(** ** every order is possible *)
Definition rcons (x : N) (r : rng) : rng := fun i => match i with 0 => x | S i' => r i' end.

Lemma swap_nth {A} i j (l : list A) k : i < List.length l -> j < List.length l ->
  nth_error (swap i j l) k = nth_error l (if k =? i then j else if k =? j then i else k).
Proof.
  intros Hi Hj. unfold swap. destruct (nth_error l i) as [x|] eqn:Ei; [|apply nth_error_None in Ei; lia].
  destruct (nth_error l j) as [y|] eqn:Ej; [|apply nth_error_None in Ej; lia].
  rewrite nth_error_update, update_length. destruct (Nat.eqb_spec k i) as [->|Hk].
  - destruct (Nat.ltb_spec i (List.length l)); [|lia]. cbn. auto.
  - cbn [andb]. rewrite nth_error_update. destruct (Nat.eqb_spec k j) as [->|Hk'].
    + destruct (Nat.ltb_spec j (List.length l)); [|lia]. cbn. auto.
    + cbn. auto.
Qed.

Lemma nth_error_ext_eq {A} (l : list A) : forall l', (forall k, nth_error l k = nth_error l' k) -> l = l'.
Proof.
  induction l as [|a l IH]; intros [|b l'] H; auto.
  - specialize (H 0). discriminate.
  - specialize (H 0). discriminate.
  - pose proof (H 0) as H0. cbn in H0. injection H0 as ->. f_equal. apply IH. intros k. apply (H (S k)).
Qed.

Lemma skipn_ext {A} n : forall (l l' : list A), (forall k, n <= k -> nth_error l k = nth_error l' k) -> skipn n l = skipn n l'.
Proof.
  induction n as [|n IH]; intros l l' H.
  - cbn. apply nth_error_ext_eq. intros k. apply H. lia.
  - destruct l as [|a l], l' as [|b l']; auto; cbn.
    + rewrite <- (IH [] l'); [destruct n; auto|]. intros k Hk. specialize (H (S k)). cbn in H. rewrite <- H; [destruct k; auto|lia].
    + rewrite (IH l []); [destruct n; auto|]. intros k Hk. specialize (H (S k)). cbn in H. rewrite H; [destruct k; auto|lia].
    + apply IH. intros k Hk. apply (H (S k)). lia.
Qed.

Lemma nth_error_firstn_lt {A} n : forall (l : list A) k, k < n -> nth_error (firstn n l) k = nth_error l k.
Proof. induction n as [|n IH]; intros [|a l] [|k] H; cbn; auto; try lia. apply IH. lia. Qed.

Lemma shuffle_from_covers {A} i : forall (l t : list A), Permutation l t -> (List.length l = 0 \/ i < List.length l) ->
  (forall k, i < k -> nth_error l k = nth_error t k) -> exists r, fst (shuffle_from i l r) = t.
Proof.
  induction i as [|i IH]; intros l t HP Hi Hk.
  - exists (fun _ => 0%N). cbn. destruct l as [|a l]; [apply Permutation_nil in HP; auto|]. destruct t as [|b t]; [apply Permutation_sym, Permutation_nil in HP; discriminate|].
    assert (E : skipn 1 (a :: l) = skipn 1 (b :: t)) by (apply skipn_ext; intros k Hk'; apply Hk; lia). cbn in E. subst t.
    apply Permutation_app_inv_r with (l1 := [a]) (l2 := [b]) in HP. apply Permutation_length_1 in HP. congruence.
  - assert (Hl : S i < List.length l \/ List.length l = 0) by tauto. destruct Hl as [Hl|Hl].
    2:{ destruct l; [|discriminate]. apply Permutation_nil in HP. subst t. exists (fun _ => 0%N).
        apply Permutation_nil, Permutation_sym, shuffle_from_perm. }
    assert (E : skipn (S (S i)) l = skipn (S (S i)) t) by (apply skipn_ext; intros k Hk'; apply Hk; lia).
    assert (HP' : Permutation (firstn (S (S i)) l) (firstn (S (S i)) t)).
    { rewrite <- (firstn_skipn (S (S i)) l), <- (firstn_skipn (S (S i)) t), E in HP. apply Permutation_app_inv_r in HP. auto. }
    assert (Hlt : List.length t = List.length l) by (apply Permutation_length, Permutation_sym; auto).
    destruct (nth_error t (S i)) as [y|] eqn:Ey; [|apply nth_error_None in Ey; lia].
    assert (Hy : In y (firstn (S (S i)) l)).
    { apply (Permutation_in _ (Permutation_sym HP')). apply (nth_error_In _ (S i)). rewrite nth_error_firstn_lt; [auto|lia]. }
    apply In_nth_error in Hy. destruct Hy as [j Hj].
    assert (Hj1 : j < S (S i)).
    { assert (j < List.length (firstn (S (S i)) l)) by (apply nth_error_Some; congruence). rewrite firstn_length in H. lia. }
    rewrite nth_error_firstn_lt in Hj; auto.
    destruct (IH (swap (S i) j l) t) as [r Hr].
    + rewrite swap_perm. auto.
    + right. rewrite (Permutation_length (swap_perm _ _ _)). lia.
    + intros k Hk'. rewrite swap_nth; [|lia|lia]. destruct (Nat.eqb_spec k (S i)) as [->|Hne]; [congruence|].
      destruct (Nat.eqb_spec k j) as [->|Hne']; [lia|]. apply Hk. lia.
    + exists (rcons (N.of_nat j) r). cbn [shuffle_from]. unfold gen_index. cbn [rcons].
      replace (N.to_nat (N.of_nat j mod N.of_nat (S (S i)))) with j.
      * exact Hr.
      * rewrite N.mod_small; [|lia]. rewrite Nat2N.id. auto.
Qed.
Lemma shuffle_covers {A} (l t : list A) : Permutation l t -> exists r, fst (shuffle l r) = t.
Proof.
  intros HP. unfold shuffle. apply shuffle_from_covers; auto.
  - destruct l; cbn; [auto|right; lia].
  - intros k Hk. apply Permutation_length in HP. rewrite !(proj2 (nth_error_None _ _)); auto; lia.
Qed.

(** ** shuffled graphs *)
Lemma perm_range_bound n s : Permutation s (range 0 n) -> NoDup s /\ List.length s = n /\ forall x, In x s <-> x < n.
Proof.
  intros HP. split; [|split].
  - eapply Permutation_NoDup; [apply Permutation_sym; exact HP|apply range_nodup].
  - rewrite (Permutation_length HP), range_length. lia.
  - intros x. rewrite (Permutation_in' eq_refl HP), range_in. lia.
Qed.

Lemma invert_ok n s : Permutation s (range 0 n) ->
  exists v, foldM (fun v '(old, new) => set_at new old v) (repeat 0 n) (enumerate s) = Ok v /\ List.length v = n /\
            forall i, i < n -> nth (nth i s 0) v 0 = i.
Proof.
  intros HP. destruct (perm_range_bound n s HP) as (Hnd & Hlen & Hin).
  destruct (foldM_pre (fun v '(old, new) => set_at new old v)
    (fun d (v : list nat) => List.length v = n /\ forall i, i < List.length d -> nth (nth i s 0) v 0 = i) (enumerate s) [] (repeat 0 n)) as (v & E & Hl & Hv).
  - intros d [old new] rest v Hd [Hl Hv]. cbn in Hd.
    assert (Ho : old = List.length d).
    { pose proof (enumerate_keys s) as Hk. rewrite Hd, map_app in Hk. cbn [map fst] in Hk.
      assert (Hn : nth_error (seq 0 (List.length s)) (List.length d) = Some old).
      { rewrite <- Hk. rewrite nth_error_app2; rewrite map_length; auto. rewrite Nat.sub_diag. auto. }
      assert (Hs : List.length d < List.length s).
      { rewrite <- (seq_length (List.length s) 0). apply nth_error_Some. congruence. }
      rewrite (nth_error_some_nth _ _ 0) in Hn; [|rewrite seq_length; auto]. rewrite seq_nth in Hn; auto. cbn in Hn. congruence. }
    assert (Hn : nth_error s old = Some new) by (apply enumerate_in; rewrite Hd; apply in_or_app; right; left; auto).
    assert (Hnew : new < n) by (apply Hin; eapply nth_error_In; eauto).
    assert (Hold : old < List.length s) by (apply nth_error_Some; congruence).
    rewrite set_at_ok; [|lia]. eexists. split; [reflexivity|]. split; [rewrite update_length; auto|].
    intros i Hi. rewrite app_length in Hi. cbn in Hi. rewrite nth_update. destruct (Nat.eq_dec i old) as [->|Hne].
    + apply (nth_error_nth _ _ 0) in Hn. rewrite Hn, Nat.eqb_refl. destruct (Nat.ltb_spec new (List.length v)); [auto|lia].
    + destruct (Nat.eqb_spec (nth i s 0) new) as [E|_].
      * exfalso. apply Hne. apply (proj1 (NoDup_nth s 0) Hnd); [lia|lia|]. rewrite E. symmetry. apply (nth_error_nth _ _ 0) in Hn. auto.
      * cbn. apply Hv. lia.
  - split; [apply repeat_length|]. cbn. intros; lia.
  - exists v. split; auto. split; auto. intros i Hi. apply Hv. cbn [app].
    replace (List.length (enumerate s)) with n; auto. rewrite <- (map_length fst), enumerate_keys, seq_length. auto.
Qed.

Lemma shuffled_iso g r : wf_graph g -> exists g' r' p, shuffled g r = Ok (g', r') /\ isomorphism p g g' /\
  map p (range 0 (List.length g)) = fst (shuffle (range 0 (List.length g)) r).
Proof.
  intros Hwf. unfold shuffled. pose proof (shuffle_perm (range 0 (List.length g)) r) as HP.
  destruct (shuffle (range 0 (List.length g)) r) as [s r']. cbn [fst] in *. set (n := List.length g) in *.
  destruct (perm_range_bound n s HP) as (Hnd & Hlen & Hin). destruct (invert_ok n s HP) as (v & Ev & Hl & Hv). rewrite Ev. cbn [bind].
  set (p := fun i => nth i s 0).
  assert (Hp : forall i, i < n -> p i < n) by (intros i Hi; apply Hin, nth_In; lia).
  assert (Hvn : forall x, In x v -> x < n).
  { intros x Hx. apply (In_nth _ _ 0) in Hx. destruct Hx as (k & Hk & <-).
    assert (Hk' : In k s) by (apply Hin; lia). apply (In_nth _ _ 0) in Hk'. destruct Hk' as (i & Hi & <-). rewrite Hv; lia. }
  rewrite (mapM_ok _ (fun oi => map p (links g oi))).
  - cbn [bind]. exists (map (fun oi => map p (links g oi)) v), r', p. split; auto. split.
    + split; [rewrite map_length; auto|]. split; [auto|]. split.
      * intros i j Hi Hj E. apply (proj1 (NoDup_nth s 0) Hnd); auto; lia.
      * intros i l Hi. assert (i < n) by (apply nth_error_Some; congruence).
        rewrite (map_nth_error _ (p i) v (d := i)).
        -- f_equal. f_equal. apply (nth_error_nth _ _ []) in Hi. exact Hi.
        -- rewrite (nth_error_some_nth v (p i) 0); [|rewrite Hl; auto]. f_equal. apply Hv. auto.
    + unfold range. rewrite Nat.sub_0_r. rewrite <- Hlen. symmetry. apply list_eq_map. intros j Hj. apply nth_error_some_nth. auto.
  - intros x Hx. assert (x < n) by auto. rewrite (nth_error_some_nth g x []); auto. cbn [unwrap bind]. apply mapM_ok.
    intros y Hy. assert (y < n). { apply (Hwf x). apply link_links. auto. }
    unfold p. rewrite (nth_error_some_nth s y 0); [auto|lia].
Qed.

(** what isomorphisms preserve *)
Lemma iso_surj p g g' : isomorphism p g g' -> forall k, k < List.length g -> exists i, i < List.length g /\ p i = k.
Proof.
  intros (Hl & Hp & Hi & _) k Hk.
  assert (HN : NoDup (map p (range 0 (List.length g)))).
  { pose proof (range_nodup 0 (List.length g)) as Hnd. assert (Hb : forall x, In x (range 0 (List.length g)) -> x < List.length g) by (intros x Hx; apply range_in in Hx; lia).
    revert Hnd Hb. generalize (range 0 (List.length g)). induction l as [|x l IH]; intros Hnd Hb; cbn; constructor.
    - intros H. apply in_map_iff in H. destruct H as (y & Ey & Hy). inversion Hnd; subst. apply Hi in Ey; [subst; auto| |]; apply Hb; [right|left]; auto.
    - inversion Hnd; subst. apply IH; auto. intros; apply Hb; right; auto. }
  assert (HI : incl (range 0 (List.length g)) (map p (range 0 (List.length g)))).
  { apply NoDup_length_incl; auto.
    - rewrite map_length. auto.
    - intros x Hx. apply in_map_iff in Hx. destruct Hx as (y & <- & Hy). apply range_in in Hy. apply range_in. split; [lia|]. apply Hp. lia. }
  assert (Hk' : In k (map p (range 0 (List.length g)))) by (apply HI, range_in; lia). apply in_map_iff in Hk'.
  destruct Hk' as (i & Ei & Hin). apply range_in in Hin. exists i. split; [lia|auto].
Qed.
Lemma iso_link p g g' i j : wf_graph g -> isomorphism p g g' -> i < List.length g -> j < List.length g ->
  (link g' (p i) (p j) <-> link g i j).
Proof.
  intros Hwf (Hl & Hp & Hi & Hr) Hin Hjn. unfold link. rewrite (nth_error_some_nth g i []); auto.
  rewrite (Hr i (nth i g [])); [|apply nth_error_some_nth; auto]. split.
  - intros (l & E & H). injection E as <-. apply in_map_iff in H. destruct H as (j' & Ej & Hj).
    exists (nth i g []). split; auto. replace j with j'; auto. apply Hi; auto. apply (Hwf i). exists (nth i g []). split; auto. apply nth_error_some_nth. auto.
  - intros (l & E & H). injection E as <-. eexists. split; [reflexivity|]. apply in_map. auto.
Qed.
Lemma iso_link_back p g g' a b : wf_graph g -> isomorphism p g g' -> link g' a b ->
  exists i j, a = p i /\ b = p j /\ link g i j /\ i < List.length g /\ j < List.length g.
Proof.
  intros Hwf Hiso Hl. pose proof (link_lt _ _ _ Hl) as Ha. pose proof Hiso as (Hlen & Hp & Hi & Hr). rewrite Hlen in Ha.
  destruct (iso_surj p g g' Hiso a Ha) as (i & Hin & <-). destruct Hl as (l & El & Hb). rewrite (Hr i (nth i g [])) in El; [|apply nth_error_some_nth; auto].
  injection El as <-. apply in_map_iff in Hb. destruct Hb as (j & <- & Hj).
  assert (Hlk : link g i j) by (exists (nth i g []); split; auto; apply nth_error_some_nth; auto).
  exists i, j. split; [auto|]. split; [auto|]. split; [auto|]. split; [auto|]. eapply Hwf. eauto.
Qed.
Lemma iso_wf p g g' : wf_graph g -> isomorphism p g g' -> wf_graph g'.
Proof.
  intros Hwf Hiso a b Hl. destruct (iso_link_back p g g' a b Hwf Hiso Hl) as (i & j & -> & -> & _ & Hi & Hj).
  destruct Hiso as (Hlen & Hp & _). rewrite Hlen. auto.
Qed.
Lemma iso_undirected p g g' : wf_graph g -> isomorphism p g g' -> (undirected g' <-> undirected g).
Proof.
  intros Hwf Hiso. split; intros H.
  - intros i j Hl. pose proof (link_lt _ _ _ Hl). pose proof (Hwf _ _ Hl). apply (iso_link p g g'); auto. apply H. apply (iso_link p g g'); auto.
  - intros a b Hl. destruct (iso_link_back p g g' a b Hwf Hiso Hl) as (i & j & -> & -> & Hl' & Hi & Hj). apply (iso_link p g g'); auto.
Qed.
Lemma iso_degree p g g' i d : isomorphism p g g' -> i < List.length g -> (degree g' (p i) d <-> degree g i d).
Proof.
  intros (Hlen & Hp & Hi & Hr) Hin. unfold degree. rewrite (Hr i (nth i g [])); [|apply nth_error_some_nth; auto].
  rewrite (nth_error_some_nth g i []); auto. split; intros (l & E & Hd); injection E as <-; rewrite ?map_length in *; eexists; (split; [reflexivity|]); rewrite ?map_length; auto.
Qed.
Lemma in_degree_unique g j d d' : in_degree g j d -> in_degree g j d' -> d = d'.
Proof.
  intros (P & HP & HPi & <-) (P' & HP' & HPi' & <-). apply Permutation_length, NoDup_Permutation; auto.
  intros [a b]. rewrite HPi, HPi'. tauto.
Qed.
Lemma iso_in_degree p g g' j d : wf_graph g -> isomorphism p g g' -> j < List.length g -> (in_degree g' (p j) d <-> in_degree g j d).
Proof.
  intros Hwf Hiso Hj. pose proof Hiso as (Hlen & Hp & Hi & Hr).
  assert (G : forall d, in_degree g j d -> in_degree g' (p j) d).
  { clear d. intros d (P & HN & HP & <-). exists (map (fun q => (p (fst q), snd q)) P). split; [|split; [|apply map_length]].
    - assert (Hb : forall q, In q P -> fst q < List.length g).
      { intros [a b] Hq. apply HP in Hq. destruct Hq as (l & El & _). cbn. apply nth_error_Some. congruence. }
      clear HP. induction P as [|[a b] P IH]; cbn; constructor.
      + intros H. apply in_map_iff in H. destruct H as ([a' b'] & E & Hq). cbn in E. injection E as E1 E2. subst b'. inversion HN; subst.
        apply Hi in E1; [subst; auto|apply (Hb (a', b)); right; auto|apply (Hb (a, b)); left; auto].
      + inversion HN; subst. apply IH; auto. intros; apply Hb; right; auto.
    - intros a k. rewrite in_map_iff. split.
      + intros ([i k'] & E & Hq). cbn in E. injection E as <- <-. apply HP in Hq. destruct Hq as (l & El & Ek). exists (map p l). split; [auto|].
        apply map_nth_error. auto.
      + intros (l' & El & Ek). assert (Ha : a < List.length g) by (rewrite <- Hlen; apply nth_error_Some; congruence).
        destruct (iso_surj p g g' Hiso a Ha) as (i & Hin & <-). rewrite (Hr i (nth i g [])) in El; [|apply nth_error_some_nth; auto]. injection El as <-.
        rewrite nth_error_map in Ek. destruct (nth_error (nth i g []) k) as [x|] eqn:Ex; [|discriminate]. cbn in Ek. injection Ek as Ek.
        assert (Hx : x < List.length g). { apply (Hwf i). exists (nth i g []). split; [apply nth_error_some_nth; auto|]. eapply nth_error_In; eauto. }
        apply Hi in Ek; auto. subst x. exists (i, k). split; auto. apply HP. exists (nth i g []). split; [apply nth_error_some_nth; auto|auto]. }
  split; [|apply G]. intros H. pose proof (in_degree_count g j) as H0. rewrite (in_degree_unique g' (p j) d (count_links j g)); auto.
Qed.
