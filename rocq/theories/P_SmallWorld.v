(** Proofs about [new_random_small_world]. *)
From Verif Require Import Spec_SimGraph P_List P_SimGraph P_Mesh.
Local Open Scope list_scope.

(** ** matrices *)
Definition mwf (n : nat) (m : matrix) : Prop := List.length m = n /\ forall i, i < n -> List.length (nth i m []) = n.

Lemma set_cell_ok n i j b m : mwf n m -> i < n -> j < n -> exists m', set_cell i j b m = Ok m' /\ mwf n m' /\
  forall x y, cell m' x y = if (x =? i) && (y =? j) then b else cell m x y.
Proof.
  intros [Hl Hr] Hi Hj. unfold set_cell. rewrite (nth_error_some_nth m i []); [|lia]. cbn [unwrap bind].
  rewrite set_at_ok; [|rewrite Hr; auto]. cbn [bind]. rewrite set_at_ok; [|lia]. eexists. split; [reflexivity|]. split.
  - split; [rewrite update_length; auto|]. intros x Hx. rewrite nth_update. destruct ((x =? i) && (x <? List.length m)); auto.
    rewrite update_length. auto.
  - intros x y. unfold cell. rewrite nth_update. destruct (Nat.eqb_spec x i) as [->|Hx]; cbn [andb]; auto.
    destruct (Nat.ltb_spec i (List.length m)); [|lia]. rewrite nth_update, Hr; auto. destruct (Nat.eqb_spec y j) as [->|]; cbn [andb]; auto.
    destruct (Nat.ltb_spec j n); [auto|lia].
Qed.

Lemma set_both_ok n i j b m : mwf n m -> i < n -> j < n -> exists m', set_both i j b m = Ok m' /\ mwf n m' /\
  forall x y, cell m' x y = if ((x =? i) && (y =? j)) || ((x =? j) && (y =? i)) then b else cell m x y.
Proof.
  intros Hm Hi Hj. unfold set_both. destruct (set_cell_ok n i j b m) as (m1 & E1 & W1 & C1); auto. rewrite E1. cbn [bind].
  destruct (set_cell_ok n j i b m1) as (m2 & E2 & W2 & C2); auto. exists m2. split; auto. split; auto.
  intros x y. rewrite C2, C1. destruct ((x =? i) && (y =? j)), ((x =? j) && (y =? i)); auto.
Qed.

(** ** sums *)
Definition sumf (n : nat) (h : nat -> nat) : nat := list_sum (map h (seq 0 n)).
Lemma sumf_ext n h h' : (forall x, x < n -> h x = h' x) -> sumf n h = sumf n h'.
Proof. intros H. unfold sumf. f_equal. apply map_ext_in. intros x Hx. apply in_seq in Hx. apply H. lia. Qed.
Lemma sumf_change n i h h' : i < n -> (forall x, x < n -> x <> i -> h' x = h x) -> sumf n h' + h i = sumf n h + h' i.
Proof.
  intros Hi H. unfold sumf. replace n with (i + (1 + (n - i - 1))) by lia. rewrite !seq_app, !map_app, !list_sum_app. cbn [seq map].
  rewrite (map_ext_in h' h (seq 0 i)), (map_ext_in h' h (seq (0 + i + 1) _)).
  - unfold list_sum. cbn [fold_right]. rewrite Nat.add_0_l. lia.
  - intros x Hx. apply in_seq in Hx. apply H; lia.
  - intros x Hx. apply in_seq in Hx. apply H; lia.
Qed.
Definition b2n (b : bool) : nat := if b then 1 else 0.
Definition cnt (n : nat) (f : nat -> nat -> bool) : nat := sumf n (fun x => sumf n (fun y => b2n (f x y))).
Lemma cnt_change n i j f f' : i < n -> j < n -> (forall x y, (x <> i \/ y <> j) -> f' x y = f x y) ->
  cnt n f' + b2n (f i j) = cnt n f + b2n (f' i j).
Proof.
  intros Hi Hj H. unfold cnt.
  pose proof (sumf_change n i (fun x => sumf n (fun y => b2n (f x y))) (fun x => sumf n (fun y => b2n (f' x y))) Hi) as H1.
  cbn beta in H1. assert (H1' := H1 (fun x Hx Hne => sumf_ext n _ _ (fun y Hy => f_equal b2n (H x y (or_introl Hne))))).
  pose proof (sumf_change n j (fun y => b2n (f i y)) (fun y => b2n (f' i y)) Hj) as H2. cbn beta in H2.
  assert (H2' := H2 (fun y Hy Hne => f_equal b2n (H i y (or_intror Hne)))). lia.
Qed.
Lemma cnt_set_both n i j b f f' : i < n -> j < n -> i <> j ->
  (forall x y, f' x y = if ((x =? i) && (y =? j)) || ((x =? j) && (y =? i)) then b else f x y) -> f i j = negb b -> f j i = negb b ->
  cnt n f' + 2 * b2n (negb b) = cnt n f + 2 * b2n b.
Proof.
  intros Hi Hj Hij H E1 E2. set (f1 := fun x y => if (x =? i) && (y =? j) then b else f x y).
  assert (A : cnt n f1 + b2n (f i j) = cnt n f + b2n (f1 i j)).
  { apply cnt_change; auto. intros x y Hxy. unfold f1. destruct (Nat.eqb_spec x i), (Nat.eqb_spec y j); auto. cbn. lia. }
  assert (B : cnt n f' + b2n (f1 j i) = cnt n f1 + b2n (f' j i)).
  { apply cnt_change; auto. intros x y Hxy. rewrite H. unfold f1. destruct ((x =? i) && (y =? j)); auto. cbn [orb].
    destruct (Nat.eqb_spec x j), (Nat.eqb_spec y i); auto. cbn. lia. }
  assert (F1 : f1 i j = b) by (unfold f1; rewrite !Nat.eqb_refl; auto).
  assert (F2 : f1 j i = negb b) by (unfold f1; destruct (Nat.eqb_spec j i); [lia|auto]).
  assert (F3 : f' j i = b) by (rewrite H, !Nat.eqb_refl, orb_true_r; auto).
  rewrite E1, F1 in A. rewrite F2, F3 in B. lia.
Qed.
Lemma filter_count {A} (p : A -> bool) l : List.length (filter p l) = list_sum (map (fun x => b2n (p x)) l).
Proof. induction l as [|a l IH]; auto. cbn [filter map]. unfold list_sum in *. cbn [fold_right]. destruct (p a); cbn [List.length b2n]; lia. Qed.
Lemma graph_total n m : list_sum (map (@List.length nat) (graph_of_matrix n m)) = cnt n (cell m).
Proof.
  unfold graph_of_matrix, cnt, sumf. rewrite map_map. unfold range. rewrite Nat.sub_0_r. f_equal. apply map_ext. intros x. apply filter_count.
Qed.

(** ** the ring *)
Lemma mod_add n x d : x < n -> d <= n -> (x + d) mod n = if x + d <? n then x + d else x + d - n.
Proof.
  intros Hx Hd. destruct (Nat.ltb_spec (x + d) n); [apply Nat.mod_small; auto|].
  replace (x + d) with ((x + d - n) + 1 * n) at 1 by lia. rewrite Nat.mod_add; [|lia]. apply Nat.mod_small. lia.
Qed.
Lemma follows_iff n h x y : x < n -> h < n -> (follows n h x y <-> y < n /\ ((x < y <= x + h) \/ x + 1 <= y + n <= x + h)).
Proof.
  intros Hx Hh. unfold follows. split.
  - intros (d & Hd & ->). rewrite mod_add by lia. destruct (Nat.ltb_spec (x + d) n); lia.
  - intros [Hy [H|H]].
    + exists (y - x). split; [lia|]. rewrite Nat.mod_small; lia.
    + exists (y + n - x). split; [lia|]. rewrite mod_add by lia. destruct (Nat.ltb_spec (x + (y + n - x)) n); lia.
Qed.
Lemma ring_neighbors_in n k x y : In y (ring_neighbors n k x) <-> follows n (k / 2) x y.
Proof.
  unfold ring_neighbors, follows. rewrite in_map_iff. split.
  - intros (z & <- & Hz). apply range_in in Hz. exists (z - x). split; [lia|]. f_equal. lia.
  - intros (d & Hd & ->). exists (x + d). split; auto. apply range_in. lia.
Qed.
Lemma ring_neighbors_nodup n k x : x < n -> k / 2 < n -> NoDup (ring_neighbors n k x).
Proof.
  intros Hx Hk. unfold ring_neighbors.
  assert (G : forall l, (forall z, In z l -> x + 1 <= z <= x + k / 2) -> NoDup l -> NoDup (map (fun j => j mod n) l)).
  { induction l as [|a l IH]; intros Hb Hd; cbn; constructor.
    - intros H. apply in_map_iff in H. destruct H as (z & Ez & Hz). inversion Hd as [|? ? Hna _]; subst. apply Hna. replace a with z; auto.
      assert (Ha := Hb a (or_introl eq_refl)). assert (Hzb := Hb z (or_intror Hz)).
      replace z with (x + (z - x)) in Ez by lia. replace a with (x + (a - x)) in Ez by lia. rewrite !mod_add in Ez by lia.
      destruct (Nat.ltb_spec (x + (z - x)) n), (Nat.ltb_spec (x + (a - x)) n); lia.
    - inversion Hd; subst. apply IH; auto. intros; apply Hb; right; auto. }
  apply G; [|apply range_nodup]. intros z Hz. apply range_in in Hz. lia.
Qed.
Lemma ring_neighbors_length n k x : List.length (ring_neighbors n k x) = k / 2.
Proof. unfold ring_neighbors. rewrite map_length, range_length. lia. Qed.

Lemma ring_lattice_ok n k : (n = 0 \/ k / 2 < n) -> exists m, ring_lattice n k = Ok m /\ mwf n m /\
  forall x y, x < n -> y < n -> (cell m x y = true <-> follows n (k / 2) x y \/ follows n (k / 2) y x).
Proof.
  intros Hk. unfold ring_lattice.
  destruct (foldM_range (fun m i => foldM (fun m j => set_both i j true m) m (ring_neighbors n k i))
    (fun i m => mwf n m /\ forall x y, x < n -> y < n ->
       (cell m x y = true <-> (x < i /\ follows n (k / 2) x y) \/ (y < i /\ follows n (k / 2) y x)))
    0 n (repeat (repeat false n) n)) as (m & E & Hm & Hc); [lia| | |].
  - intros i m Hi [Hm Hc]. destruct Hk as [Hk|Hk]; [lia|].
    destruct (foldM_pre (fun m j => set_both i j true m)
      (fun d m' => mwf n m' /\ forall x y, x < n -> y < n ->
         (cell m' x y = true <-> cell m x y = true \/ (x = i /\ In y d) \/ (y = i /\ In x d)))
      (ring_neighbors n k i) [] m) as (m' & E & Hm' & Hc').
    + intros d j rest m' Hd [Hm' Hc']. cbn in Hd.
      assert (Hj : follows n (k / 2) i j) by (apply ring_neighbors_in; rewrite Hd; apply in_or_app; right; left; auto).
      apply follows_iff in Hj; [|lia|lia]. destruct (set_both_ok n i j true m') as (m2 & E2 & W2 & C2); [auto|lia|lia|].
      exists m2. split; auto. split; auto. intros x y Hx Hy. rewrite C2. rewrite !in_app_iff. cbn [In].
      destruct (Nat.eqb_spec x i), (Nat.eqb_spec y j), (Nat.eqb_spec x j), (Nat.eqb_spec y i); cbn [andb orb]; rewrite ?Hc'; subst; auto;
        split; intros; auto; intuition (subst; auto; try congruence).
    + split; auto. intros x y Hx Hy. cbn. intuition.
    + exists m'. split; auto. split; auto. intros x y Hx Hy. cbn [app] in Hc'. rewrite Hc', Hc, !ring_neighbors_in; auto.
      assert (Hs : forall z, z < S i <-> z < i \/ z = i) by (intros; lia). rewrite !Hs. split.
      * intros [[H|H]|[[-> H]|[-> H]]]; tauto.
      * intros [[[H1|H1] H]|[[H1|H1] H]]; subst; tauto.
  - split.
    + split; [apply repeat_length|]. intros i Hi.
      rewrite (nth_indep _ [] (repeat false n)); [|rewrite repeat_length; auto]. rewrite nth_repeat. apply repeat_length.
    + intros x y Hx Hy. unfold cell.
      rewrite (nth_indep _ [] (repeat false n)); [|rewrite repeat_length; auto]. rewrite nth_repeat.
      rewrite nth_repeat. split; [discriminate|lia].
  - exists m. split; auto. split; auto. intros x y Hx Hy. rewrite Hc; auto. tauto.
Qed.

Lemma ring_degree n k m x : Nat.Even k -> k < n -> x < n ->
  (forall x y, x < n -> y < n -> (cell m x y = true <-> follows n (k / 2) x y \/ follows n (k / 2) y x)) ->
  List.length (filter (cell m x) (range 0 n)) = k.
Proof.
  intros [h Hh] Hk Hx Hc. assert (Hh2 : k / 2 = h) by (rewrite Hh, Nat.mul_comm; apply Nat.div_mul; lia). rewrite Hh2 in Hc.
  set (A := ring_neighbors n k x). set (B := map (fun d => if d <=? x then x - d else x + n - d) (range 1 (h + 1))).
  assert (HB : forall y, In y B <-> follows n h y x /\ y < n).
  { intros y. unfold B. rewrite in_map_iff. split.
    - intros (d & <- & Hd). apply range_in in Hd. assert (Hlt : (if d <=? x then x - d else x + n - d) < n) by (destruct (Nat.leb_spec d x); lia).
      split; auto. apply follows_iff; try lia. destruct (Nat.leb_spec d x); lia.
    - intros [Hf Hy]. apply follows_iff in Hf; [|lia|lia]. destruct Hf as [_ [Hf|Hf]].
      + exists (x - y). split; [destruct (Nat.leb_spec (x - y) x); lia|apply range_in; lia].
      + exists (x + n - y). split; [destruct (Nat.leb_spec (x + n - y) x); lia|apply range_in; lia]. }
  assert (NB : NoDup B).
  { unfold B. assert (G : forall l, (forall z, In z l -> 1 <= z <= h) -> NoDup l -> NoDup (map (fun d => if d <=? x then x - d else x + n - d) l)).
    { induction l as [|a l IH]; intros Hb Hd; cbn [map]; constructor.
      - intros H. apply in_map_iff in H. destruct H as (z & Ez & Hz). inversion Hd as [|? ? Hna _]; subst. apply Hna. replace a with z; auto.
        assert (Ha := Hb a (or_introl eq_refl)). assert (Hzb := Hb z (or_intror Hz)).
        destruct (Nat.leb_spec z x), (Nat.leb_spec a x); lia.
      - inversion Hd; subst. apply IH; auto. intros; apply Hb; right; auto. }
    apply G; [|apply range_nodup]. intros z Hz. apply range_in in Hz. lia. }
  assert (NA : NoDup A) by (apply ring_neighbors_nodup; lia).
  assert (HA : forall y, In y A <-> follows n h x y) by (intros y; unfold A; rewrite ring_neighbors_in, Hh2; tauto).
  assert (P : Permutation (filter (cell m x) (range 0 n)) (A ++ B)).
  { apply NoDup_Permutation.
    - apply NoDup_filter, range_nodup.
    - assert (G : forall a b : list nat, NoDup a -> NoDup b -> (forall y, In y a -> ~ In y b) -> NoDup (a ++ b)).
      { clear. induction a as [|z a IH]; intros b Ha Hb H; cbn; auto. inversion Ha; subst. constructor.
        - rewrite in_app_iff. intros [Hz|Hz]; auto. apply (H z); [left|]; auto.
        - apply IH; auto. intros. apply H. right. auto. }
      apply G; auto. intros y Hy Hy'. apply HA in Hy. apply HB in Hy'. destruct Hy' as [Hf Hn]. apply follows_iff in Hf; [|lia|lia].
      apply follows_iff in Hy; [|lia|lia]. lia.
    - intros y. rewrite filter_In, in_app_iff, HA, HB, range_in. split.
      + intros [Hy Hcy]. apply Hc in Hcy; [|lia|lia]. destruct Hcy; auto. right. split; auto. lia.
      + intros [Hf|[Hf Hy]].
        * assert (y < n) by (apply follows_iff in Hf; lia). split; [lia|]. apply Hc; auto.
        * split; [lia|]. apply Hc; auto. }
  apply Permutation_length in P. rewrite P, app_length. unfold A, B. rewrite ring_neighbors_length, map_length, range_length. lia.
Qed.

Lemma filter_sorted_lt (p : nat -> bool) l : StronglySorted lt l -> StronglySorted lt (filter p l).
Proof.
  induction 1 as [|a l Hs IH Ha]; cbn; [constructor|]. destruct (p a); auto. constructor; auto.
  rewrite Forall_forall in *. intros y Hy. apply filter_In in Hy. apply Ha. tauto.
Qed.

(** ** rewiring *)
Record base_inv (n k : nat) (m : matrix) (targets : list (list nat)) : Prop := {
  b_mwf : mwf n m;
  b_sym : forall x y, x < n -> y < n -> cell m x y = cell m y x;
  b_irr : forall x, x < n -> cell m x x = false;
  b_cnt : cnt n (cell m) = n * k;
  b_len : List.length targets = n;
  b_nodup : forall x, x < n -> NoDup (nth x targets []);
  b_targets : forall x y, x < n -> (In y (nth x targets []) <-> y < n /\ y <> x /\ cell m x y = false) }.

(** the ring edges of nodes from [i] on are present *)
Definition intact (n h i : nat) (m : matrix) : Prop := forall p y, i <= p < n -> follows n h p y -> cell m p y = true.
(** [O] are [h] links of [x], none of which is a ring edge of a node from [i] on *)
Definition owned (n h i x : nat) (m : matrix) (O : list nat) : Prop :=
  NoDup O /\ List.length O = h /\ (forall y, In y O -> y < n /\ cell m x y = true) /\ forall p, i <= p < n -> follows n h p x -> ~ In p O.

Lemma no_two_ways n h x y : x < n -> y < n -> 2 * h < n -> follows n h x y -> follows n h y x -> False.
Proof. intros Hx Hy Hh H1 H2. apply follows_iff in H1; [|lia|lia]. apply follows_iff in H2; [|lia|lia]. lia. Qed.

Lemma nodup_snoc (l : list nat) x : NoDup l -> ~ In x l -> NoDup (l ++ [x]).
Proof. intros H1 H2. apply (Permutation_NoDup (l := x :: l)); [apply Permutation_cons_append|constructor; auto]. Qed.

Lemma rewire_link_ok n k i j m targets r O : i < n -> 2 * (k / 2) < n ->
  base_inv n k m targets -> intact n (k / 2) (S i) m ->
  (forall x, x < i -> exists O, owned n (k / 2) i x m O) -> owned n (k / 2) (S i) i m O -> In j O -> follows n (k / 2) i j ->
  exists m' targets' r' O', rewire_link i (m, targets, r) j = Ok (m', targets', r') /\
    base_inv n k m' targets' /\ intact n (k / 2) (S i) m' /\
    (forall x, x < i -> exists O, owned n (k / 2) i x m' O) /\ owned n (k / 2) (S i) i m' O' /\
    (forall y, In y O -> y <> j -> In y O').
Proof.
  intros Hi Hh HB HI HO (ON & OL & OC & OP) Hj Hf. unfold rewire_link.
  destruct (OC j Hj) as [Hjn Hcj]. assert (Hij : i <> j) by (intros <-; rewrite (b_irr _ _ _ _ HB) in Hcj; auto; discriminate).
  rewrite (nth_error_some_nth targets i []); [|rewrite (b_len _ _ _ _ HB); auto]. cbn [unwrap bind].
  destruct (choose (nth i targets []) r) as [[newj|] r'] eqn:Ec.
  2:{ exists m, targets, r', O. split; auto. split; auto. split; auto. split; auto. split; auto. split; auto. }
  apply choose_some in Ec. apply (b_targets _ _ _ _ HB) in Ec; auto. destruct Ec as (Hnn & Hni & Hnc).
  assert (Hnj : newj <> j) by congruence.
  destruct (set_both_ok n i j false m) as (m1 & E1 & W1 & C1); auto; [apply (b_mwf _ _ _ _ HB)|]. rewrite E1. cbn [bind].
  destruct (set_both_ok n i newj true m1) as (m2 & E2 & W2 & C2); auto. rewrite E2. cbn [bind].
  assert (Lt : List.length targets = n) by apply (b_len _ _ _ _ HB).
  rewrite (modify_ok i _ targets []); [|lia]. cbn [bind]. set (t1 := update i (nth i targets [] ++ [j]) targets).
  assert (L1 : List.length t1 = n) by (unfold t1; rewrite update_length; auto).
  rewrite (modify_ok j _ t1 []); [|lia]. cbn [bind]. set (t2 := update j (nth j t1 [] ++ [i]) t1).
  assert (L2 : List.length t2 = n) by (unfold t2; rewrite update_length; auto).
  rewrite (modify_ok i _ t2 []); [|lia]. cbn [bind]. set (t3 := update i (filter (fun x => negb (x =? newj)) (nth i t2 [])) t2).
  assert (L3 : List.length t3 = n) by (unfold t3; rewrite update_length; auto).
  rewrite (modify_ok newj _ t3 []); [|lia]. cbn [bind]. set (t4 := update newj (filter (fun x => negb (x =? i)) (nth newj t3 [])) t3).
  assert (L4 : List.length t4 = n) by (unfold t4; rewrite update_length; auto).
  assert (ltb_n : forall x, x < n -> (x <? n) = true) by (intros; apply Nat.ltb_lt; auto).
  assert (R4 : forall x, x < n -> nth x t4 [] =
     if x =? i then filter (fun y => negb (y =? newj)) (nth i targets [] ++ [j])
     else if x =? j then nth j targets [] ++ [i]
     else if x =? newj then filter (fun y => negb (y =? i)) (nth newj targets [])
     else nth x targets []).
  { intros x Hx. unfold t4. rewrite nth_update, L3, (ltb_n x) by auto. rewrite andb_true_r.
    destruct (Nat.eqb_spec x newj) as [->|Hxn].
    - destruct (Nat.eqb_spec newj i); [congruence|]. destruct (Nat.eqb_spec newj j); [congruence|].
      unfold t3. rewrite nth_update. destruct (Nat.eqb_spec newj i); [congruence|]. cbn [andb].
      unfold t2. rewrite nth_update. destruct (Nat.eqb_spec newj j); [congruence|]. cbn [andb].
      unfold t1. rewrite nth_update. destruct (Nat.eqb_spec newj i); [congruence|]. cbn [andb]. auto.
    - unfold t3. rewrite nth_update, L2, (ltb_n x) by auto. rewrite andb_true_r. destruct (Nat.eqb_spec x i) as [->|Hxi].
      + f_equal. unfold t2. rewrite nth_update. destruct (Nat.eqb_spec i j); [congruence|]. cbn [andb].
        unfold t1. rewrite nth_update, Lt, (ltb_n i), Nat.eqb_refl by auto. auto.
      + unfold t2. rewrite nth_update, L1, (ltb_n x) by auto. rewrite andb_true_r. destruct (Nat.eqb_spec x j) as [->|Hxj].
        * f_equal. unfold t1. rewrite nth_update. destruct (Nat.eqb_spec j i); [congruence|]. auto.
        * unfold t1. rewrite nth_update. destruct (Nat.eqb_spec x i); [congruence|]. auto. }
  assert (C : forall x y, cell m2 x y =
     if ((x =? i) && (y =? newj)) || ((x =? newj) && (y =? i)) then true
     else if ((x =? i) && (y =? j)) || ((x =? j) && (y =? i)) then false else cell m x y).
  { intros x y. rewrite C2, C1. auto. }
  assert (Hsymj : cell m j i = true) by (rewrite (b_sym _ _ _ _ HB); auto).
  assert (Hsymn : cell m newj i = false) by (rewrite (b_sym _ _ _ _ HB); auto).
  (* cells that were set stay set unless they join i and j *)
  assert (Hkeep : forall x y, cell m x y = true -> ~ (x = i /\ y = j) -> ~ (x = j /\ y = i) -> cell m2 x y = true).
  { intros x y Hxy H1 H2. rewrite C. destruct (((x =? i) && (y =? newj)) || ((x =? newj) && (y =? i))); auto.
    destruct (Nat.eqb_spec x i), (Nat.eqb_spec y j), (Nat.eqb_spec x j), (Nat.eqb_spec y i); cbn; auto; exfalso; tauto. }
  exists m2, t4, r', (newj :: List.remove Nat.eq_dec j O). split; [auto|]. split; [|split; [|split; [|split]]].
  - constructor; auto.
    + intros x y Hx Hy. rewrite !C. rewrite (b_sym _ _ _ _ HB x y); auto.
      replace ((y =? i) && (x =? newj) || (y =? newj) && (x =? i)) with ((x =? i) && (y =? newj) || (x =? newj) && (y =? i))
        by (rewrite (andb_comm (x =? i)), (andb_comm (x =? newj)); apply orb_comm).
      replace ((y =? i) && (x =? j) || (y =? j) && (x =? i)) with ((x =? i) && (y =? j) || (x =? j) && (y =? i))
        by (rewrite (andb_comm (x =? i)), (andb_comm (x =? j)); apply orb_comm). auto.
    + intros x Hx. rewrite C. rewrite (b_irr _ _ _ _ HB); auto.
      destruct (Nat.eqb_spec x i), (Nat.eqb_spec x newj), (Nat.eqb_spec x j); subst; try congruence; auto.
    + assert (Q1 := cnt_set_both n i j false (cell m) (cell m1) Hi Hjn Hij C1 Hcj Hsymj).
      assert (Q2 : cnt n (cell m2) + 2 * b2n (negb true) = cnt n (cell m1) + 2 * b2n true).
      { apply (cnt_set_both n i newj true (cell m1) (cell m2)); auto.
        - rewrite C1. destruct (Nat.eqb_spec newj j); [congruence|]. destruct (Nat.eqb_spec newj i); [congruence|]. rewrite !andb_false_r. auto.
        - rewrite C1. destruct (Nat.eqb_spec newj j); [congruence|]. destruct (Nat.eqb_spec newj i); [congruence|]. auto. }
      cbn in Q1, Q2. rewrite (b_cnt _ _ _ _ HB) in Q1. lia.
    + intros x Hx. rewrite R4; auto. destruct (Nat.eqb_spec x i) as [->|Hxi].
      * apply NoDup_filter, nodup_snoc; [apply (b_nodup _ _ _ _ HB); auto|]. intros H. apply (b_targets _ _ _ _ HB) in H; auto. destruct H as (_ & _ & H). congruence.
      * destruct (Nat.eqb_spec x j) as [->|Hxj].
        -- apply nodup_snoc; [apply (b_nodup _ _ _ _ HB); auto|]. intros H. apply (b_targets _ _ _ _ HB) in H; auto. destruct H as (_ & _ & H). congruence.
        -- destruct (Nat.eqb_spec x newj) as [->|Hxn]; [apply NoDup_filter|]; apply (b_nodup _ _ _ _ HB); auto.
    + intros x y Hx. rewrite R4; auto. rewrite C. destruct (Nat.eqb_spec x i) as [->|Hxi].
      * rewrite filter_In, in_app_iff, (b_targets _ _ _ _ HB) by auto. cbn [In]. rewrite negb_true_iff, Nat.eqb_neq.
        destruct (Nat.eqb_spec y newj) as [->|Hyn]; cbn [andb orb].
        -- split; [tauto|]. intros (_ & _ & H). discriminate.
        -- destruct (Nat.eqb_spec i newj); [congruence|]. destruct (Nat.eqb_spec i j); [congruence|]. cbn [andb orb]. rewrite orb_false_r.
           destruct (Nat.eqb_spec y j) as [->|Hyj]; [|intuition congruence]. intuition congruence.
      * destruct (Nat.eqb_spec x j) as [->|Hxj].
        -- rewrite in_app_iff, (b_targets _ _ _ _ HB) by auto. cbn [In]. destruct (Nat.eqb_spec j newj); [congruence|]. cbn [andb orb].
           destruct (Nat.eqb_spec y i) as [->|Hyi]; [|intuition congruence]. intuition congruence.
        -- destruct (Nat.eqb_spec x newj) as [->|Hxn]; cbn [andb orb].
           ++ rewrite filter_In, (b_targets _ _ _ _ HB) by auto. rewrite negb_true_iff, Nat.eqb_neq.
              destruct (Nat.eqb_spec y i) as [->|Hyi]; [|tauto]. split; [tauto|]. intros (_ & _ & H). discriminate.
           ++ rewrite (b_targets _ _ _ _ HB) by auto. tauto.
  - intros p y Hp Hpy. apply Hkeep.
    + apply HI; auto.
    + lia.
    + intros [-> ->]. apply (no_two_ways n (k / 2) i j); auto.
  - intros x Hx. destruct (HO x Hx) as (Ox & N & L & Cx & P). exists Ox. split; auto. split; auto. split; auto.
    intros y Hy. destruct (Cx y Hy) as [Hyn Hcy]. split; auto. apply Hkeep; auto.
    + lia.
    + intros [-> ->]. apply (P i); auto.
  - split; [|split; [|split]].
    + constructor.
      * intros H. apply in_remove in H. destruct H as [H _]. apply OC in H. destruct H. congruence.
      * clear -ON. induction O as [|a O IH]; cbn; [constructor|]. inversion ON; subst. destruct (Nat.eq_dec j a); auto. constructor; auto.
        intros H. apply in_remove in H. tauto.
    + cbn [List.length]. rewrite <- OL. clear -ON Hj. induction O as [|a O IH]; [destruct Hj|]. inversion ON as [|? ? Hna Hd]; subst. cbn. destruct (Nat.eq_dec j a) as [->|Hne].
      * rewrite notin_remove; auto.
      * cbn. destruct Hj as [Hj|Hj]; [congruence|]. rewrite <- (IH Hd Hj). auto.
    + intros y [<-|Hy].
      * split; auto. rewrite C, !Nat.eqb_refl. auto.
      * apply in_remove in Hy. destruct Hy as [Hy Hne]. destruct (OC y Hy) as [Hyn Hcy]. split; auto. apply Hkeep; auto; [tauto|]. intros [-> _]. congruence.
    + intros p Hp Hpi [<-|H].
      * assert (cell m newj i = true) by (apply HI; auto). congruence.
      * apply in_remove in H. destruct H as [H _]. apply (OP p); auto.
  - intros y Hy Hyj. right. apply in_in_remove; auto.
Qed.

Lemma rewire_links_ok n k i : i < n -> 2 * (k / 2) < n -> forall l m targets r O, NoDup l -> (forall j, In j l -> In j O /\ follows n (k / 2) i j) ->
  base_inv n k m targets -> intact n (k / 2) (S i) m ->
  (forall x, x < i -> exists O, owned n (k / 2) i x m O) -> owned n (k / 2) (S i) i m O ->
  exists m' targets' r' O', foldM (rewire_link i) (m, targets, r) l = Ok (m', targets', r') /\
    base_inv n k m' targets' /\ intact n (k / 2) (S i) m' /\
    (forall x, x < i -> exists O, owned n (k / 2) i x m' O) /\ owned n (k / 2) (S i) i m' O'.
Proof.
  intros Hi Hh. induction l as [|j l IH]; intros m targets r O Hnd Hl HB HI HO HOi; cbn [foldM].
  - exists m, targets, r, O. auto.
  - inversion Hnd as [|? ? Hna Hd]; subst. destruct (Hl j (or_introl eq_refl)) as [Hj Hf].
    destruct (rewire_link_ok n k i j m targets r O) as (m1 & t1 & r1 & O1 & E1 & HB1 & HI1 & HO1 & HOi1 & Hk1); auto.
    rewrite E1. cbn [bind]. apply (IH m1 t1 r1 O1); auto.
    intros y Hy. destruct (Hl y (or_intror Hy)) as [H1 H2]. split; auto. apply Hk1; auto. intros ->. auto.
Qed.

Lemma links_to_rewire_ok p m i l : forall r, exists l' r', links_to_rewire (Some p) m i l r = Ok (l', r') /\ subseq l' l /\ (p = 0%N -> l' = []).
Proof.
  induction l as [|j l IH]; intros r; cbn [links_to_rewire].
  - exists [], r. split; auto. split; auto. constructor.
  - destruct (cell m i j).
    + cbn [gen_bool bind fst snd]. destruct (IH (advance r)) as (l' & r' & -> & Hs & H0). cbn [bind fst snd]. eexists _, r'. split; [reflexivity|].
      destruct (N.ltb_spec (r 0%nat mod 2 ^ 64)%N p).
      * split; [apply subseq_take; auto|]. intros ->. apply N.nlt_0_r in H. destruct H.
      * split; [apply subseq_skip; auto|auto].
    + destruct (IH r) as (l' & r' & -> & Hs & H0). exists l', r'. split; auto. split; [apply subseq_skip; auto|auto].
Qed.

Definition sw_inv (n k i : nat) (s : matrix * list (list nat) * rng) : Prop :=
  let '(m, targets, _) := s in
  base_inv n k m targets /\ intact n (k / 2) i m /\ forall x, x < i -> exists O, owned n (k / 2) i x m O.

Lemma rewire_node_ok n k p i s : 2 * (k / 2) < n -> i < n -> sw_inv n k i s ->
  exists s', rewire_node n k (Some p) s i = Ok s' /\ sw_inv n k (S i) s' /\ (p = 0%N -> fst s' = fst s).
Proof.
  intros Hh Hi. destruct s as [[m targets] r]. intros (HB & HI & HO). unfold rewire_node.
  destruct (links_to_rewire_ok p m i (ring_neighbors n k i) r) as (l & r1 & E1 & Hs & H0). rewrite E1. cbn [bind fst snd].
  assert (Hring : NoDup (ring_neighbors n k i)) by (apply ring_neighbors_nodup; lia).
  assert (Hown : owned n (k / 2) (S i) i m (ring_neighbors n k i)).
  { split; [auto|]. split; [apply ring_neighbors_length|]. split.
    - intros y Hy. apply ring_neighbors_in in Hy. split; [apply follows_iff in Hy; lia|]. apply HI; auto.
    - intros q Hq Hqi Hin. apply ring_neighbors_in in Hin. apply (no_two_ways n (k / 2) i q); auto; lia. }
  destruct (rewire_links_ok n k i Hi Hh l m targets r1 (ring_neighbors n k i)) as (m' & t' & r' & O' & E' & HB' & HI' & HO' & HOi').
  - apply (subseq_nodup _ _ Hs). auto.
  - intros j Hj. pose proof (subseq_in _ _ Hs j Hj) as H. split; auto. apply ring_neighbors_in. auto.
  - auto.
  - intros q y Hq. apply HI. lia.
  - auto.
  - auto.
  - exists (m', t', r'). split; auto. split.
    + split; auto. split; auto. intros x Hx. destruct (Nat.eq_dec x i) as [->|Hne]; [eauto|].
      destruct (HO' x) as (O & N & L & C & P); [lia|]. exists O. split; auto. split; auto. split; auto. intros q Hq. apply P. lia.
    + intros Hp. rewrite (H0 Hp) in E'. cbn in E'. injection E' as <- <- <-. auto.
Qed.

Lemma small_world_ok n k p r : Nat.Even k -> k < n -> exists g r', new_random_small_world n k (Some p) r = Ok (g, r') /\
  List.length g = n /\ simple_graph g /\ ascending_links g /\ has_edges g (n * k / 2) /\
  (forall x, x < n -> k / 2 <= List.length (links g x)) /\
  (p = 0%N -> forall x y, link g x y <-> x < n /\ y < n /\ (follows n (k / 2) x y \/ follows n (k / 2) y x)).
Proof.
  intros He Hk. pose proof He as [h Hh0]. assert (Hh2 : k / 2 = h) by (rewrite Hh0, Nat.mul_comm; apply Nat.div_mul; lia).
  assert (Hh : 2 * (k / 2) < n) by lia. unfold new_random_small_world.
  replace (k mod 2 =? 0) with true by (symmetry; apply Nat.eqb_eq; rewrite Hh0, Nat.mul_comm; apply Nat.mod_mul; lia). cbn [assert].
  destruct (ring_lattice_ok n k) as (m & Em & Hm & Hc); [lia|]. rewrite Em. cbn [bind].
  replace (k <=? n) with true by (symmetry; apply Nat.leb_le; lia). cbn [assert].
  destruct (foldM_range (rewire_node n k (Some p)) (fun i s => sw_inv n k i s /\ (p = 0%N -> fst s = (m, free_targets n m))) 0 n (m, free_targets n m, r)) as (s & Es & Hs & H0); [lia| | |].
  - intros i s Hi [Hs H0]. destruct (rewire_node_ok n k p i s) as (s' & E & Hs' & H0'); auto; [lia|]. exists s'. split; auto. split; auto.
    intros Hp. rewrite (H0' Hp). auto.
  - split; [|auto]. split; [|split].
    + assert (Hsym : forall x y, x < n -> y < n -> cell m x y = cell m y x).
      { intros x y Hx Hy. destruct (cell m x y) eqn:E1, (cell m y x) eqn:E2; auto.
        - apply Hc in E1; auto. assert (cell m y x = true) by (apply Hc; tauto). congruence.
        - apply Hc in E2; auto. assert (cell m x y = true) by (apply Hc; tauto). congruence. }
      constructor; auto.
      * intros x Hx. destruct (cell m x x) eqn:E; auto. apply Hc in E; auto. assert (E' : follows n (k / 2) x x) by tauto.
        exfalso. apply (no_two_ways n (k / 2) x x); auto.
      * unfold cnt. rewrite (sumf_ext n _ (fun _ => k)).
        -- unfold sumf. clear. replace n with (List.length (seq 0 n)) at 2 by apply seq_length. induction (seq 0 n) as [|a l IH]; auto.
           cbn [map List.length]. unfold list_sum in *. cbn [fold_right]. lia.
        -- intros x Hx. transitivity (List.length (filter (cell m x) (range 0 n))); [|apply ring_degree; auto]. rewrite filter_count. unfold sumf, range. rewrite Nat.sub_0_r. auto.
      * unfold free_targets. rewrite map_length, range_length. lia.
      * intros x Hx. unfold free_targets. rewrite nth_map_range; auto. apply NoDup_filter, range_nodup.
      * intros x y Hx. unfold free_targets. rewrite nth_map_range; auto. rewrite filter_In, range_in, !andb_true_iff, !negb_true_iff, Nat.eqb_neq.
        split.
        -- intros (H1 & (H2 & H3) & H4). split; [lia|]. split; [lia|auto].
        -- intros (H1 & H2 & H3). split; [lia|]. split; [split; [lia|auto]|]. rewrite Hsym; auto.
    + intros q y Hq Hy. apply Hc; [lia| |auto]. apply follows_iff in Hy; lia.
    + intros; lia.
  - rewrite Es. cbn [bind]. destruct s as [[m' t'] r']. destruct Hs as (HB & HI & HO). set (g := graph_of_matrix n m').
    assert (Hlink : forall x y, link g x y <-> x < n /\ y < n /\ cell m' x y = true).
    { intros x y. unfold g, graph_of_matrix. rewrite link_map, filter_In, range_in. intuition lia. }
    assert (Hlen : List.length g = n) by (unfold g, graph_of_matrix; rewrite map_length, range_length; lia).
    assert (Hasc : ascending_links g).
    { unfold ascending_links, g, graph_of_matrix. rewrite Forall_forall. intros l Hl. apply in_map_iff in Hl. destruct Hl as (x & <- & _).
      apply filter_sorted_lt, range_sorted. }
    assert (Hsimple : simple_graph g).
    { split; [|split; [|split]].
      - intros x y H. apply Hlink in H. lia.
      - intros x y H. apply Hlink in H. apply Hlink. destruct H as (Hx & Hy & H). split; auto. split; auto. rewrite (b_sym _ _ _ _ HB); auto.
      - intros x H. apply Hlink in H. destruct H as (Hx & _ & H). rewrite (b_irr _ _ _ _ HB) in H; auto. discriminate.
      - unfold no_repeated_links. eapply Forall_impl; [|exact Hasc]. apply sorted_lt_nodup. }
    destruct (is_undirected_spec g) as (u & Eu & Hu); [apply Hsimple|]. rewrite Eu. cbn [bind].
    replace u with true by (symmetry; apply Hu; apply Hsimple). cbn [assert]. exists g, r'. split; auto. split; auto. split; auto. split; auto. split; [|split].
    + apply simple_edges; auto. unfold g. rewrite graph_total, (b_cnt _ _ _ _ HB). replace (n * k) with ((n * h) * 2) by lia. rewrite Nat.div_mul; lia.
    + intros x Hx. destruct (HO x Hx) as (O & N & L & C & _). rewrite <- L. apply NoDup_incl_length; auto.
      intros y Hy. apply link_links, Hlink. destruct (C y Hy). auto.
    + intros Hp x y. rewrite Hlink. specialize (H0 Hp). cbn in H0. injection H0 as -> ->. split.
      * intros (Hx & Hy & H). split; auto. split; auto. apply Hc; auto.
      * intros (Hx & Hy & H). split; auto. split; auto. apply Hc; auto.
Qed.

Lemma small_world_panics n k beta r : Nat.Odd k \/ n < k -> new_random_small_world n k beta r = Panic.
Proof.
  intros H. unfold new_random_small_world. destruct (Nat.eqb_spec (k mod 2) 0) as [E|E]; auto. cbn [assert].
  destruct H as [[h Hh]|H].
  - exfalso. rewrite Hh in E. replace (2 * h + 1) with (1 + h * 2) in E by lia. rewrite Nat.mod_add in E; [cbn in E; lia|lia].
  - destruct (ring_lattice n k); auto. cbn [bind]. destruct (Nat.leb_spec k n); [lia|auto].
Qed.
