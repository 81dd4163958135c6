(** Proofs about [new_random_scale_free]. *)
From Verif Require Import Spec_SimGraph P_List P_SimGraph P_Mesh.
Local Open Scope list_scope.

Definition total (g : graph) : nat := list_sum (map (@List.length nat) g).

Lemma total_update i l (g : graph) : i < List.length g -> total (update i l g) + List.length (links g i) = total g + List.length l.
Proof.
  unfold total, links. revert i. induction g as [|a g IH]; intros i Hi; [cbn in Hi; lia|]. destruct i as [|i].
  - cbn [update map nth]. unfold list_sum. cbn [fold_right]. lia.
  - cbn [update map nth]. unfold list_sum in *. cbn [fold_right]. cbn in Hi. specialize (IH i). lia.
Qed.

Lemma push_link_ok i j g : i < List.length g -> exists g', push_link i j g = Ok g' /\ List.length g' = List.length g /\
  total g' = total g + 1 /\ forall x, links g' x = links g x ++ (if x =? i then [j] else []).
Proof.
  intros Hi. unfold push_link. rewrite (nth_error_some_nth g i []); auto. cbn [unwrap bind]. rewrite set_at_ok; auto.
  eexists. split; [reflexivity|]. split; [apply update_length|]. split.
  - pose proof (total_update i (nth i g [] ++ [j]) g Hi) as H. rewrite app_length in H. cbn [List.length] in H. unfold links in H. lia.
  - intros x. unfold links. rewrite nth_update. destruct (Nat.eqb_spec x i) as [->|Hne]; cbn [andb].
    + destruct (Nat.ltb_spec i (List.length g)); [auto|lia].
    + rewrite app_nil_r. auto.
Qed.

Lemma connect_ok a b g : a < List.length g -> b < List.length g -> a <> b -> exists g', connect a b g = Ok g' /\
  List.length g' = List.length g /\ total g' = total g + 2 /\
  forall x, links g' x = links g x ++ (if x =? a then [b] else if x =? b then [a] else []).
Proof.
  intros Ha Hb Hab. unfold connect. apply Nat.eqb_neq in Hab. rewrite Hab. cbn [negb assert].
  destruct (push_link_ok a b g Ha) as (g1 & E1 & L1 & T1 & R1). rewrite E1. cbn [bind].
  destruct (push_link_ok b a g1) as (g2 & E2 & L2 & T2 & R2); [lia|]. exists g2. split; auto. split; [lia|]. split; [lia|].
  intros x. rewrite R2, R1. apply Nat.eqb_neq in Hab. destruct (Nat.eqb_spec x a), (Nat.eqb_spec x b); subst; try congruence; rewrite ?app_nil_r; auto.
Qed.

(** ** the initial clique *)
Definition clique_row (m0 i x : nat) : list nat :=
  if x <? m0 then range 0 (Nat.min x i) ++ (if x <? i then range (x + 1) m0 else []) else [].

Lemma range_snoc a b : a <= b -> range a (S b) = range a b ++ [b].
Proof. intros H. unfold range. replace (S b - a) with ((b - a) + 1) by lia. rewrite seq_app. cbn. f_equal. f_equal. lia. Qed.

Lemma clique_ok n m0 : m0 <= n -> exists g,
  foldM (fun g i => foldM (fun g j => connect i j g) g (range (i + 1) m0)) (repeat [] n) (range 0 m0) = Ok g /\
  List.length g = n /\ total g = m0 * (m0 - 1) /\ forall x, links g x = clique_row m0 m0 x.
Proof.
  intros Hn. destruct (foldM_range (fun g i => foldM (fun g j => connect i j g) g (range (i + 1) m0))
    (fun i (g : graph) => List.length g = n /\ total g + (m0 - i) * (m0 - i - 1) = m0 * (m0 - 1) /\ forall x, links g x = clique_row m0 i x)
    0 m0 (repeat [] n)) as (g & E & Hl & Ht & Hr); [lia| | |].
  - intros i g Hi (Hl & Ht & Hr).
    destruct (foldM_range (fun g j => connect i j g)
      (fun j (g' : graph) => List.length g' = n /\ total g' = total g + 2 * (j - (i + 1)) /\
         forall x, links g' x = clique_row m0 i x ++ (if x =? i then range (i + 1) j else if (i <? x) && (x <? j) then [i] else []))
      (i + 1) m0 g) as (g' & E & Hl' & Ht' & Hr'); [lia| | |].
    + intros j g' Hj (Hl' & Ht' & Hr'). destruct (connect_ok i j g') as (g2 & E2 & L2 & T2 & R2); [lia|lia|lia|].
      exists g2. split; auto. split; [lia|]. split; [lia|]. intros x. rewrite R2, Hr'. rewrite <- app_assoc. f_equal.
      destruct (Nat.eqb_spec x i) as [->|Hne].
      * rewrite range_snoc; auto. lia.
      * destruct (Nat.eqb_spec x j) as [->|Hne'].
        -- rewrite Nat.ltb_irrefl, andb_false_r. destruct (Nat.ltb_spec i j); [|lia]. destruct (Nat.ltb_spec j (S j)); [|lia]. auto.
        -- rewrite app_nil_r. replace (x <? S j) with (x <? j); auto. destruct (Nat.ltb_spec x j), (Nat.ltb_spec x (S j)); auto; lia.
    + split; [auto|]. split; [lia|]. intros x. rewrite Hr. destruct (Nat.eqb_spec x i) as [->|Hne].
      * unfold range. rewrite Nat.sub_diag. cbn. rewrite app_nil_r. auto.
      * destruct (Nat.ltb_spec i x), (Nat.ltb_spec x (i + 1)); try lia; cbn; rewrite app_nil_r; auto.
    + exists g'. split; auto. split; auto. split.
      * assert (total g' + (m0 - S i) * (m0 - S i - 1) = total g + (m0 - i) * (m0 - i - 1)); [|lia].
        rewrite Ht'. remember (m0 - S i) as d. replace (m0 - (i + 1)) with d by lia. replace (m0 - i) with (S d) by lia.
        replace (S d - 1) with d by lia. destruct d as [|d]; [lia|]. replace (S d - 1) with d by lia. nia.
      * intros x. rewrite Hr'. unfold clique_row. destruct (Nat.ltb_spec x m0) as [Hx|Hx].
        -- destruct (Nat.eqb_spec x i) as [->|Hne].
           ++ rewrite Nat.ltb_irrefl. destruct (Nat.ltb_spec i (S i)); [|lia]. rewrite !Nat.min_l by lia. rewrite app_nil_r. auto.
           ++ destruct (Nat.ltb_spec i x).
              ** destruct (Nat.ltb_spec x i); [lia|]. destruct (Nat.ltb_spec x (S i)); [lia|]. cbn [andb]. rewrite !app_nil_r, !Nat.min_r by lia.
                 rewrite range_snoc; auto. lia.
              ** destruct (Nat.ltb_spec x i); [|lia]. destruct (Nat.ltb_spec x (S i)); [|lia]. cbn [andb]. rewrite app_nil_r, !Nat.min_l by lia. auto.
        -- destruct (Nat.eqb_spec x i); [lia|]. rewrite andb_false_r. auto.
  - split; [apply repeat_length|]. split.
    + rewrite Nat.sub_0_r. unfold total. assert (E0 : list_sum (map (@List.length nat) (repeat [] n)) = 0); [|lia]. clear. induction n; auto.
    + intros x. unfold links. rewrite nth_repeat. unfold clique_row. rewrite Nat.min_0_r. destruct (x <? m0); auto.
  - exists g. split; auto. split; auto. split; auto. rewrite Nat.sub_diag in Ht. cbn in Ht. lia.
Qed.

Lemma clique_row_in m0 x y : In y (clique_row m0 m0 x) <-> x < m0 /\ y < m0 /\ x <> y.
Proof.
  unfold clique_row. destruct (Nat.ltb_spec x m0); [|cbn; lia]. rewrite Nat.min_l by lia. rewrite in_app_iff, !range_in. lia.
Qed.
Lemma clique_row_nodup m0 x : NoDup (clique_row m0 m0 x).
Proof.
  unfold clique_row. destruct (Nat.ltb_spec x m0); [|constructor]. rewrite Nat.min_l by lia. apply sorted_lt_nodup, sorted_app_lt; try apply range_sorted.
  intros a b Ha Hb. apply range_in in Ha, Hb. lia.
Qed.

(** ** attaching a node *)
Lemma filter_other_length l j : NoDup l -> In j l -> S (List.length (filter (fun x => negb (x =? j)) l)) = List.length l.
Proof.
  induction l as [|a l IH]; intros Hnd Hin; [destruct Hin|]. inversion Hnd as [|? ? Hna Hd]; subst. cbn. destruct (Nat.eqb_spec a j) as [->|Hne]; cbn.
  - f_equal. rewrite <- (map_id l) at 2. rewrite map_id. clear -Hna. induction l as [|b l IH]; auto. cbn. destruct (Nat.eqb_spec b j) as [->|]; cbn.
    + exfalso. apply Hna. left. auto.
    + f_equal. apply IH. intros H. apply Hna. right. auto.
  - f_equal. apply IH; auto. destruct Hin; [congruence|auto].
Qed.

Lemma attach_ok m : forall i targets g r, i < List.length g -> NoDup targets -> m <= List.length targets ->
  (forall x, In x targets -> x < List.length g /\ x <> i /\ links g x <> []) ->
  exists g' r' ch, attach m i targets g r = Ok (g', r') /\ List.length g' = List.length g /\ total g' = total g + 2 * m /\
    NoDup ch /\ incl ch targets /\ List.length ch = m /\ links g' i = links g i ++ ch /\
    forall x, x <> i -> links g' x = links g x ++ (if in_dec Nat.eq_dec x ch then [i] else []).
Proof.
  induction m as [|m IH]; intros i targets g r Hi Hnd Hm Ht; cbn [attach].
  - exists g, r, []. split; auto. split; auto. split; [lia|]. split; [constructor|]. split; [intros ? []|]. split; auto. split; [rewrite app_nil_r; auto|].
    intros x _. cbn. rewrite app_nil_r. auto.
  - destruct (choose_weighted_some (fun x => List.length (links g x)) targets r) as (j & r1 & E1 & Hj & Hw).
    { destruct targets as [|x l]; [cbn in Hm; lia|]. cbn [map]. unfold list_sum. cbn [fold_right].
      destruct (Ht x) as (_ & _ & Hx); [left; auto|]. destruct (links g x); [congruence|]. cbn [List.length]. lia. }
    rewrite E1. cbn [unwrap bind]. destruct (Ht j Hj) as (Hj1 & Hj2 & Hj3). destruct (connect_ok i j g) as (g1 & Ec & L1 & T1 & R1); auto.
    rewrite Ec. cbn [bind]. pose proof (filter_other_length targets j Hnd Hj) as Hlen.
    destruct (IH i (filter (fun x => negb (x =? j)) targets) g1 r1) as (g' & r' & ch & E' & L' & T' & N' & I' & C' & Ri & Rx); try lia.
    + apply NoDup_filter. auto.
    + intros x Hx. apply filter_In in Hx. destruct Hx as [Hx _]. destruct (Ht x Hx) as (H1 & H2 & H3). split; [lia|]. split; auto.
      rewrite R1. destruct (links g x); [congruence|]. discriminate.
    + exists g', r', (j :: ch). split; auto. split; [lia|]. split; [lia|]. split; [|split; [|split; [|split]]].
      * constructor; auto. intros H. apply I' in H. apply filter_In in H. rewrite Nat.eqb_refl in H. destruct H. discriminate.
      * intros x [<-|Hx]; auto. apply I' in Hx. apply filter_In in Hx. tauto.
      * cbn. lia.
      * rewrite Ri, R1, Nat.eqb_refl, <- app_assoc. auto.
      * intros x Hx. rewrite Rx, R1; auto. destruct (Nat.eqb_spec x i); [congruence|]. rewrite <- app_assoc. f_equal.
        destruct (Nat.eqb_spec x j) as [->|Hne].
        -- destruct (in_dec Nat.eq_dec j ch) as [H|_].
           ++ exfalso. apply I' in H. apply filter_In in H. rewrite Nat.eqb_refl in H. destruct H. discriminate.
           ++ destruct (in_dec Nat.eq_dec j (j :: ch)) as [_|H]; auto. exfalso. apply H. left. auto.
        -- cbn [app]. destruct (in_dec Nat.eq_dec x ch) as [H|H], (in_dec Nat.eq_dec x (j :: ch)) as [H'|H']; auto.
           ++ exfalso. apply H'. right. auto.
           ++ exfalso. destruct H'; [congruence|auto].
Qed.

Record sf_inv (n m0 m i : nat) (g : graph) : Prop := {
  sf_len : List.length g = n;
  sf_total : total g = m0 * (m0 - 1) + 2 * ((i - m0) * m);
  sf_empty : forall x, i <= x -> links g x = [];
  sf_filled : forall x, x < i -> links g x <> [];
  sf_sym : forall x y, In y (links g x) -> In x (links g y) /\ x <> y /\ x < i;
  sf_nodup : forall x, NoDup (links g x);
  sf_clique : forall x y, x < m0 -> y < m0 -> x <> y -> In y (links g x);
  sf_lower : forall x, m0 <= x < i -> List.length (filter (fun y => y <? x) (links g x)) = m }.

Lemma filter_ltb_all l x : (forall y, In y l -> y < x) -> filter (fun y => y <? x) l = l.
Proof. induction l as [|a l IH]; intros H; auto. cbn [filter]. destruct (Nat.ltb_spec a x) as [|Hge]; [f_equal; apply IH; intros; apply H; right; auto|]. specialize (H a (or_introl eq_refl)). lia. Qed.

Lemma sf_step n m0 m i g r : 0 < m <= m0 -> m0 <= i < n -> sf_inv n m0 m i g ->
  exists gr, attach m i (range 0 i) g r = Ok gr /\ sf_inv n m0 m (S i) (fst gr).
Proof.
  intros Hm Hi H. destruct (attach_ok m i (range 0 i) g r) as (g' & r' & ch & E & L & T & N & I & C & Ri & Rx).
  - rewrite (sf_len _ _ _ _ _ H). lia.
  - apply range_nodup.
  - rewrite range_length. lia.
  - intros x Hx. apply range_in in Hx. rewrite (sf_len _ _ _ _ _ H). split; [lia|]. split; [lia|]. apply (sf_filled _ _ _ _ _ H). lia.
  - exists (g', r'). split; auto. cbn [fst]. rewrite (sf_empty _ _ _ _ _ H i) in Ri; [|lia]. cbn [app] in Ri.
    assert (Hch : forall x, In x ch -> x < i) by (intros x Hx; apply I in Hx; apply range_in in Hx; lia).
    assert (Hin : forall x, x <> i -> forall y, In y (links g' x) <-> In y (links g x) \/ (y = i /\ In x ch)).
    { intros x Hx y. rewrite Rx; auto. rewrite in_app_iff. destruct (in_dec Nat.eq_dec x ch) as [Hc|Hc]; cbn; split; intros [Hy|Hy]; auto; try tauto.
      - destruct Hy as [<-|[]]. auto.
      - right. left. symmetry. tauto. }
    assert (Hnoti : forall x, ~ In i (links g x)).
    { intros x Hx. apply (sf_sym _ _ _ _ _ H) in Hx. destruct Hx as (Hx & _). rewrite (sf_empty _ _ _ _ _ H i) in Hx; [destruct Hx|lia]. }
    constructor.
    + rewrite L. apply (sf_len _ _ _ _ _ H).
    + rewrite T, (sf_total _ _ _ _ _ H). replace (S i - m0) with (S (i - m0)) by lia. lia.
    + intros x Hx. rewrite Rx; [|lia]. rewrite (sf_empty _ _ _ _ _ H); [|lia]. destruct (in_dec Nat.eq_dec x ch) as [Hc|_]; auto.
      apply Hch in Hc. lia.
    + intros x Hx. destruct (Nat.eq_dec x i) as [->|Hne].
      * rewrite Ri. intros Hc. rewrite Hc in C. cbn in C. lia.
      * rewrite Rx; auto. intros Hc. apply app_eq_nil in Hc. destruct Hc as [Hc _]. revert Hc. apply (sf_filled _ _ _ _ _ H). lia.
    + intros x y Hy. destruct (Nat.eq_dec x i) as [->|Hne].
      * rewrite Ri in Hy. pose proof (Hch y Hy). split; [|split; [lia|lia]]. apply Hin; [lia|]. auto.
      * apply Hin in Hy; auto. destruct Hy as [Hy|[-> Hy]].
        -- pose proof (sf_sym _ _ _ _ _ H _ _ Hy) as (H1 & H2 & H3). split; [|split; [auto|lia]]. apply Hin; auto. intros ->. apply (Hnoti x). auto.
        -- pose proof (Hch x Hy). split; [|split; [lia|lia]]. rewrite Ri. auto.
    + intros x. destruct (Nat.eq_dec x i) as [->|Hne]; [rewrite Ri; auto|]. rewrite Rx; auto.
      destruct (in_dec Nat.eq_dec x ch); [|rewrite app_nil_r; apply (sf_nodup _ _ _ _ _ H)].
      apply (Permutation_NoDup (l := i :: links g x)); [apply Permutation_cons_append|]. constructor; [apply Hnoti|apply (sf_nodup _ _ _ _ _ H)].
    + intros x y Hx Hy Hxy. apply Hin; [lia|]. left. apply (sf_clique _ _ _ _ _ H); auto.
    + intros x Hx. destruct (Nat.eq_dec x i) as [->|Hne].
      * rewrite Ri, filter_ltb_all; auto.
      * rewrite Rx; auto. rewrite filter_app, app_length, (sf_lower _ _ _ _ _ H); [|lia].
        destruct (in_dec Nat.eq_dec x ch); cbn [filter List.length]; [|lia]. destruct (Nat.ltb_spec i x); [lia|]. cbn. lia.
Qed.

Lemma scale_free_inv n m0 m r : 0 < m <= m0 -> m0 <= n -> (2 <= m0 \/ m0 = n) ->
  exists g r', new_random_scale_free n m0 m r = Ok (g, r') /\ simple_graph g /\ List.length g = n /\
    has_edges g (m0 * (m0 - 1) / 2 + (n - m0) * m) /\
    (forall x y, x < m0 -> y < m0 -> x <> y -> link g x y) /\
    (forall x, m0 <= x < n -> List.length (filter (fun y => y <? x) (links g x)) = m).
Proof.
  intros Hm Hn H2. unfold new_random_scale_free.
  replace ((0 <? m) && (m <=? m0) && (m <=? n)) with true.
  2:{ symmetry. rewrite !andb_true_iff, Nat.ltb_lt, !Nat.leb_le. lia. }
  cbn [assert]. destruct (clique_ok n m0 Hn) as (g0 & E0 & L0 & T0 & R0). rewrite E0. cbn [bind].
  assert (Hdeg : exists gr, foldM (fun '(g, r) i => attach m i (range 0 i) g r) (g0, r) (range m0 n) = Ok gr /\
    List.length (fst gr) = n /\ total (fst gr) = m0 * (m0 - 1) + 2 * ((n - m0) * m) /\
    (forall x y, In y (links (fst gr) x) -> In x (links (fst gr) y) /\ x <> y /\ x < n) /\ (forall x, NoDup (links (fst gr) x)) /\
    (forall x y, x < m0 -> y < m0 -> x <> y -> In y (links (fst gr) x)) /\
    (forall x, m0 <= x < n -> List.length (filter (fun y => y <? x) (links (fst gr) x)) = m)).
  { destruct H2 as [H2| ->].
    - destruct (foldM_range (fun '(g, r) i => attach m i (range 0 i) g r) (fun i gr => sf_inv n m0 m i (fst gr)) m0 n (g0, r)) as (gr & E & H); auto.
      + intros i [g r0] Hi HI. apply sf_step; auto.
      + cbn [fst]. constructor; auto.
        * rewrite T0, Nat.sub_diag. lia.
        * intros x Hx. rewrite R0. unfold clique_row. destruct (Nat.ltb_spec x m0); [lia|auto].
        * intros x Hx Hc. assert (Hin : In (if x =? 0 then 1 else 0) (links g0 x)); [|rewrite Hc in Hin; destruct Hin].
          rewrite R0. apply clique_row_in. destruct (Nat.eqb_spec x 0); lia.
        * intros x y Hy. rewrite R0 in *. rewrite clique_row_in in *. lia.
        * intros x. rewrite R0. apply clique_row_nodup.
        * intros x y Hx Hy Hxy. rewrite R0. apply clique_row_in. auto.
        * intros; lia.
      + exists gr. split; auto. destruct H. repeat split; auto; try (apply sf_sym0; auto). apply sf_sym0 in H. tauto.
    - replace (range n n) with (@nil nat) by (unfold range; rewrite Nat.sub_diag; auto). cbn [foldM]. exists (g0, r). split; auto. cbn [fst].
      split; [auto|]. split; [lia|]. split; [intros x y Hy; rewrite R0 in *; rewrite clique_row_in in *; lia|].
      split; [intros x; rewrite R0; apply clique_row_nodup|]. split; [intros x y Hx Hy Hxy; rewrite R0; apply clique_row_in; auto|intros; lia]. }
  destruct Hdeg as ([g r'] & E & Hl & Ht & Hs & Hd & Hc & Hlow). cbn [fst] in *. rewrite E. cbn [bind fst].
  assert (Hsimple : simple_graph g).
  { split; [|split; [|split]].
    - intros x y Hxy. apply link_links in Hxy. apply Hs in Hxy. destruct Hxy as (Hy & _). apply Hs in Hy. rewrite Hl. tauto.
    - intros x y Hxy. apply link_links. apply link_links in Hxy. apply Hs in Hxy. tauto.
    - intros x Hx. apply link_links in Hx. apply Hs in Hx. tauto.
    - apply no_repeated_nth. auto. }
  destruct (is_undirected_spec g) as (u & Eu & Hu); [apply Hsimple|]. rewrite Eu. cbn [bind].
  replace u with true by (symmetry; apply Hu; apply Hsimple). cbn [assert].
  exists g, r'. split; auto. split; auto. split; auto. split; [|split; [|auto]].
  - apply simple_edges; auto. change (total g = 2 * (m0 * (m0 - 1) / 2 + (n - m0) * m)). rewrite Ht.
    assert (Heven : m0 * (m0 - 1) = 2 * (m0 * (m0 - 1) / 2)); [|lia].
    apply Nat.div_exact; [lia|]. destruct m0 as [|k]; [reflexivity|]. replace (S k - 1) with k by lia.
    destruct (Nat.Even_or_Odd k) as [[q ->]|[q ->]].
    + replace (S (2 * q) * (2 * q)) with ((S (2 * q) * q) * 2) by lia. apply Nat.mod_mul. lia.
    + replace (S (2 * q + 1) * (2 * q + 1)) with ((S q * (2 * q + 1)) * 2) by lia. apply Nat.mod_mul. lia.
  - intros x y Hx Hy Hxy. apply link_links. auto.
Qed.

(** the remaining case *)
Lemma scale_free_m0_1 n r : 2 <= n -> new_random_scale_free n 1 1 r = Panic.
Proof.
  intros Hn. unfold new_random_scale_free. replace ((0 <? 1) && (1 <=? 1) && (1 <=? n)) with true.
  2:{ symmetry. rewrite !andb_true_iff, Nat.ltb_lt, !Nat.leb_le. lia. }
  cbn [assert]. destruct (clique_ok n 1) as (g0 & E0 & L0 & T0 & R0); [lia|]. rewrite E0. cbn [bind].
  replace (range 1 n) with (1 :: seq 2 (n - 2)) by (unfold range; replace (n - 1) with (S (n - 2)) by lia; auto). cbn [foldM attach].
  replace (range 0 1) with [0] by reflexivity. unfold choose_weighted. cbn [map]. rewrite R0. cbn. auto.
Qed.
Lemma scale_free_m0_big n m0 m r : n < m0 -> 0 < n -> new_random_scale_free n m0 m r = Panic.
Proof.
  intros Hn Hn0. unfold new_random_scale_free. destruct ((0 <? m) && (m <=? m0) && (m <=? n)); auto. cbn [assert].
  (* the link from 0 to n *)
  replace (range 0 m0) with (0 :: range 1 m0) by (unfold range; destruct m0; [lia|]; replace (S m0 - 0) with (S m0) by lia; replace (S m0 - 1) with m0 by lia; auto).
  cbn [foldM]. replace (range (0 + 1) m0) with (range 1 n ++ n :: range (S n) m0).
  2:{ unfold range. replace (n :: seq (S n) (m0 - S n)) with (seq n (S (m0 - S n))) by reflexivity.
      replace (seq n (S (m0 - S n))) with (seq (1 + (n - 1)) (S (m0 - S n))) by (f_equal; lia). rewrite <- seq_app. f_equal. lia. }
  assert (G : forall l g, List.length g = n -> (forall x, In x l -> 0 < x < n) -> exists g', foldM (fun g j => connect 0 j g) g l = Ok g' /\ List.length g' = n).
  { induction l as [|x l IH]; intros g Hl Hb; cbn [foldM]; eauto. assert (0 < x < n) by (apply Hb; left; auto).
    destruct (connect_ok 0 x g) as (g1 & E1 & L1 & _); [lia|lia|lia|]. rewrite E1. cbn [bind]. apply IH; [lia|]. intros; apply Hb; right; auto. }
  assert (A : forall B C (k : B -> C -> res B) l1 l2 s, foldM k s (l1 ++ l2) = (s' <- foldM k s l1 ;; foldM k s' l2)).
  { intros B C k. induction l1 as [|x l1 IH]; intros l2 s; cbn; auto. destruct (k s x); cbn; auto. }
  rewrite A. destruct (G (range 1 n) (repeat [] n)) as (g' & E' & L'); [apply repeat_length|intros x Hx; apply range_in in Hx; lia|].
  rewrite E'. cbn [bind foldM]. unfold connect at 1. destruct (Nat.eqb_spec 0 n); [lia|]. cbn [negb assert].
  destruct (push_link_ok 0 n g') as (g1 & E1 & L1 & _); [lia|]. rewrite E1. cbn [bind]. unfold push_link. rewrite (proj2 (nth_error_None g1 n)); [auto|lia].
Qed.
