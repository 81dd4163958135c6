(** Proofs about mesh constructors, counting of links, degrees and shuffling. *)
From Verif Require Import Spec_SimGraph P_List P_SimGraph.
Local Open Scope list_scope.

Lemma link_map h n i j : link (map h (range 0 n)) i j <-> i < n /\ In j (h i).
Proof.
  rewrite link_links. unfold links. split.
  - intros H. destruct (Nat.lt_ge_cases i n) as [Hi|Hi].
    + rewrite nth_map_range in H; auto.
    + rewrite nth_overflow in H; [destruct H|]. rewrite map_length, range_length. lia.
  - intros [Hi H]. rewrite nth_map_range; auto.
Qed.

Lemma sorted_app_lt (a b : list nat) : StronglySorted lt a -> StronglySorted lt b -> (forall x y, In x a -> In y b -> x < y) ->
  StronglySorted lt (a ++ b).
Proof.
  induction a as [|x a IH]; intros Ha Hb H; cbn; auto. inversion Ha as [|? ? Ha' Hx]; subst. constructor.
  - apply IH; auto. intros; apply H; auto. right. auto.
  - apply Forall_app. split; auto. rewrite Forall_forall. intros y Hy. apply H; auto. left. auto.
Qed.
Lemma sorted_lt_nodup (l : list nat) : StronglySorted lt l -> NoDup l.
Proof.
  induction 1 as [|x l Hl IH Hx]; constructor; auto. intros H. rewrite Forall_forall in Hx. specialize (Hx x H). lia.
Qed.

(** ** full mesh *)
Lemma full_mesh_links n i j : link (new_full_mesh n) i j <-> i < n /\ j < n /\ i <> j.
Proof.
  unfold new_full_mesh. rewrite link_map, in_app_iff, !range_in. lia.
Qed.
Lemma full_mesh_ascending n : ascending_links (new_full_mesh n).
Proof.
  unfold ascending_links, new_full_mesh. rewrite Forall_forall. intros l Hl. apply in_map_iff in Hl. destruct Hl as (i & <- & Hi).
  apply sorted_app_lt; try apply range_sorted. intros x y Hx Hy. apply range_in in Hx, Hy. lia.
Qed.
Lemma full_mesh_size n : List.length (new_full_mesh n) = n.
Proof. unfold new_full_mesh. rewrite map_length, range_length. lia. Qed.

(** ** tiers *)
Definition tier_start (sizes : list nat) (t : nat) : nat := list_sum (firstn t sizes).
Lemma tier_start_S sizes t s : nth_error sizes t = Some s -> tier_start sizes (S t) = tier_start sizes t + s.
Proof.
  unfold tier_start. revert t. induction sizes as [|a sizes IH]; intros [|t] H; cbn in H; try discriminate.
  - injection H as ->. cbn. lia.
  - rewrite !firstn_cons. change (a + list_sum (firstn (S t) sizes) = a + list_sum (firstn t sizes) + s). rewrite (IH t); auto. lia.
Qed.
Lemma tier_start_all sizes : tier_start sizes (List.length sizes) = list_sum sizes.
Proof. unfold tier_start. rewrite firstn_all. auto. Qed.
Lemma tier_start_mono sizes t t' : t <= t' -> tier_start sizes t <= tier_start sizes t'.
Proof.
  intros H. induction H as [|t' H IH]; auto. destruct (nth_error sizes t') as [s|] eqn:E.
  - rewrite (tier_start_S _ _ _ E). lia.
  - apply nth_error_None in E. unfold tier_start in *. rewrite (firstn_all2 sizes (n := S t')); [|lia]. rewrite (firstn_all2 sizes (n := t')) in IH; auto.
Qed.
Lemma in_tier_unique sizes i t t' : in_tier sizes i t -> in_tier sizes i t' -> t = t'.
Proof.
  intros [_ H] [_ H']. fold (tier_start sizes t) (tier_start sizes (S t)) in H. fold (tier_start sizes t') (tier_start sizes (S t')) in H'.
  destruct (Nat.lt_trichotomy t t') as [L|[L|L]]; auto; exfalso.
  - pose proof (tier_start_mono sizes (S t) t'). lia.
  - pose proof (tier_start_mono sizes (S t') t). lia.
Qed.

(** the links that nodes of tier [t] should have *)
Definition tier_row (sizes : list nat) (t i : nat) : list nat :=
  match t with 0 => [] | S t' => range (tier_start sizes t') (tier_start sizes t) end ++
  range (tier_start sizes t) i ++ range (i + 1) (tier_start sizes (S t)).

Definition tier_state (sizes : list nat) (t : nat) (s : graph * list nat) : Prop :=
  List.length (fst s) = list_sum sizes /\
  snd s = match t with 0 => [] | S t' => range (tier_start sizes t') (tier_start sizes t) end /\
  (forall i t', t' < t -> in_tier sizes i t' -> nth_error (fst s) i = Some (tier_row sizes t' i)) /\
  (forall i, tier_start sizes t <= i < list_sum sizes -> nth_error (fst s) i = Some []).

Lemma rev_range a b : a < b -> exists l, rev (range a b) = (b - 1) :: l.
Proof.
  intros H. unfold range. replace (b - a) with ((b - a - 1) + 1) by lia. rewrite seq_app, rev_app_distr.
  exists (rev (seq a (b - a - 1))). cbn. f_equal. lia.
Qed.

Lemma add_tier_ok sizes t s st : Forall (fun s => 0 < s) sizes -> nth_error sizes t = Some s -> tier_state sizes t st ->
  exists st', add_tier st s = Ok st' /\ tier_state sizes (S t) st'.
Proof.
  intros Hpos Hs (Hlen & Hhigh & Hold & Hnew). destruct st as [g high]. cbn [fst snd] in *. unfold add_tier.
  assert (Hsum : tier_start sizes (S t) <= list_sum sizes).
  { rewrite <- tier_start_all. apply tier_start_mono. assert (t < List.length sizes) by (apply nth_error_Some; congruence). lia. }
  assert (Hi0 : match rev high with [] => 0 | x :: _ => x + 1 end = tier_start sizes t).
  { rewrite Hhigh. destruct t as [|t]; auto.
    assert (Hpred : exists s', nth_error sizes t = Some s').
    { destruct (nth_error sizes t) eqn:E; eauto. apply nth_error_None in E. assert (S t < List.length sizes) by (apply nth_error_Some; congruence). lia. }
    destruct Hpred as [s' Hs']. pose proof (tier_start_S _ _ _ Hs') as E. rewrite Forall_forall in Hpos.
    pose proof (Hpos s' (nth_error_In _ _ Hs')). destruct (rev_range (tier_start sizes t) (tier_start sizes (S t))) as [l El]; [lia|].
    rewrite El. lia. }
  rewrite Hi0. rewrite <- (tier_start_S _ _ _ Hs).
  destruct (foldM_range (fun outlinks i => old <- unwrap (nth_error outlinks i) ;;
      set_at i (old ++ high ++ range (tier_start sizes t) i ++ range (i + 1) (tier_start sizes (S t))) outlinks)
    (fun k g' => List.length g' = list_sum sizes /\
       (forall i t', t' < t -> in_tier sizes i t' -> nth_error g' i = Some (tier_row sizes t' i)) /\
       (forall i, tier_start sizes t <= i < k -> nth_error g' i = Some (tier_row sizes t i)) /\
       (forall i, k <= i < list_sum sizes -> nth_error g' i = Some []))
    (tier_start sizes t) (tier_start sizes (S t)) g) as (g' & Eg & Hl & H1 & H2 & H3).
  - apply tier_start_mono. lia.
  - intros i s0 Hi (Hl & H1 & H2 & H3). rewrite (H3 i); [|lia]. cbn [unwrap bind app].
    rewrite set_at_ok; [|lia]. eexists. split; [reflexivity|]. split; [rewrite update_length; auto|]. split; [|split].
    + intros i' t' Ht' Hin. rewrite nth_error_update. destruct (Nat.eqb_spec i' i) as [->|_]; [|cbn; eauto].
      exfalso. destruct Hin as [_ Hin]. fold (tier_start sizes (S t')) in Hin. pose proof (tier_start_mono sizes (S t') t). lia.
    + intros i' Hi'. rewrite nth_error_update. destruct (Nat.eqb_spec i' i) as [->|Hne].
      * destruct (Nat.ltb_spec i (List.length s0)); [|lia]. cbn. rewrite Hhigh. reflexivity.
      * cbn. apply H2. lia.
    + intros i' Hi'. rewrite nth_error_update. destruct (Nat.eqb_spec i' i) as [->|Hne]; [lia|]. cbn. apply H3. lia.
  - split; [auto|]. split; [auto|]. split; [intros; lia|auto].
  - rewrite Eg. cbn [bind]. eexists. split; [reflexivity|]. split; [auto|]. split; [auto|]. split; [|auto].
    intros i t' Ht' Hin. cbn [fst]. destruct (Nat.eq_dec t' t) as [->|Hne].
    + apply H2. destruct Hin as [_ Hin]. auto.
    + apply H1; auto. lia.
Qed.

Lemma tiered_mesh_rows sizes : Forall (fun s => 0 < s) sizes -> exists g, new_tiered_full_mesh sizes = Ok g /\
  List.length g = list_sum sizes /\ forall i t, in_tier sizes i t -> nth_error g i = Some (tier_row sizes t i).
Proof.
  intros Hpos. unfold new_tiered_full_mesh.
  destruct (foldM_pre add_tier (fun d st => tier_state sizes (List.length d) st) sizes [] (repeat [] (list_sum sizes), [])) as (st & E & Hst).
  - intros d s rest st Hd Hst. cbn in Hd. destruct (add_tier_ok sizes (List.length d) s st) as (st' & E & H'); auto.
    + rewrite Hd. rewrite nth_error_app2; auto. rewrite Nat.sub_diag. auto.
    + exists st'. rewrite app_length. cbn [List.length]. rewrite Nat.add_1_r. auto.
  - split; [apply repeat_length|]. split; [auto|]. split; [cbn; intros; lia|].
    cbn [fst]. intros i Hi. rewrite (nth_error_some_nth _ i []); [|rewrite repeat_length; lia]. rewrite nth_repeat. auto.
  - rewrite E. cbn [res_map bind]. exists (fst st). split; auto. destruct Hst as (Hl & _ & Hr & _). split; auto.
    intros i t Hin. apply Hr; auto. destruct Hin. auto.
Qed.

Lemma in_tier_exists sizes i : i < list_sum sizes -> exists t, in_tier sizes i t.
Proof.
  intros H. unfold in_tier. fold (tier_start sizes). revert i H. induction sizes as [|s sizes IH]; intros i H; [cbn in H; lia|].
  change (list_sum (s :: sizes)) with (s + list_sum sizes) in H. destruct (Nat.lt_ge_cases i s) as [L|L].
  - exists 0. cbn. lia.
  - destruct (IH (i - s)) as (t & Ht & H1); [lia|]. exists (S t). cbn [List.length]. split; [lia|].
    rewrite !firstn_cons. change (list_sum (s :: firstn t sizes)) with (s + list_sum (firstn t sizes)).
    change (list_sum (s :: firstn (S t) sizes)) with (s + list_sum (firstn (S t) sizes)). lia.
Qed.

Lemma tiered_mesh_spec sizes : Forall (fun s => 0 < s) sizes -> exists g, new_tiered_full_mesh sizes = Ok g /\
  List.length g = list_sum sizes /\ ascending_links g /\
  forall i j, link g i j <-> i <> j /\ exists t t', in_tier sizes i t /\ in_tier sizes j t' /\ (t' = t \/ S t' = t).
Proof.
  intros Hpos. destruct (tiered_mesh_rows sizes Hpos) as (g & E & Hl & Hr). exists g. split; auto. split; auto. split.
  - unfold ascending_links. rewrite Forall_forall. intros l Hin. apply In_nth_error in Hin. destruct Hin as [i Hi].
    assert (Hlt : i < list_sum sizes) by (rewrite <- Hl; apply nth_error_Some; congruence).
    destruct (in_tier_exists sizes i Hlt) as [t Ht]. rewrite (Hr i t Ht) in Hi. injection Hi as <-. unfold tier_row.
    destruct Ht as [_ Ht]. fold (tier_start sizes t) in Ht.
    apply sorted_app_lt; [|apply sorted_app_lt|]; try apply range_sorted.
    + destruct t; [constructor|apply range_sorted].
    + intros x y Hx Hy. apply range_in in Hx, Hy. lia.
    + intros x y Hx Hy. destruct t as [|t]; [destruct Hx|]. apply range_in in Hx. apply in_app_or in Hy. rewrite !range_in in Hy. lia.
  - intros i j. split.
    + intros Hlink. pose proof (link_lt _ _ _ Hlink) as Hlt. rewrite Hl in Hlt. destruct (in_tier_exists sizes i Hlt) as [t Ht].
      destruct Hlink as (l & El & Hj). rewrite (Hr i t Ht) in El. injection El as <-. unfold tier_row in Hj.
      pose proof Ht as Ht0. destruct Ht as [Htl Ht]. fold (tier_start sizes t) (tier_start sizes (S t)) in Ht.
      apply in_app_or in Hj. destruct Hj as [Hj|Hj].
      * destruct t as [|t]; [destruct Hj|]. apply range_in in Hj. split; [lia|]. exists (S t), t. split; auto. split; [|auto].
        split; [lia|exact Hj].
      * apply in_app_or in Hj. rewrite !range_in in Hj. split; [lia|]. exists t, t. split; auto. split; [|auto]. split; auto.
        fold (tier_start sizes t) (tier_start sizes (S t)). lia.
    + intros (Hne & t & t' & Hi & Hj & Htt). exists (tier_row sizes t i). split; [auto|]. unfold tier_row.
      destruct Hi as [_ Hi], Hj as [_ Hj]. fold (tier_start sizes t) (tier_start sizes (S t)) in Hi.
      fold (tier_start sizes t') (tier_start sizes (S t')) in Hj. destruct Htt as [-> | <-].
      * apply in_or_app. right. apply in_or_app. rewrite !range_in. lia.
      * apply in_or_app. left. apply range_in. auto.
Qed.

(** ** counting links *)
Definition all_links (g : graph) : list (nat * nat) := flat_map (fun p => map (pair (fst p)) (snd p)) (enumerate g).
Lemma all_links_in g i j : In (i, j) (all_links g) <-> link g i j.
Proof.
  unfold all_links. rewrite in_flat_map. split.
  - intros ([i' l] & Hi & Hj). cbn [fst snd] in Hj. apply in_map_iff in Hj. destruct Hj as (j' & E & Hj). injection E as -> ->.
    apply enumerate_in in Hi. exists l. auto.
  - intros (l & El & Hj). exists (i, l). split; [apply enumerate_in; auto|]. cbn. apply in_map. auto.
Qed.
Lemma all_links_length g : List.length (all_links g) = list_sum (map (@List.length nat) g).
Proof.
  unfold all_links, enumerate. generalize 0. induction g as [|l g IH]; intros a; auto. cbn [List.length seq combine flat_map map].
  change (list_sum (List.length l :: map (List.length (A:=nat)) g)) with (List.length l + list_sum (map (List.length (A:=nat)) g)).
  rewrite app_length, map_length, IH. auto.
Qed.
Lemma NoDup_flat_map_key {A B} (h : A -> list B) (key : B -> nat) (k : A -> nat) l :
  NoDup (map k l) -> (forall a, In a l -> NoDup (h a)) -> (forall a b, In a l -> In b (h a) -> key b = k a) -> NoDup (flat_map h l).
Proof.
  induction l as [|a l IH]; intros Hk Hd Hkey; cbn; [constructor|]. inversion Hk as [|? ? Hna Hk']; subst.
  assert (G : forall x y, NoDup x -> NoDup y -> (forall b : B, In b x -> ~ In b y) -> NoDup (x ++ y)).
  { clear. induction x as [|b x IH]; intros y Hx Hy H; cbn; auto. inversion Hx; subst. constructor.
    - rewrite in_app_iff. intros [Hb|Hb]; auto. apply (H b); [left|]; auto.
    - apply IH; auto. intros. apply H. right. auto. }
  apply G.
  - apply Hd. left. auto.
  - apply IH; auto; intros; [apply Hd|apply Hkey]; try right; auto.
  - intros b Hb Hb'. apply in_flat_map in Hb'. destruct Hb' as (a' & Ha' & Hb'). apply Hna.
    rewrite <- (Hkey a b); [|left; auto|auto]. rewrite (Hkey a' b); [|right; auto|auto]. apply in_map. auto.
Qed.
Lemma enumerate_keys {A} (l : list A) : map fst (enumerate l) = seq 0 (List.length l).
Proof.
  unfold enumerate. generalize 0. induction l as [|x l IH]; intros a; cbn; auto. rewrite IH. auto.
Qed.
Lemma all_links_nodup g : no_repeated_links g -> NoDup (all_links g).
Proof.
  intros H. unfold all_links. apply (NoDup_flat_map_key _ fst fst).
  - rewrite enumerate_keys. apply seq_NoDup.
  - intros [i l] Hi. cbn. apply FinFun.Injective_map_NoDup; [intros x y E; congruence|]. apply enumerate_in, nth_error_In in Hi.
    unfold no_repeated_links in H. rewrite Forall_forall in H. auto.
  - intros [i l] [a b] _ Hb. cbn in *. apply in_map_iff in Hb. destruct Hb as (x & E & _). congruence.
Qed.
Lemma filter_partition {A} (p q : A -> bool) l : (forall x, In x l -> q x = negb (p x)) ->
  List.length (filter p l) + List.length (filter q l) = List.length l.
Proof.
  induction l as [|a l IH]; intros H; cbn; auto. rewrite (H a); [|left; auto].
  assert (IH' := IH (fun x Hx => H x (or_intror Hx))). destruct (p a); cbn; lia.
Qed.
Lemma simple_edges g c : simple_graph g -> list_sum (map (@List.length nat) g) = 2 * c -> has_edges g c.
Proof.
  intros (Hwf & Hu & Hl & Hr) Hs. set (E := filter (fun p => fst p <? snd p) (all_links g)).
  set (E' := filter (fun p => snd p <? fst p) (all_links g)).
  assert (HE : forall i j, In (i, j) E <-> i < j /\ link g i j).
  { intros i j. unfold E. rewrite filter_In, all_links_in. cbn [fst snd]. rewrite Nat.ltb_lt. tauto. }
  exists E. split; [apply NoDup_filter, all_links_nodup; auto|]. split; auto.
  assert (P : Permutation E' (map (fun p => (snd p, fst p)) E)).
  { apply NoDup_Permutation.
    - apply NoDup_filter, all_links_nodup; auto.
    - apply FinFun.Injective_map_NoDup; [|apply NoDup_filter, all_links_nodup; auto]. intros [a b] [a' b'] Hab. cbn in Hab. congruence.
    - intros [i j]. unfold E'. rewrite filter_In, all_links_in. cbn [fst snd]. rewrite Nat.ltb_lt, in_map_iff. split.
      + intros [H1 H2]. exists (j, i). split; auto. apply HE. split; auto.
      + intros ([a b] & Ea & Hab). cbn in Ea. injection Ea as -> ->. apply HE in Hab. destruct Hab. split; auto. }
  apply Permutation_length in P. rewrite map_length in P.
  pose proof (filter_partition (fun p => fst p <? snd p) (fun p => snd p <? fst p) (all_links g)) as Hp. fold E E' in Hp.
  rewrite all_links_length, Hs in Hp. assert (List.length E + List.length E' = 2 * c); [|lia]. apply Hp.
  intros [i j] Hij. cbn [fst snd]. apply all_links_in in Hij. assert (i <> j) by (intros ->; apply (Hl j); auto).
  destruct (Nat.ltb_spec i j), (Nat.ltb_spec j i); auto; lia.
Qed.

(** ** degrees *)
Lemma modify_ok {A} i (h : A -> A) l d : i < List.length l -> modify i h l = Ok (update i (h (nth i l d)) l).
Proof. intros H. unfold modify. rewrite (nth_error_some_nth l i d); auto. cbn. apply set_at_ok. auto. Qed.

Definition count_links (j : nat) (g : graph) : nat := list_sum (map (fun l => count_occ Nat.eq_dec l j) g).
Lemma count_links_app j a b : count_links j (a ++ b) = count_links j a + count_links j b.
Proof. unfold count_links. rewrite map_app, list_sum_app. auto. Qed.

Lemma count_occ_snoc l x j : count_occ Nat.eq_dec (l ++ [x]) j = count_occ Nat.eq_dec l j + (if Nat.eq_dec x j then 1 else 0).
Proof. rewrite count_occ_app. cbn. destruct (Nat.eq_dec x j); auto. Qed.

Lemma in_degrees_count g : wf_graph g -> exists d, get_in_degrees g = Ok d /\ List.length d = List.length g /\
  forall j, j < List.length g -> nth_error d j = Some (count_links j g).
Proof.
  intros Hwf. unfold get_in_degrees.
  destruct (foldM_pre (fun result outlinks => foldM (fun result in_node => modify in_node S result) result outlinks)
    (fun d (v : list nat) => List.length v = List.length g /\ forall j, j < List.length g -> nth j v 0 = count_links j d) g [] (repeat 0 (List.length g)))
    as (v & E & Hl & Hv).
  - intros d l rest v Hd [Hl Hv]. cbn in Hd.
    assert (Hin : forall j, In j l -> j < List.length g).
    { intros j Hj. apply (Hwf (List.length d)). exists l. split; auto. rewrite Hd, nth_error_app2, Nat.sub_diag; auto. }
    destruct (foldM_pre (fun result in_node => modify in_node S result)
      (fun e (v' : list nat) => List.length v' = List.length g /\ forall j, j < List.length g -> nth j v' 0 = count_links j d + count_occ Nat.eq_dec e j) l [] v)
      as (v' & E & Hl' & Hv').
    + intros e x rest' v' He [Hl' Hv']. cbn in He. assert (Hx : x < List.length g) by (apply Hin; rewrite He; apply in_or_app; right; left; auto).
      rewrite (modify_ok x S v' 0); [|lia]. eexists. split; [reflexivity|]. split; [rewrite update_length; auto|].
      intros j Hj. rewrite nth_update, count_occ_snoc. destruct (Nat.eq_dec x j) as [->|Hne].
      * rewrite Nat.eqb_refl. destruct (Nat.ltb_spec j (List.length v')); [|lia]. cbn [andb]. rewrite Hv' by auto. lia.
      * destruct (Nat.eqb_spec j x); [congruence|]. cbn [andb]. rewrite Hv' by auto. lia.
    + split; auto. intros j Hj. rewrite Hv by auto. cbn. lia.
    + exists v'. split; auto. split; auto. intros j Hj. rewrite Hv', count_links_app by auto. cbn. unfold count_links. cbn. lia.
  - split; [apply repeat_length|]. intros j Hj. rewrite nth_repeat. auto.
  - exists v. split; auto. split; auto. intros j Hj. rewrite (nth_error_some_nth v j 0); [|lia]. f_equal. apply Hv. auto.
Qed.

(** positions of links to [j] *)
Definition positions (j : nat) (l : list nat) : list nat := map fst (filter (fun p => snd p =? j) (enumerate l)).
Lemma positions_in j l k : In k (positions j l) <-> nth_error l k = Some j.
Proof.
  unfold positions. rewrite in_map_iff. split.
  - intros ([k' x] & <- & H). apply filter_In in H. destruct H as [H1 H2]. cbn in *. apply Nat.eqb_eq in H2. subst. apply enumerate_in in H1. auto.
  - intros H. exists (k, j). split; auto. apply filter_In. split; [apply enumerate_in; auto|]. cbn. apply Nat.eqb_refl.
Qed.
Lemma NoDup_map_filter {A B} (h : A -> B) p l : NoDup (map h l) -> NoDup (map h (filter p l)).
Proof.
  induction l as [|a l IH]; intros H; cbn in *; [constructor|]. inversion H as [|? ? Hn Hd]; subst. destruct (p a); cbn; auto.
  constructor; auto. intros Hin. apply Hn. apply in_map_iff in Hin. destruct Hin as (x & <- & Hx). apply filter_In in Hx. apply in_map. tauto.
Qed.
Lemma positions_nodup j l : NoDup (positions j l).
Proof. apply NoDup_map_filter. rewrite enumerate_keys. apply seq_NoDup. Qed.
Lemma positions_length j l : List.length (positions j l) = count_occ Nat.eq_dec l j.
Proof.
  unfold positions. rewrite map_length. unfold enumerate. generalize 0. induction l as [|x l IH]; intros a; auto. cbn [List.length seq combine filter snd].
  cbn [count_occ]. destruct (Nat.eqb_spec x j), (Nat.eq_dec x j); try congruence; cbn [List.length]; rewrite IH; auto.
Qed.
Lemma in_degree_count g j : in_degree g j (count_links j g).
Proof.
  exists (flat_map (fun p => map (pair (fst p)) (positions j (snd p))) (enumerate g)). split; [|split].
  - apply (NoDup_flat_map_key _ fst fst).
    + rewrite enumerate_keys. apply seq_NoDup.
    + intros [i l] Hi. cbn. apply FinFun.Injective_map_NoDup; [intros x y E; congruence|]. apply positions_nodup.
    + intros [i l] [a b] _ Hb. cbn in *. apply in_map_iff in Hb. destruct Hb as (x & E & _). congruence.
  - intros i k. rewrite in_flat_map. split.
    + intros ([i' l] & Hi & Hk). cbn in Hk. apply in_map_iff in Hk. destruct Hk as (k' & E & Hk). injection E as -> ->.
      apply positions_in in Hk. apply enumerate_in in Hi. eauto.
    + intros (l & El & Hk). exists (i, l). split; [apply enumerate_in; auto|]. cbn. apply in_map, positions_in. auto.
  - unfold count_links, enumerate. generalize 0. induction g as [|l g IH]; intros a; auto. cbn [List.length seq combine flat_map map fst snd].
    rewrite app_length, map_length, positions_length, IH. auto.
Qed.

Lemma sum_map_add {A} (h1 h2 : A -> nat) l : list_sum (map (fun x => h1 x + h2 x) l) = list_sum (map h1 l) + list_sum (map h2 l).
Proof. induction l as [|a l IH]; auto. cbn [map]. unfold list_sum in *. cbn [fold_right]. rewrite IH. lia. Qed.
Lemma sum_map_zero {A} (h : A -> nat) l : (forall x, In x l -> h x = 0) -> list_sum (map h l) = 0.
Proof. induction l as [|a l IH]; intros H; auto. cbn [map]. unfold list_sum in *. cbn [fold_right]. rewrite (H a), IH; auto; [intros; apply H; right|left]; auto. Qed.
Lemma sum_single n x : x < n -> list_sum (map (fun j => if Nat.eq_dec x j then 1 else 0) (seq 0 n)) = 1.
Proof.
  intros H. replace n with (x + (1 + (n - x - 1))) by lia. rewrite seq_app, map_app, list_sum_app.
  rewrite (sum_map_zero _ (seq 0 x)).
  - rewrite seq_app, map_app, list_sum_app. rewrite (sum_map_zero _ (seq (0 + x + 1) _)).
    + cbn. destruct (Nat.eq_dec x x); lia.
    + intros j Hj. apply in_seq in Hj. destruct (Nat.eq_dec x j); lia.
  - intros j Hj. apply in_seq in Hj. destruct (Nat.eq_dec x j); lia.
Qed.
Lemma sum_count_occ l n : (forall x, In x l -> x < n) -> list_sum (map (count_occ Nat.eq_dec l) (seq 0 n)) = List.length l.
Proof.
  induction l as [|x l IH]; intros H; [apply sum_map_zero; auto|].
  rewrite (map_ext _ (fun j => (if Nat.eq_dec x j then 1 else 0) + count_occ Nat.eq_dec l j)).
  - rewrite sum_map_add, IH, sum_single; auto; [apply H; left; auto|intros; apply H; right; auto].
  - intros j. cbn. destruct (Nat.eq_dec x j); auto.
Qed.
Lemma sum_count_links g : wf_graph g -> list_sum (map (fun j => count_links j g) (seq 0 (List.length g))) = list_sum (get_out_degrees g).
Proof.
  intros Hwf. assert (H : forall l j, In l g -> In j l -> j < List.length g).
  { intros l j Hl Hj. apply In_nth_error in Hl. destruct Hl as [i Hi]. apply (Hwf i). exists l. auto. }
  clear Hwf. revert H. generalize (List.length g). unfold get_out_degrees. induction g as [|l g IH]; intros n H; [apply sum_map_zero; auto|].
  rewrite (map_ext _ (fun j => count_occ Nat.eq_dec l j + count_links j g)) by reflexivity.
  rewrite sum_map_add, IH, sum_count_occ; auto.
  - intros x Hx. apply (H l); auto. left. auto.
  - intros l' j Hl'. apply (H l'). right. auto.
Qed.
Lemma list_eq_map {A} (d : list A) (h : nat -> A) : (forall j, j < List.length d -> nth_error d j = Some (h j)) -> d = map h (seq 0 (List.length d)).
Proof.
  enough (G : forall a, (forall j, j < List.length d -> nth_error d j = Some (h (a + j))) -> d = map h (seq a (List.length d))) by apply (G 0).
  induction d as [|x d IH]; intros a H; cbn; auto. f_equal.
  - specialize (H 0). cbn in H. rewrite Nat.add_0_r in H. assert (Some x = Some (h a)) by (apply H; lia). congruence.
  - apply IH. intros j Hj. specialize (H (S j)). cbn in H. rewrite H; [|lia]. f_equal. f_equal. lia.
Qed.
Lemma degree_sums g : wf_graph g -> exists d, get_in_degrees g = Ok d /\ list_sum d = list_sum (get_out_degrees g).
Proof.
  intros Hwf. destruct (in_degrees_count g Hwf) as (d & E & Hl & Hd). exists d. split; auto. rewrite <- sum_count_links; auto. f_equal.
  rewrite <- Hl. apply list_eq_map. rewrite Hl. auto.
Qed.
Lemma in_degrees_spec g : wf_graph g -> exists d, get_in_degrees g = Ok d /\ List.length d = List.length g /\
  list_sum d = list_sum (get_out_degrees g) /\ forall j k, nth_error d j = Some k -> in_degree g j k.
Proof.
  intros Hwf. destruct (in_degrees_count g Hwf) as (d & E & Hl & Hd). destruct (degree_sums g Hwf) as (d' & E' & Hs).
  rewrite E in E'. injection E' as <-. exists d. repeat split; auto. intros j k Hj.
  assert (j < List.length d) by (apply nth_error_Some; congruence). rewrite Hd in Hj; [|lia]. injection Hj as <-. apply in_degree_count.
Qed.
Lemma out_degrees_spec g i d : nth_error (get_out_degrees g) i = Some d <-> degree g i d.
Proof.
  unfold get_out_degrees, degree. destruct (nth_error g i) as [l|] eqn:E.
  - rewrite (map_nth_error _ _ _ E). split; [intros H; exists l; split; auto; congruence|intros (l' & El & <-); congruence].
  - rewrite (proj2 (nth_error_None _ _)); [split; [discriminate|intros (l' & El & _); congruence]|]. rewrite map_length. apply nth_error_None. auto.
Qed.
Lemma in_degrees_panic g : ~ wf_graph g -> get_in_degrees g = Panic.
Proof.
  intros Hn. destruct (get_in_degrees g) as [d|] eqn:E; auto. exfalso. apply Hn. intros i j (l & El & Hj).
  unfold get_in_degrees in E.
  assert (G : forall gg v d, foldM (fun result outlinks => foldM (fun result in_node => modify in_node S result) result outlinks) v gg = Ok d ->
    List.length d = List.length v /\ forall l j, In l gg -> In j l -> j < List.length v).
  { assert (G1 : forall l v d, foldM (fun result in_node => modify in_node S result) v l = Ok d -> List.length d = List.length v /\ forall j, In j l -> j < List.length v).
    { clear. induction l as [|x l IH]; intros v d H; cbn in H; [injection H as ->; split; auto; intros ? []|].
      unfold modify at 1 in H. destruct (nth_error v x) as [y|] eqn:Ex; [|discriminate]. cbn [unwrap bind] in H.
      assert (Hx : x < List.length v) by (apply nth_error_Some; congruence). rewrite set_at_ok in H; auto. cbn [bind] in H.
      apply IH in H. rewrite update_length in H. destruct H as [H1 H2]. split; auto. intros j [<-|Hj]; auto. }
    clear - G1. induction gg as [|l gg IH]; intros v d H; cbn in H; [injection H as ->; split; auto; intros ? ? []|].
    destruct (foldM (fun result in_node => modify in_node S result) v l) as [v'|] eqn:E; [|discriminate]. cbn [bind] in H.
    apply G1 in E. apply IH in H. destruct E as [E1 E2], H as [H1 H2]. split; [congruence|]. intros l' j [<-|Hl] Hj; auto. rewrite <- E1. eauto. }
  apply G in E. rewrite repeat_length in E. destruct E as [_ E]. apply nth_error_In in El. eauto.
Qed.

(** ** connected nodes *)
Lemma connected_spec g x : mem x (get_connected_nodes g) = true <-> exists y, link g x y \/ link g y x.
Proof.
  unfold get_connected_nodes.
  assert (G : forall l acc, mem x (fold_left (fun result '(i, outlinks) => match outlinks with [] => result | _ => union (insert i result) (of_list outlinks) end) l acc) = true
    <-> mem x acc = true \/ exists i row, In (i, row) l /\ row <> [] /\ (x = i \/ In x row)).
  { induction l as [|[i row] l IH]; intros acc; cbn [fold_left].
    - split; auto. intros [H|(i & row & [] & _)]. auto.
    - rewrite IH. destruct row as [|y row].
      + split; (intros [H|(i' & row & Hin & Hne & Hx)]; [left; auto|right]).
        * exists i', row. split; auto. right. auto.
        * destruct Hin as [Hin|Hin]; [congruence|eauto].
      + rewrite mem_union, mem_insert, orb_true_iff, orb_true_iff, Nat.eqb_eq. rewrite mem_of_list. split.
        * intros [[[Hx|Hx]|Hx]|(i' & row' & Hin & Hne & Hx)]; auto; right.
          -- exists i, (y :: row). split; [left; auto|]. split; [discriminate|auto].
          -- exists i, (y :: row). split; [left; auto|]. split; [discriminate|auto].
          -- exists i', row'. split; [right; auto|auto].
        * intros [H|(i' & row' & Hin & Hne & Hx)]; auto. destruct Hin as [Hin|Hin]; [|right; eauto].
          injection Hin as <- <-. left. destruct Hx as [->|Hx]; auto. }
  rewrite G, mem_empty. split.
  - intros [H|(i & row & Hin & Hne & Hx)]; [discriminate|]. apply enumerate_in in Hin. destruct Hx as [->|Hx].
    + destruct row as [|y row]; [congruence|]. exists y. left. exists (y :: row). split; auto. left. auto.
    + exists i. right. exists row. auto.
  - intros (y & [H|H]); right; destruct H as (l & El & Hin); [exists x, l|exists y, l]; (split; [apply enumerate_in; auto|]; split; [intros ->; destruct Hin|auto]).
Qed.
