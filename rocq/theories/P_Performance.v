(** Proofs about the performance experiment: numbers of minimal quorums, blocking sets and splitting sets. *)
From Coq Require Import ZArith Reals Permutation.
From Verif Require Export Spec_Performance P_BulkRows P_Splitting P_TopTier P_Simulation.
Local Open Scope list_scope.
Local Open Scope nat_scope.

(** ** counting *)
Lemma combinations_length {A} (l : list A) : forall k, List.length (combinations k l) = binomial (List.length l) k.
Proof.
  induction l as [|a l IH]; intros [|k]; cbn [combinations binomial List.length]; auto.
  rewrite app_length, map_length, !IH. auto.
Qed.
Lemma product_length {A} (gs : list (list A)) c : (forall g, In g gs -> List.length g = c) -> List.length (product gs) = c ^ List.length gs.
Proof.
  induction gs as [|g gs IH]; intro H; cbn [product List.length]; auto.
  assert (IH' := IH (fun g' Hg => H g' (or_intror Hg))). rewrite Nat.pow_succ_r'. rewrite <- (H g (or_introl eq_refl)) at 1. clear H.
  induction g as [|a g IHg]; cbn [flat_map List.length]; auto. rewrite app_length, map_length, IH', IHg. lia.
Qed.
Lemma flat_map_length_const {A B} (h : A -> list B) l c : (forall a, In a l -> List.length (h a) = c) -> List.length (flat_map h l) = List.length l * c.
Proof.
  induction l as [|a l IH]; intro H; cbn [flat_map List.length]; auto. rewrite app_length, IH by (intros; apply H; right; auto).
  rewrite (H a) by (left; auto). lia.
Qed.
Lemma combine_groups_length k gs c : 1 <= k -> (forall g, In g gs -> List.length g = c) ->
  List.length (combine_groups k gs) = binomial (List.length gs) k * c ^ k.
Proof.
  intros Hk H. unfold combine_groups. rewrite <- combinations_length. apply flat_map_length_const.
  intros l Hl. apply combinations_spec in Hl. destruct Hl as [Hs Hl]. rewrite map_length.
  assert (Hp : multi_cartesian_product l = product l) by (destruct l; [cbn in Hl; lia|auto]). rewrite Hp, (product_length l c); [congruence|].
  intros g Hg. apply H. apply (subseq_in _ _ Hs); auto.
Qed.
Lemma choices_size gs c : separated gs -> (forall g s, In g gs -> In s g -> len s = c) -> forall l p, subseq l gs ->
  Forall2 (fun x g => In x g) p l -> len (unions p) = List.length l * c.
Proof.
  induction 1 as [|g gs Hnd Hne Hd Hsep IH]; intros Hc l p Hl Hp.
  - inversion Hl; subst. inversion Hp; subst. reflexivity.
  - assert (IH' := IH (fun g' s Hg => Hc g' s (or_intror Hg))). inversion Hl as [|? ? ? Hs|a l1 ? Hs]; subst; auto.
    inversion Hp as [|s ? p1 ? Hs1 Hp1]; subst. rewrite unions_cons, len_union_disjoint.
    + rewrite (IH' l1 p1 Hs Hp1), (Hc g s (or_introl eq_refl) Hs1). cbn [List.length]. lia.
    + apply disjoint_iff. apply (choices_tail_disjoint g gs l1 p1 s); auto.
Qed.
Lemma combine_groups_size k gs c s : separated gs -> (forall g s, In g gs -> In s g -> len s = c) -> In s (combine_groups k gs) -> len s = k * c.
Proof.
  intros Hs Hc H. apply combine_groups_spec in H. destruct H as (l & p & Hl & <- & _ & Hp & ->). apply (choices_size gs); auto.
Qed.
Lemma slices_separated t vs is_ : nodup_qset (QS t vs is_) -> separated (map (fun v => [of_list [v]]) vs ++ map to_quorum_slices is_).
Proof.
  intro Hnd. destruct (nodup_qset_inv _ _ _ Hnd) as (Hv & Hi & Hvi & Hii).
  eapply entries_separated; eauto using to_quorum_slices_nonempty, slices_mentioned. intros i H. apply to_quorum_slices_nodup. auto.
Qed.
Lemma len_singleton v : len (of_list [v]) = 1.
Proof. apply (len_of_list [v]). constructor; auto. constructor. Qed.

(** flat quorum sets *)
Lemma flat_slices t vs : 1 <= t -> NoDup vs -> List.length (to_quorum_slices (QS t vs [])) = binomial (List.length vs) t /\
  forall s, In s (to_quorum_slices (QS t vs [])) -> len s = t.
Proof.
  intros Ht Hvs. assert (Hnd : nodup_qset (QS t vs [])) by (unfold nodup_qset; cbn; now rewrite app_nil_r).
  cbn [to_quorum_slices map]. rewrite app_nil_r. split.
  - rewrite (combine_groups_length t _ 1 Ht); [rewrite map_length, Nat.pow_1_l; lia|].
    intros g Hg. apply in_map_iff in Hg. destruct Hg as (v & <- & _). auto.
  - intros s Hs. rewrite <- (Nat.mul_1_r t). eapply combine_groups_size; [| |exact Hs].
    + assert (H := slices_separated _ _ _ Hnd). cbn [map] in H. rewrite app_nil_r in H. exact H.
    + intros g s' Hg Hs'. apply in_map_iff in Hg. destruct Hg as (v & <- & _). destruct Hs' as [<-|[]]. apply len_singleton.
Qed.

(** organizations *)
Definition three_of (k o : nat) : qset := QS k [o * 3; o * 3 + 1; o * 3 + 2] [].
Definition organized (t k g : nat) : qset := QS t [] (map (three_of k) (seq 0 g)).
Lemma three_nodup o : NoDup [o * 3; o * 3 + 1; o * 3 + 2].
Proof. repeat constructor; cbn; lia. Qed.
Lemma organized_nodes t k g : contained_nodes_with_duplicates (organized t k g) = seq 0 (3 * g).
Proof.
  unfold organized. cbn [contained_nodes_with_duplicates app]. rewrite flat_map_concat_map, map_map, <- flat_map_concat_map.
  assert (H : forall a, flat_map (fun x => contained_nodes_with_duplicates (three_of k x)) (seq a g) = seq (3 * a) (3 * g)); [|exact (H 0)].
  induction g as [|g IH]; intro a; [reflexivity|]. cbn [seq flat_map]. rewrite IH.
  replace (3 * S g) with (S (S (S (3 * g)))) by lia. cbn [seq three_of contained_nodes_with_duplicates flat_map app].
  repeat (f_equal; try lia).
Qed.
Lemma organized_nodup t k g : nodup_qset (organized t k g).
Proof. unfold nodup_qset. rewrite organized_nodes. apply seq_NoDup. Qed.
Lemma organized_slices t k g : 1 <= t -> 1 <= k -> List.length (to_quorum_slices (organized t k g)) = binomial g t * binomial 3 k ^ t /\
  forall s, In s (to_quorum_slices (organized t k g)) -> len s = t * k.
Proof.
  intros Ht Hk. assert (Hsep := slices_separated t [] (map (three_of k) (seq 0 g)) (organized_nodup t k g)).
  unfold organized. cbn [to_quorum_slices]. cbn [map app] in *.
  assert (Hg : forall G, In G (map to_quorum_slices (map (three_of k) (seq 0 g))) -> List.length G = binomial 3 k /\ forall s, In s G -> len s = k).
  { intros G HG. apply in_map_iff in HG. destruct HG as (i & <- & Hi). apply in_map_iff in Hi. destruct Hi as (o & <- & _).
    apply (flat_slices k [o * 3; o * 3 + 1; o * 3 + 2] Hk (three_nodup o)). }
  split.
  - rewrite (combine_groups_length t _ (binomial 3 k) Ht) by (intros G HG; now apply Hg). rewrite !map_length, seq_length. auto.
  - intros s Hs. eapply combine_groups_size; [exact Hsep| |exact Hs]. intros G s' HG. now apply Hg.
Qed.

(** ** the FBAS that is almost symmetric *)
Lemma add_nodes_ok q n : forall f, keys_ok f -> generic_keys f ->
  exists f', add_nodes n q f = Ok f' /\ map node_qset (nodes f') = map node_qset (nodes f) ++ repeat q n.
Proof.
  induction n as [|n IH]; intros f Hk Hg; cbn [add_nodes].
  - exists f. split; auto. cbn. now rewrite app_nil_r.
  - destruct (add_generic_ok f q Hk Hg) as (f1 & E1 & Hk1 & Hg1 & En1). rewrite E1. cbn [bind fst].
    destruct (IH f1 Hk1 Hg1) as (f' & E' & H'). exists f'. split; auto. rewrite H', En1, map_app, <- app_assoc. auto.
Qed.
Lemma fbas_new_generic : keys_ok fbas_new /\ generic_keys fbas_new.
Proof.
  split.
  - intros pk i. unfold get_node_id. cbn. destruct i; cbn; split; discriminate.
  - intros i n. cbn. destruct i; discriminate.
Qed.
Definition almost (n : nat) (q : qset) : res fbas :=
  f <- add_nodes n q fbas_new ;; res_map fst (swap_quorum_set f 0 (with_extra_mention q)).
Lemma almost_ok n q : 1 <= n -> exists f0 f, almost n q = Ok f /\ number_of_nodes f0 = n /\ number_of_nodes f = n /\
  (forall x, x < n -> qset_of f0 x = q) /\ qset_of f 0 = with_extra_mention q /\ (forall x, 1 <= x < n -> qset_of f x = q).
Proof.
  intro Hn. destruct fbas_new_generic as [Hk Hg]. destruct (add_nodes_ok q n fbas_new Hk Hg) as (f0 & E0 & H0). cbn in H0.
  assert (L0 : number_of_nodes f0 = n) by (unfold number_of_nodes; rewrite <- (map_length node_qset), H0; apply repeat_length).
  assert (Q0 : forall x, x < n -> qset_of f0 x = q).
  { intros x Hx. unfold qset_of. assert (Hm : nth_error (map node_qset (nodes f0)) x = Some q) by (rewrite H0; now apply nth_error_repeat).
    rewrite nth_error_map in Hm. destruct (nth_error (nodes f0) x) as [nd|]; cbn in Hm; congruence. }
  unfold almost. rewrite E0. cbn [bind]. unfold swap_quorum_set. destruct (nth_error (nodes f0) 0) as [nd|] eqn:En.
  2: { apply nth_error_None in En. unfold number_of_nodes in L0. lia. }
  cbn [res_map bind fst]. exists f0. eexists. split; [reflexivity|]. split; auto. split; [unfold number_of_nodes in *; cbn [nodes]; now rewrite update_length|].
  split; auto. unfold qset_of. cbn [nodes]. split.
  - rewrite nth_error_update. destruct (nodes f0); [discriminate En|reflexivity].
  - intros x Hx. rewrite nth_error_update. destruct (Nat.eqb_spec x 0); [lia|]. apply (Q0 x). lia.
Qed.

(** every node that is mentioned occurs in some slice *)
Lemma subseq_with {A} (a : A) k l : In a l -> 1 <= k -> k <= List.length l -> exists l', subseq l' l /\ List.length l' = k /\ In a l'.
Proof.
  revert k. induction l as [|b l IH]; intros k Hin H1 H2; [destruct Hin|]. cbn [List.length] in H2. destruct Hin as [<-|Hin].
  - destruct k as [|k]; [lia|]. destruct (subseq_pick k l) as [H3 H4]; [lia|]. exists (b :: firstn k l). cbn [List.length In]. rewrite H4. split; [now apply subseq_take|auto].
  - destruct (Nat.eq_dec k (S (List.length l))) as [->|Hk].
    + exists (b :: l). split; [|split; [auto|now right]]. replace (b :: l) with (firstn (S (List.length l)) (b :: l)) at 1 by (apply firstn_all2; cbn; lia). apply subseq_pick. cbn. lia.
    + destruct (IH k Hin H1) as (l' & H3 & H4 & H5); [lia|]. exists l'. split; [now constructor|auto].
Qed.
Lemma choose_with {A} (G0 : list A) s0 c : In G0 c -> In s0 G0 -> (forall G, In G c -> exists s, In s G) -> exists p, Forall2 (fun x xs => In x xs) p c /\ In s0 p.
Proof.
  assert (Hany : forall c, (forall G, In G c -> exists s, In s G) -> exists p, Forall2 (fun (x : A) xs => In x xs) p c).
  { clear. intro c. induction c as [|G c IH]; intro H; [exists []; constructor|]. destruct (H G) as (s & Hs); [now left|].
    destruct IH as (p & Hp); [intros G' H'; apply H; now right|]. exists (s :: p). now constructor. }
  induction c as [|G c IH]; intros H1 H2 H; [destruct H1|]. destruct H1 as [->|H1].
  - destruct (Hany c) as (p & Hp); [intros G' H'; apply H; now right|]. exists (s0 :: p). split; [now constructor|now left].
  - destruct IH as (p & Hp & Hin); auto; [intros G' H'; apply H; now right|]. destruct (H G) as (s & Hs); [now left|].
    exists (s :: p). split; [now constructor|now right].
Qed.
Lemma sane_slices p : sane p -> exists s, In s (to_quorum_slices p).
Proof.
  induction p as [t vs is_ IH] using qset_ind'. intro Hs. apply sane_inv in Hs. destruct Hs as (H1 & H2 & H3). rewrite to_quorum_slices_unfold.
  set (gs := _ ++ _). assert (Hl : List.length gs = List.length vs + List.length is_) by (unfold gs; now rewrite app_length, !map_length).
  assert (Hg : forall G, In G gs -> exists s, In s G).
  { intros G HG. unfold gs in HG. rewrite in_app_iff, !in_map_iff in HG. destruct HG as [(v & <- & Hv)|(i & <- & Hi)]; [eexists; left; reflexivity|auto]. }
  destruct gs as [|G gs'] eqn:Eg; [cbn in Hl; lia|]. destruct (Hg G) as (s & Hsg); [now left|].
  destruct (subseq_with G t (G :: gs')) as (c & C1 & C2 & C3); [now left|lia|lia|].
  destruct (choose_with G s c C3 Hsg) as (p & P1 & _); [intros G' H'; apply Hg; eapply subseq_in; eauto|].
  exists (unions p). apply combine_groups_spec. exists c, p. split; auto. split; auto. split; auto. destruct c; cbn in C2; [lia|discriminate].
Qed.
Lemma slices_cover p : sane p -> forall x, mentions x p -> exists s, In s (to_quorum_slices p) /\ mem x s = true.
Proof.
  induction p as [t vs is_ IH] using qset_ind'. intros Hs x Hm. apply sane_inv in Hs. destruct Hs as (H1 & H2 & H3). rewrite to_quorum_slices_unfold.
  set (gs := _ ++ _). assert (Hl : List.length gs = List.length vs + List.length is_) by (unfold gs; now rewrite app_length, !map_length).
  assert (Hg : forall G, In G gs -> exists s, In s G).
  { intros G HG. unfold gs in HG. rewrite in_app_iff, !in_map_iff in HG. destruct HG as [(v & <- & Hv)|(i & <- & Hi)]; [eexists; left; reflexivity|apply sane_slices; auto]. }
  assert (Hx : exists G s, In G gs /\ In s G /\ mem x s = true).
  { apply mentions_inv in Hm. unfold gs. destruct Hm as [Hm|(i & Hi & Hm)].
    - exists [of_list [x]], (of_list [x]). split; [apply in_app_iff; left; apply in_map_iff; eauto|]. split; [now left|]. apply mem_of_list. now left.
    - destruct (IH i Hi (H3 i Hi) x Hm) as (s & S1 & S2). exists (to_quorum_slices i), s. split; [apply in_app_iff; right; now apply in_map|auto]. }
  destruct Hx as (G & s & HG & Hsg & Hx). destruct (subseq_with G t gs) as (c & C1 & C2 & C3); auto; [lia|].
  destruct (choose_with G s c C3 Hsg) as (p & P1 & P2); [intros G' H'; apply Hg; eapply subseq_in; eauto|].
  exists (unions p). split; [|apply mem_unions; eauto]. apply combine_groups_spec. exists c, p. split; auto. split; auto. split; auto. destruct c; cbn in C2; [lia|discriminate].
Qed.

Section Almost.
Context (n : nat) (q : qset) (Hn : 1 <= n) (Hnodes : contained_nodes_with_duplicates q = seq 0 n) (Hs : sane q).
Context (f0 f : fbas) (N0 : number_of_nodes f0 = n) (N : number_of_nodes f = n) (Q0 : forall x, x < n -> qset_of f0 x = q).
Context (Qz : qset_of f 0 = with_extra_mention q) (Qx : forall x, 1 <= x < n -> qset_of f x = q).

Lemma q_mentions x : mentions x q <-> x < n.
Proof. rewrite <- contained_list_spec, Hnodes, in_seq. lia. Qed.
Lemma q_nodup : nodup_qset q.
Proof. unfold nodup_qset. rewrite Hnodes. apply seq_NoDup. Qed.
Lemma q_contained : contained_nodes q = below n.
Proof. apply bset_ext. intro x. apply eq_true_iff_eq. rewrite contained_nodes_spec, q_mentions, mem_below. tauto. Qed.
Lemma extra_slice S : mem 0 S = true -> is_quorum_slice (with_extra_mention q) S = is_quorum_slice q S.
Proof.
  intro H0. revert Hs. destruct q as [t vs is_]. intro Hs. apply sane_inv in Hs. apply eq_true_iff_eq. cbn [with_extra_mention].
  rewrite !is_quorum_slice_matches. unfold matches. rewrite filter_app, app_length. cbn [filter]. rewrite H0. cbn [List.length]. lia.
Qed.
Lemma node_slice x S : x < n -> mem x S = true -> is_quorum_slice (qset_of f x) S = is_quorum_slice q S.
Proof. intros Hx H. destruct x as [|x]; [rewrite Qz; now apply extra_slice|rewrite Qx; auto; lia]. Qed.
Lemma at_node g x p : number_of_nodes g = n -> (node_of g x p <-> x < n /\ qset_of g x = p).
Proof.
  intro Ng. rewrite <- Ng. split.
  - intros (nd & H1 & H2). unfold qset_of, number_of_nodes. rewrite H1. split; auto. apply nth_error_Some. congruence.
  - intros [H1 <-]. unfold node_of, qset_of, number_of_nodes in *. destruct (nth_error (nodes g) x) as [nd|] eqn:Ex; [eauto|]. apply nth_error_None in Ex. lia.
Qed.
Lemma quorum_like g : number_of_nodes g = n -> (forall x S, x < n -> mem x S = true -> is_quorum_slice (qset_of g x) S = is_quorum_slice q S) ->
  forall S, quorum g S <-> incl_set S (below n) /\ is_quorum_slice q S = true.
Proof.
  intros Ng Hg S. split.
  - intros [(x & Hx) H]. assert (Hb : incl_set S (below n)).
    { intros y Hy. destruct (H y Hy) as (p & Hp & _). apply (at_node g y p Ng) in Hp. apply mem_below. tauto. }
    split; auto. destruct (H x Hx) as (p & Hp & Hsl). apply (at_node g x p Ng) in Hp. destruct Hp as [Hlt <-].
    rewrite <- (Hg x S Hlt Hx). now apply is_quorum_slice_iff.
  - intros [Hb H]. split.
    + destruct (is_quorum_slice_meets _ _ H) as (x & _ & Hx). exists x; auto.
    + intros x Hx. assert (Hlt : x < n) by (apply mem_below; auto). exists (qset_of g x). split; [apply at_node; auto|].
      apply is_quorum_slice_iff. rewrite Hg; auto.
Qed.
Lemma quorum_f S : quorum f S <-> incl_set S (below n) /\ is_quorum_slice q S = true.
Proof. apply quorum_like; auto. intros x S' Hx. now apply node_slice. Qed.
Lemma quorum_f0 S : quorum f0 S <-> incl_set S (below n) /\ is_quorum_slice q S = true.
Proof. apply quorum_like; auto. intros x S' Hx _. rewrite Q0; auto. Qed.
Lemma same_quorums S : quorum f S <-> quorum f0 S.
Proof. rewrite quorum_f, quorum_f0. tauto. Qed.
Lemma same_minimal S : minimal_quorum f S <-> minimal_quorum f0 S.
Proof. unfold minimal_quorum, minimal. rewrite same_quorums. split; intros [H1 H2]; split; auto; intros S' H; apply H2; now apply same_quorums. Qed.
Lemma same_blocking S : blocking f S <-> blocking f0 S.
Proof. unfold blocking. split; intros H Q HQ; apply H; now apply same_quorums. Qed.
Lemma same_minimal_blocking S : minimal_blocking f S <-> minimal_blocking f0 S.
Proof. unfold minimal_blocking, minimal. rewrite same_blocking. split; intros [H1 H2]; split; auto; intros S' H; apply H2; now apply same_blocking. Qed.
Lemma same_splitting S : splitting f S <-> splitting f0 S.
Proof. unfold splitting. split; intros (A & B & H1 & H2 & H); exists A, B; (split; [now apply same_minimal|]); split; auto; now apply same_minimal. Qed.
Lemma same_minimal_splitting S : minimal_splitting f S <-> minimal_splitting f0 S.
Proof. unfold minimal_splitting, minimal. rewrite same_splitting. split; intros [H1 H2]; split; auto; intros S' H; apply H2; now apply same_splitting. Qed.

Lemma f0_all x : mem x (below n) = true -> qset_of f0 x = q.
Proof. intro H. apply Q0. now apply mem_below. Qed.
Lemma f0_one Q : minimal_quorum f0 Q -> incl_set Q (below n).
Proof. intros [HQ _]. apply quorum_f0 in HQ. tauto. Qed.
Lemma minimal_quorums_f S : minimal_quorum f S <-> In S (to_quorum_slices q).
Proof. rewrite same_minimal. apply (sym_minimal f0 q (below n) q_contained f0_all f0_one q_nodup). Qed.
Lemma minimal_blocking_f S : minimal_blocking f S <-> In S (to_quorum_slices (dual q)).
Proof.
  rewrite same_minimal_blocking, <- to_blocking_sets_dual, (to_blocking_sets_iff f0 (below n) q S q_contained f0_all Hs q_nodup).
  assert (Hall : below n = all_nodes f0) by (unfold all_nodes; now rewrite <- N0).
  assert (Hc : forall B, blocking f0 B <-> contains_quorum (diff (below n) B) f0 = false).
  { intro B. rewrite contains_quorum_false. split.
    - intros HB Q HQ Hi. destruct (HB Q HQ) as (x & Hx & HxQ). apply Hi in HxQ. rewrite mem_diff, Hx, andb_false_r in HxQ. discriminate.
    - intros H Q HQ. apply not_disjoint_meets. apply not_true_iff_false. intro Hd. apply (H Q HQ). intros x Hx.
      rewrite mem_diff, Hall, (quorum_nodes f0 Q HQ x Hx). simpl. rewrite disjoint_iff in Hd. destruct (mem x B) eqn:Ex; auto. exfalso. eauto. }
  split.
  - intros HB. assert (Hi : incl_set S (below n)) by (rewrite Hall; intros x Hx; apply mem_all_nodes; eapply minimal_blocking_in_range; eauto).
    destruct HB as [HB Hm]. split; [split; [auto|now apply Hc]|]. intros S' [_ HS'] Hi'. apply Hm; auto. now apply Hc.
  - intros [[Hi HB] Hm]. split; [now apply Hc|]. intros S' HS' Hi'. apply Hm; auto. split; [|now apply Hc]. intros x Hx. auto.
Qed.
Lemma minimal_splitting_f S : splittable q \/ rigid q -> (minimal_splitting f S <-> In S (to_splitting_sets q)).
Proof. intro H. rewrite same_minimal_splitting. symmetry. apply (to_splitting_sets_iff f0 q (below n) q_contained f0_all f0_one q_nodup S H). Qed.

Lemma full_slice : is_quorum_slice q (below n) = true.
Proof.
  assert (H : forall p, sane p -> (forall x, mentions x p -> x < n) -> is_quorum_slice p (below n) = true).
  { clear. intro p. induction p as [t vs is_ IH] using qset_ind'. intros Hs Hm. apply sane_inv in Hs. destruct Hs as (H1 & H2 & H3).
    rewrite is_quorum_slice_matches. split; auto. unfold matches.
    rewrite !forallb_filter_id; auto; apply forallb_forall.
    - intros i Hi. apply IH; auto. intros x Hx. apply Hm. eright; eauto.
    - intros x Hx. apply mem_below, Hm. left; auto. }
  apply H; auto. intros x. apply q_mentions.
Qed.
Lemma f_quorum : has_a_quorum f.
Proof. exists (below n). apply quorum_f. split; [intros x Hx; auto|apply full_slice]. Qed.
Lemma f_intersection : splittable q \/ rigid q -> quorum_intersection f.
Proof.
  intro H. split; [apply f_quorum|]. intros A B HA HB. apply quorum_f in HA, HB. destruct HA as [_ HA]. destruct HB as [_ HB]. destruct H as [H|H].
  - assert (Hi := slice_intersection_inter q A B HA HB). rewrite <- (splitter_slice q _ (splittable_overlapping q H)) in Hi.
    destruct (is_quorum_slice_meets _ _ Hi) as (x & _ & Hx). rewrite mem_inter, andb_true_iff in Hx. exists x. tauto.
  - exists 0. split; apply (rigid_all q H); auto; now apply q_mentions.
Qed.
Lemma f_wf : wf_fbas f.
Proof.
  intros x p y Hp Hy. apply (at_node f x p N) in Hp. rewrite N. destruct Hp as [Hx <-]. destruct x as [|x].
  - rewrite Qz in Hy. destruct q as [t vs is_] eqn:Eq. cbn [with_extra_mention] in Hy. rewrite mentions_inv, in_app_iff in Hy. 
    assert (mentions y (QS t vs is_) \/ y = 0) as [H| ->]; [|rewrite <- Eq in *; now apply q_mentions|lia].
    rewrite mentions_inv. cbn in Hy. intuition.
  - rewrite Qx in Hy by lia. now apply q_mentions.
Qed.

(** ** the symmetric shortcuts do not apply to more than one node *)
Lemma times_extra : times_mentioned 0 (with_extra_mention q) = S (times_mentioned 0 q).
Proof. destruct q as [t vs is_]. cbn [with_extra_mention times_mentioned]. rewrite count_occ_app. cbn. lia. Qed.
Lemma f_top_tier x : x < n -> in_top_tier f x.
Proof.
  intro Hx. apply q_mentions in Hx. destruct (slices_cover q Hs x Hx) as (s & H1 & H2). exists s. split; auto. now apply minimal_quorums_f.
Qed.
Lemma f_trusts x y : x < n -> y < n -> trusts f x y.
Proof.
  intros Hx Hy. exists (qset_of f x). split; [now apply at_node|]. apply q_mentions in Hy. destruct x as [|x]; [|now rewrite Qx by lia].
  rewrite Qz. destruct q as [t vs is_]. cbn [with_extra_mention]. rewrite mentions_inv in *. rewrite in_app_iff. tauto.
Qed.
Lemma working_all K : working_set f K -> forall x, x < n -> mem x K = true.
Proof.
  intros [H|H] x Hx; apply H; [|now apply f_top_tier]. destruct (f_top_tier x Hx) as (Q & [HQ _] & HxQ). split; [eauto|].
  exists Q. split; auto. intros y Hy. apply quorum_f in HQ. destruct HQ as [HQ _]. apply HQ, mem_below in Hy.
  split; apply rt_step, f_trusts; auto.
Qed.
Lemma no_working_cluster K p : 2 <= n -> working_set f K -> ~ working_cluster f K p.
Proof.
  intros H2 HK (_ & Hall & (x & qx & Hx & Hqx & ->) & _). assert (HK' := working_all K HK).
  assert (Hres : forall p' y, mem y K = true -> times_mentioned y (restrict K p') = times_mentioned y p').
  { clear. intros p' y Hy. induction p' as [t vs is_ IH] using qset_ind'. cbn [restrict times_mentioned]. f_equal.
    - induction vs as [|v vs IHv]; cbn; auto. destruct (mem v K) eqn:Ev; cbn; destruct (Nat.eq_dec v y); subst; try congruence; rewrite IHv; auto.
    - f_equal. rewrite map_map. apply map_ext_in. auto. }
  assert (Hm : forall y, y < n -> mentions y (pruned K qx)).
  { intros y Hy. apply pruned_mentions, contained_list_spec, (count_occ_In Nat.eq_dec). rewrite <- times_mentioned_spec, Hres by auto. rewrite times_mentioned_spec.
    apply count_occ_In, contained_list_spec. apply (at_node f x qx N) in Hqx. destruct Hqx as [Hlt <-].
    destruct (f_trusts x y Hlt Hy) as (p & Hp & Hmp). apply (at_node f x p N) in Hp. destruct Hp as [_ ->]. auto. }
  destruct (Hall 0 (Hm 0 ltac:(lia))) as (q0 & E0 & T0). destruct (Hall 1 (Hm 1 ltac:(lia))) as (q1 & E1 & T1).
  apply (at_node f _ _ N) in E0, E1. destruct E0 as [_ E0]. destruct E1 as [_ E1]. rewrite Qz in E0. rewrite Qx in E1 by lia. subst q0 q1.
  apply (reordered_times 0) in T0, T1. rewrite !pruned_times in T0, T1. rewrite Hres in T0, T1 by (apply HK'; lia). rewrite times_extra in T0. lia.
Qed.
Lemma f_sane_clusters : 2 <= n -> sane_clusters f.
Proof. intros H K p HK Hp. destruct (no_working_cluster K p H HK Hp). Qed.
Lemma f_splittable_clusters : 2 <= n -> splittable_clusters f.
Proof. intros H K p HK Hp. destruct (no_working_cluster K p H HK Hp). Qed.
Lemma f_no_symmetric_top_tier E : ext_ok E -> 2 <= n -> find_symmetric_top_tier E f = Ok None.
Proof.
  intros HE H2. destruct (find_symmetric_top_tier_spec E HE f f_wf) as ([p|] & Eo & H & _); auto. exfalso. destruct (H p eq_refl) as (_ & H1 & _).
  destruct (H1 0 (f_top_tier 0 ltac:(lia))) as [E0 _]. destruct (H1 1 (f_top_tier 1 ltac:(lia))) as [E1 _].
  apply (at_node f _ _ N) in E0, E1. destruct E0 as [_ E0]. destruct E1 as [_ E1]. rewrite Qz in E0. rewrite Qx in E1 by lia.
  assert (T := times_extra). rewrite E0, E1 in T. lia.
Qed.
End Almost.

(** ** numbers and means in a row *)
Lemma lists_length P (l l' : list bset) : lists P l -> NoDup l' -> (forall s, In s l' <-> P s) -> List.length l = List.length l'.
Proof.
  intros [H1 H2] Hn H3. apply Nat.le_antisymm; apply NoDup_incl_length; auto.
  - apply sorted_before_nodup; auto.
  - intros s Hs. apply H3, H2, Hs.
  - intros s Hs. apply H2, H3, Hs.
Qed.
Lemma said_by r l number size : ascending_table r -> vr_unwrap r = Ok l -> List.length l = number -> (forall s, In s l -> len s = size) -> 1 <= size ->
  said_of number size (vr_len r) (vr_mean r).
Proof.
  intros Ht Hu Hl Hsz H1. destruct (unwrap_sizes r l Ht Hu) as [Hs _]. split; [|split].
  - unfold vr_len. rewrite <- (map_length len (node_sets r)), Hs, map_length. auto.
  - intros ->. unfold vr_mean. apply length_zero_iff_nil in Hl. subst l. destruct (node_sets r); [reflexivity|discriminate].
  - intros Hp Hz. destruct (describe_spec r l Ht Hu) as (d & mn & mx & mean & h & Ed & _ & M1 & M2 & _ & _ & _ & _ & H4).
    unfold vr_describe in Ed. destruct (vr_histogram r) as [h'|]; cbn [bind] in Ed; [|discriminate]. injection Ed as _ _ _ _ Em _.
    assert (Hsum : list_sum (map len l) = number * size).
    { rewrite <- Hl. clear -Hsz. induction l as [|s l IH]; auto. change (len s + list_sum (map len l) = size + List.length l * size).
      rewrite (Hsz s) by now left. rewrite IH; auto. intros; apply Hsz; now right. }
    assert (Hmn : mn = size /\ mx = size).
    { assert (Hin : forall k, In k (map len l) -> k = size) by (intros k Hk; apply in_map_iff in Hk; destruct Hk as (s & <- & Hk); auto).
      assert (Hne : map len l <> []) by (intro H; apply map_eq_nil in H; subst l; cbn in Hl; lia).
      split; [destruct M1 as [[H _]|[H _]]|destruct M2 as [[H _]|[H _]]]; try contradiction; auto. }
    destruct Hmn as [-> ->]. rewrite <- Em in H4. rewrite Hsum, Hl in H4. destruct H4 as (F & _ & Hr).
    + intros ->. cbn in Hl. lia.
    + auto.
    + nia.
    + split; auto. apply Rle_antisym; apply Hr.
Qed.

Section Row.
Context (E : ext) (HE : ext_ok E) (clock : experiment -> experiment_durations).
Lemma experiment_row (stellar : bool) k n q f qn qs bn bs sn ss : 2 <= n -> x_top_tier_size k = n ->
  (if stellar then make_almost_ideal_stellarlike_fbas n else make_almost_ideal_fbas n) = almost n q ->
  contained_nodes_with_duplicates q = seq 0 n -> sane q -> splittable q \/ rigid q ->
  List.length (to_quorum_slices q) = qn -> (forall s, In s (to_quorum_slices q) -> len s = qs) -> 1 <= qs ->
  List.length (to_quorum_slices (dual q)) = bn -> (forall s, In s (to_quorum_slices (dual q)) -> len s = bs) -> 1 <= bs ->
  List.length (to_splitting_sets q) = sn -> (forall s, In s (to_splitting_sets q) -> len s = ss) -> 1 <= ss ->
  almost n q = Ok f ->
  exists row, run_experiment E clock k stellar = Ok row /\ experiment_of row = k /\
    said_of qn qs (me_mq_number row) (me_mq_mean row) /\ said_of bn bs (me_mbs_number row) (me_mbs_mean row) /\ said_of sn ss (me_mss_number row) (me_mss_mean row).
Proof.
  intros H2 Hk Hmk Hnd Hs Hsr Q1 Q2 Q3 B1 B2 B3 S1 S2 S3 Hf. destruct (almost_ok n q ltac:(lia)) as (f0 & f' & Ef & N0 & N & Q0 & Qz & Qx).
  rewrite Hf in Ef. injection Ef as <-.
  assert (Hn1 : 1 <= n) by lia.
  assert (Hwf := f_wf n q Hn1 Hnd Hs f0 f N0 N Q0 Qz Qx). assert (Hq := f_quorum n q Hn1 Hnd Hs f0 f N0 N Q0 Qz Qx).
  assert (Hsane := f_sane_clusters n q Hn1 Hnd Hs f0 f N0 N Q0 Qz Qx H2). assert (Hsplit := f_splittable_clusters n q Hn1 Hnd Hs f0 f N0 N Q0 Qz Qx H2).
  assert (Hqi := f_intersection n q Hn1 Hnd Hs f0 f N0 N Q0 Qz Qx Hsr).
  unfold run_experiment. rewrite Hk, Hmk, Hf. cbn [bind]. rewrite N, Nat.eqb_refl. cbn [assert].
  destruct (inv_new E HE f Hwf) as (a0 & -> & Hi0). cbn [bind].
  destruct (ask_mq E HE f Hwf Hsane a0 _ Hi0) as (rq & lq & a1 & K1 & -> & Hi1 & Tq & Uq & Hlq). cbn [bind].
  destruct (ask_hqi E HE f Hwf a1 K1 Hi1) as (b & a2 & K2 & -> & Hi2 & Hb). cbn [bind].
  apply Hb in Hqi as ->. cbn [assert].
  destruct (perform_step E HE f Hwf a2 K2 AlternativeCheck Hi2 Hq) as (ans & a3 & K3 & -> & Hi3 & Hans). cbn [bind].
  destruct Hans as [(-> & _)|(r & l & _ & _ & Hno & _)]; [|destruct Hno; now apply Hb]. cbn [assert].
  destruct (ask_mbs E HE f Hwf Hq Hsane a3 K3 Hi3) as (rb & lb & a4 & K4 & -> & Hi4 & Tb & Ub & Hlb). cbn [bind].
  destruct (ask_mss E HE f Hwf Hq Hsplit a4 K4 Hi4) as (rs & ls & a5 & K5 & -> & Hi5 & Ts & Us & Hls). cbn [bind].
  eexists. split; [reflexivity|]. cbn. split; [rewrite <- Hk; destruct k; reflexivity|].
  assert (Hnq := q_nodup n q Hnd).
  split; [|split]; eapply said_by; eauto.
  - rewrite <- Q1. apply (lists_length _ _ _ Hlq); [now apply to_quorum_slices_nodup|]. intro s. symmetry. apply (minimal_quorums_f n q Hn1 Hnd Hs f0 f N0 N Q0 Qz Qx).
  - intros s HsI. apply Q2. apply (minimal_quorums_f n q Hn1 Hnd Hs f0 f N0 N Q0 Qz Qx). apply Hlq. auto.
  - rewrite <- B1. apply (lists_length _ _ _ Hlb); [now apply to_quorum_slices_nodup, dual_nodup|]. intro s. symmetry. apply (minimal_blocking_f n q Hn1 Hnd Hs f0 f N0 N Q0 Qz Qx).
  - intros s HsI. apply B2. apply (minimal_blocking_f n q Hn1 Hnd Hs f0 f N0 N Q0 Qz Qx). apply Hlb. auto.
  - rewrite <- S1. apply (lists_length _ _ _ Hls). 
    + now apply to_splitting_sets_nodup.
    + intro s. symmetry. apply (minimal_splitting_f n q Hn1 Hnd Hs f0 f N0 N Q0 Qz Qx s Hsr).
  - intros s HsI. apply S2. apply (minimal_splitting_f n q Hn1 Hnd Hs f0 f N0 N Q0 Qz Qx s Hsr). apply Hls. auto.
Qed.

(** ** the two kinds of FBASs *)
Lemma two_thirds_range n : 1 <= n -> 1 <= two_thirds n <= n /\ n < 2 * two_thirds n /\ (n <= 3 -> two_thirds n = n) /\ (4 <= n -> two_thirds n < n).
Proof.
  intro H. unfold two_thirds. assert (D := Nat.div_mod (n - 1) 3 ltac:(lia)). assert (M := Nat.mod_upper_bound (n - 1) 3 ltac:(lia)).
  set (d := (n - 1) / 3) in *. set (m := (n - 1) mod 3) in *. lia.
Qed.
Definition ideal (n : nat) : qset := QS (two_thirds n) (seq 0 n) [].
Definition stellar_like (g : nat) : qset := organized (two_thirds g) 2 g.
Lemma ideal_made n : 1 <= n -> (Z.of_nat n <= 2 ^ 53)%Z -> make_almost_ideal_fbas n = almost n (ideal n).
Proof. intros H1 H2. unfold make_almost_ideal_fbas, almost, ideal, two_thirds. now rewrite threshold_67p. Qed.
Lemma stellar_made g : 1 <= g -> (Z.of_nat g <= 2 ^ 53)%Z -> make_almost_ideal_stellarlike_fbas (3 * g) = almost (3 * g) (stellar_like g).
Proof.
  intros H1 H2. unfold make_almost_ideal_stellarlike_fbas, almost, stellar_like, organized, three_of, two_thirds.
  replace (3 * g) with (g * 3) by lia. rewrite Nat.mod_mul, Nat.div_mul by lia. cbn [Nat.eqb assert]. now rewrite threshold_67p.
Qed.
Lemma ideal_nodes n : contained_nodes_with_duplicates (ideal n) = seq 0 n.
Proof. cbn. apply app_nil_r. Qed.
Lemma ideal_sane n : 1 <= n -> sane (ideal n).
Proof. intro H. destruct (two_thirds_range n H) as (H1 & _). constructor; [lia|rewrite seq_length; cbn; lia|intros i []]. Qed.
Lemma ideal_kind n : 1 <= n -> splittable (ideal n) \/ rigid (ideal n).
Proof.
  intro H. destruct (two_thirds_range n H) as (H1 & H2 & H3 & H4). destruct (le_lt_dec 4 n).
  - left. constructor; rewrite ?seq_length; cbn; [lia|lia|lia|intros i []].
  - right. constructor; rewrite ?seq_length; cbn; [lia|lia|intros i []].
Qed.
Lemma stellar_splittable g : 1 <= g -> splittable (stellar_like g).
Proof.
  intro H. destruct (two_thirds_range g H) as (H1 & H2 & _). constructor; rewrite ?map_length, ?seq_length; cbn [List.length]; try lia.
  - right. destruct g; [lia|discriminate].
  - intros i Hi. apply in_map_iff in Hi. destruct Hi as (o & <- & _). constructor; cbn; lia || intros i [].
Qed.
Lemma stellar_sane g : 1 <= g -> sane (stellar_like g).
Proof.
  intro H. destruct (two_thirds_range g H) as (H1 & H2 & _). constructor; rewrite ?map_length, ?seq_length; cbn [List.length]; try lia.
  intros i Hi. apply in_map_iff in Hi. destruct Hi as (o & <- & _). constructor; cbn; lia || intros i [].
Qed.
Lemma ideal_dual n : 1 <= n -> dual (ideal n) = QS (n - two_thirds n + 1) (seq 0 n) [].
Proof.
  intro H. destruct (two_thirds_range n H) as (H1 & _). unfold ideal. cbn [dual map blocking_threshold]. rewrite seq_length. cbn [List.length].
  rewrite Nat.add_0_r. destruct (Nat.leb_spec (two_thirds n) n); [reflexivity|lia].
Qed.
Lemma ideal_splitter n : 1 <= n -> splitter (ideal n) = QS (2 * two_thirds n - n) (seq 0 n) [].
Proof.
  intro H. destruct (two_thirds_range n H) as (_ & H1 & _). unfold ideal. cbn [splitter map]. rewrite splitting_threshold_fits; rewrite seq_length; cbn [List.length]; rewrite Nat.add_0_r; [reflexivity|].
  destruct (two_thirds_range n H); lia.
Qed.
Lemma stellar_dual g : 1 <= g -> dual (stellar_like g) = organized (g - two_thirds g + 1) 2 g.
Proof.
  intro H. destruct (two_thirds_range g H) as (H1 & _). unfold stellar_like, organized. cbn [dual blocking_threshold]. rewrite map_length, seq_length. cbn [List.length plus].
  destruct (Nat.leb_spec (two_thirds g) g); [|lia]. f_equal. rewrite map_map. reflexivity.
Qed.
Lemma stellar_splitter g : 1 <= g -> splitter (stellar_like g) = organized (2 * two_thirds g - g) 1 g.
Proof.
  intro H. destruct (two_thirds_range g H) as (_ & H1 & _). unfold stellar_like, organized. cbn [splitter]. rewrite splitting_threshold_fits; rewrite map_length, seq_length; cbn [List.length plus].
  - f_equal. rewrite map_map. reflexivity.
  - destruct (two_thirds_range g H); lia.
Qed.

Lemma ideal_row n run : 2 <= n -> (Z.of_nat n <= 2 ^ 53)%Z -> let t := two_thirds n in
  exists row, run_experiment E clock (mk_experiment n run) false = Ok row /\ experiment_of row = mk_experiment n run /\
    said_of (binomial n t) t (me_mq_number row) (me_mq_mean row) /\
    said_of (binomial n (n - t + 1)) (n - t + 1) (me_mbs_number row) (me_mbs_mean row) /\
    said_of (if n <=? 3 then 0 else binomial n (2 * t - n)) (2 * t - n) (me_mss_number row) (me_mss_mean row).
Proof.
  intros H2 Hz t. assert (H1 : 1 <= n) by lia. destruct (two_thirds_range n H1) as (R1 & R2 & R3 & R4). fold t in R1, R2, R3, R4.
  destruct (almost_ok n (ideal n) H1) as (_ & f & Hf & _).
  assert (Hq := flat_slices t (seq 0 n) ltac:(lia) (seq_NoDup n 0)). rewrite seq_length in Hq.
  assert (Hb := flat_slices (n - t + 1) (seq 0 n) ltac:(lia) (seq_NoDup n 0)). rewrite seq_length in Hb. assert (EHb := ideal_dual n H1). fold t in EHb. rewrite <- EHb in Hb.
  assert (Hsp := flat_slices (2 * t - n) (seq 0 n) ltac:(lia) (seq_NoDup n 0)). rewrite seq_length in Hsp. assert (EHsp := ideal_splitter n H1). fold t in EHsp. rewrite <- EHsp in Hsp.
  assert (Hnd : nodup_qset (ideal n)) by (unfold nodup_qset; rewrite ideal_nodes; apply seq_NoDup).
  apply (experiment_row false (mk_experiment n run) n (ideal n) f); auto.
  - now apply ideal_made.
  - apply ideal_nodes.
  - now apply ideal_sane.
  - now apply ideal_kind.
  - apply Hq.
  - apply Hq.
  - lia.
  - apply Hb.
  - apply Hb.
  - lia.
  - destruct (Nat.leb_spec n 3) as [Hl|Hl].
    + rewrite rigid_splitting; auto. constructor; rewrite ?seq_length; cbn [List.length]; [fold t; lia|fold t; lia|intros i []].
    + rewrite to_splitting_sets_slices; auto; [apply Hsp|]. constructor; rewrite ?seq_length; cbn [List.length]; fold t; [lia|lia|lia|intros i []].
  - intros s Hin. destruct (le_lt_dec n 3) as [Hl|Hl].
    + rewrite rigid_splitting in Hin; [destruct Hin|]. constructor; rewrite ?seq_length; cbn [List.length]; [fold t; lia|fold t; lia|intros i []].
    + rewrite to_splitting_sets_slices in Hin; auto; [now apply Hsp|]. constructor; rewrite ?seq_length; cbn [List.length]; fold t; [lia|lia|lia|intros i []].
  - lia.
Qed.
Lemma stellar_row g run : 1 <= g -> (Z.of_nat g <= 2 ^ 53)%Z -> let t := two_thirds g in
  exists row, run_experiment E clock (mk_experiment (3 * g) run) true = Ok row /\ experiment_of row = mk_experiment (3 * g) run /\
    said_of (binomial g t * 3 ^ t) (2 * t) (me_mq_number row) (me_mq_mean row) /\
    said_of (binomial g (g - t + 1) * 3 ^ (g - t + 1)) (2 * (g - t + 1)) (me_mbs_number row) (me_mbs_mean row) /\
    said_of (binomial g (2 * t - g) * 3 ^ (2 * t - g)) (2 * t - g) (me_mss_number row) (me_mss_mean row).
Proof.
  intros H1 Hz t. destruct (two_thirds_range g H1) as (R1 & R2 & R3 & R4). fold t in R1, R2, R3, R4.
  destruct (almost_ok (3 * g) (stellar_like g) ltac:(lia)) as (_ & f & Hf & _).
  assert (Hq := organized_slices t 2 g ltac:(lia) ltac:(lia)).
  assert (Hb := organized_slices (g - t + 1) 2 g ltac:(lia) ltac:(lia)). assert (EHb := stellar_dual g H1). fold t in EHb. rewrite <- EHb in Hb.
  assert (Hsp := organized_slices (2 * t - g) 1 g ltac:(lia) ltac:(lia)). assert (EHsp := stellar_splitter g H1). fold t in EHsp. rewrite <- EHsp in Hsp.
  rewrite <- (to_splitting_sets_slices (stellar_like g) (stellar_splittable g H1) (organized_nodup t 2 g)) in Hsp.
  change (binomial 3 2) with 3 in *. change (binomial 3 1) with 3 in *.
  apply (experiment_row true (mk_experiment (3 * g) run) (3 * g) (stellar_like g) f); auto.
  - lia.
  - now apply stellar_made.
  - apply organized_nodes.
  - now apply stellar_sane.
  - left. now apply stellar_splittable.
  - apply Hq.
  - intros s Hin. rewrite (Nat.mul_comm 2). now apply Hq.
  - lia.
  - apply Hb.
  - intros s Hin. rewrite (Nat.mul_comm 2). now apply Hb.
  - lia.
  - apply Hsp.
  - intros s Hin. rewrite <- (Nat.mul_1_r (2 * t - g)). now apply Hsp.
  - lia.
Qed.
End Row.

(** ** which quorums there are *)
Lemma number_listed P l : NoDup l -> (forall s, P s <-> In s l) -> number_of P (List.length l).
Proof.
  intros H1 H2. exists (sort_sets l). split; [split|].
  - now apply sort_sets_strict.
  - intro s. rewrite sort_sets_in. symmetry. apply H2.
  - apply Permutation_length, sort_sets_perm.
Qed.
Lemma filter_len S n : (forall x, mem x S = true -> x < n) -> List.length (filter (fun x => mem x S) (seq 0 n)) = len S.
Proof.
  intro H. rewrite len_elements. apply Permutation_length, NoDup_Permutation; [apply NoDup_filter, seq_NoDup|apply elements_nodup|].
  intro x. rewrite filter_In, in_seq, elements_spec. split; [tauto|]. intro Hx. split; auto. specialize (H x Hx). lia.
Qed.
Lemma ideal_slice n S : 1 <= n -> (forall x, mem x S = true -> x < n) -> (is_quorum_slice (ideal n) S = true <-> two_thirds n <= len S).
Proof.
  intros H1 H. destruct (two_thirds_range n H1) as (R & _). unfold ideal. rewrite is_quorum_slice_matches. unfold matches. cbn [filter List.length].
  rewrite (filter_len S n H). lia.
Qed.
Lemma stellar_slice g S : 1 <= g -> (forall x, mem x S = true -> x < 3 * g) -> (is_quorum_slice (stellar_like g) S = true <-> strong_in S 2 (two_thirds g)).
Proof.
  intros H1 H. destruct (two_thirds_range g H1) as (R & _). unfold stellar_like, organized. rewrite is_quorum_slice_matches. unfold matches. cbn [filter List.length plus].
  assert (Hlen : List.length (filter (fun i => is_quorum_slice i S) (map (three_of 2) (seq 0 g))) = List.length (filter (fun o => is_quorum_slice (three_of 2 o) S) (seq 0 g))).
  { generalize (seq 0 g). intro l. induction l as [|o l IH]; cbn [map filter]; auto. destruct (is_quorum_slice (three_of 2 o) S); cbn [List.length]; auto. }
  rewrite Hlen. clear Hlen.
  assert (Ho : forall o, is_quorum_slice (three_of 2 o) S = true <-> 2 <= List.length (filter (fun x => mem x S) [o * 3; o * 3 + 1; o * 3 + 2])).
  { intro o. unfold three_of. rewrite is_quorum_slice_matches. unfold matches. cbn [filter List.length]. lia. }
  split.
  - intros [_ Ht]. exists (filter (fun o => is_quorum_slice (three_of 2 o) S) (seq 0 g)). split; [apply NoDup_filter, seq_NoDup|]. split; [lia|].
    intros o Hin. apply filter_In in Hin. destruct Hin as [_ Hin]. apply Ho in Hin. exists (filter (fun x => mem x S) [o * 3; o * 3 + 1; o * 3 + 2]).
    split; [apply NoDup_filter, three_nodup|]. split; auto. intros x Hx. apply filter_In in Hx. destruct Hx as [Hx HS]. split; auto. unfold organization.
    symmetry. cbn in Hx. destruct Hx as [<-|[<-|[<-|[]]]]; [apply (Nat.div_unique _ 3 o 0)|apply (Nat.div_unique _ 3 o 1)|apply (Nat.div_unique _ 3 o 2)]; lia.
  - intros (orgs & Hnd & Hl & Hs). split; [lia|]. eapply Nat.le_trans; [exact Hl|]. apply NoDup_incl_length; auto.
    intros o Hin. destruct (Hs o Hin) as (xs & Nx & Lx & Hx). apply filter_In.
    assert (Hd : forall x, In x xs -> x = o * 3 \/ x = o * 3 + 1 \/ x = o * 3 + 2).
    { intros x Hxi. destruct (Hx x Hxi) as [_ Hox]. unfold organization in Hox. assert (D := Nat.div_mod x 3 ltac:(lia)). assert (M := Nat.mod_upper_bound x 3 ltac:(lia)). lia. }
    split.
    + destruct xs as [|x xs]; [cbn in Lx; lia|]. specialize (Hd x (or_introl eq_refl)). destruct (Hx x (or_introl eq_refl)) as [HS _]. specialize (H x HS). apply in_seq. lia.
    + apply Ho. eapply Nat.le_trans; [exact Lx|]. apply NoDup_incl_length; auto. intros x Hxi. apply filter_In. split; [|now apply Hx].
      destruct (Hd x Hxi) as [->|[->| ->]]; cbn; auto.
Qed.

Lemma ideal_fbas n : 1 <= n -> (Z.of_nat n <= 2 ^ 53)%Z -> let t := two_thirds n in
  exists f, make_almost_ideal_fbas n = Ok f /\ number_of_nodes f = n /\
    (forall S, quorum f S <-> (forall x, mem x S = true -> x < n) /\ t <= len S) /\
    number_of (minimal_quorum f) (binomial n t) /\ number_of (minimal_blocking f) (binomial n (n - t + 1)) /\
    number_of (minimal_splitting f) (if n <=? 3 then 0 else binomial n (2 * t - n)) /\
    (2 <= n -> forall E, ext_ok E -> find_symmetric_top_tier E f = Ok None).
Proof.
  intros H1 Hz t. destruct (two_thirds_range n H1) as (R1 & R2 & R3 & R4). fold t in R1, R2, R3, R4.
  rewrite ideal_made by auto. destruct (almost_ok n (ideal n) H1) as (f0 & f & Hf & N0 & N & Q0 & Qz & Qx). exists f. split; auto. split; auto.
  assert (Hnd := ideal_nodes n). assert (Hs := ideal_sane n H1).
  assert (Hnq : nodup_qset (ideal n)) by (unfold nodup_qset; rewrite Hnd; apply seq_NoDup).
  split; [|split; [|split; [|split]]].
  - intro S. rewrite (quorum_f n (ideal n) H1 Hnd Hs f0 f N0 N Q0 Qz Qx). split.
    + intros [Hi HS]. assert (Hi' : forall x, mem x S = true -> x < n) by (intros x Hx; apply mem_below; auto). split; auto. now apply (ideal_slice n S).
    + intros [Hi HS]. split; [intros x Hx; apply mem_below; auto|]. now apply (ideal_slice n S).
  - assert (Hq := proj1 (flat_slices t (seq 0 n) ltac:(lia) (seq_NoDup n 0))). rewrite seq_length in Hq. rewrite <- Hq.
    apply number_listed; [now apply to_quorum_slices_nodup|]. apply (minimal_quorums_f n (ideal n) H1 Hnd Hs f0 f N0 N Q0 Qz Qx).
  - assert (Hq := proj1 (flat_slices (n - t + 1) (seq 0 n) ltac:(lia) (seq_NoDup n 0))). rewrite seq_length in Hq.
    assert (Ed := ideal_dual n H1). fold t in Ed. rewrite <- Ed in Hq. rewrite <- Hq.
    apply number_listed; [now apply to_quorum_slices_nodup, dual_nodup|]. apply (minimal_blocking_f n (ideal n) H1 Hnd Hs f0 f N0 N Q0 Qz Qx).
  - assert (Hq := proj1 (flat_slices (2 * t - n) (seq 0 n) ltac:(lia) (seq_NoDup n 0))). rewrite seq_length in Hq.
    assert (Ed := ideal_splitter n H1). fold t in Ed. rewrite <- Ed in Hq.
    replace (if n <=? 3 then 0 else binomial n (2 * t - n)) with (List.length (to_splitting_sets (ideal n))).
    + apply number_listed; [apply to_splitting_sets_nodup; auto; now apply ideal_kind|].
      intro s. apply (minimal_splitting_f n (ideal n) H1 Hnd Hs f0 f N0 N Q0 Qz Qx). now apply ideal_kind.
    + destruct (Nat.leb_spec n 3) as [Hl|Hl].
      * rewrite rigid_splitting; auto. constructor; rewrite ?seq_length; cbn [List.length]; [fold t; lia|fold t; lia|intros i []].
      * rewrite to_splitting_sets_slices; auto. constructor; rewrite ?seq_length; cbn [List.length]; fold t; [lia|lia|lia|intros i []].
  - intros H2 E HE. now apply (f_no_symmetric_top_tier n (ideal n) H1 Hnd Hs f0 f N0 N Q0 Qz Qx).
Qed.
Lemma stellar_fbas g : 1 <= g -> (Z.of_nat g <= 2 ^ 53)%Z -> let t := two_thirds g in
  exists f, make_almost_ideal_stellarlike_fbas (3 * g) = Ok f /\ number_of_nodes f = 3 * g /\
    (forall S, quorum f S <-> (forall x, mem x S = true -> x < 3 * g) /\ strong_in S 2 t) /\
    number_of (minimal_quorum f) (binomial g t * 3 ^ t) /\ number_of (minimal_blocking f) (binomial g (g - t + 1) * 3 ^ (g - t + 1)) /\
    number_of (minimal_splitting f) (binomial g (2 * t - g) * 3 ^ (2 * t - g)) /\
    (forall E, ext_ok E -> find_symmetric_top_tier E f = Ok None).
Proof.
  intros H1 Hz t. destruct (two_thirds_range g H1) as (R1 & R2 & R3 & R4). fold t in R1, R2, R3, R4. assert (Hn1 : 1 <= 3 * g) by lia.
  rewrite stellar_made by auto. destruct (almost_ok (3 * g) (stellar_like g) Hn1) as (f0 & f & Hf & N0 & N & Q0 & Qz & Qx). exists f. split; auto. split; auto.
  assert (Hnd := organized_nodes t 2 g). fold (stellar_like g) in Hnd. assert (Hs := stellar_sane g H1). assert (Hnq := organized_nodup t 2 g).
  split; [|split; [|split; [|split]]].
  - intro S. rewrite (quorum_f (3 * g) (stellar_like g) Hn1 Hnd Hs f0 f N0 N Q0 Qz Qx). split.
    + intros [Hi HS]. assert (Hi' : forall x, mem x S = true -> x < 3 * g) by (intros x Hx; apply mem_below; auto). split; auto. now apply (stellar_slice g S).
    + intros [Hi HS]. split; [intros x Hx; apply mem_below; auto|]. now apply (stellar_slice g S).
  - assert (Hq := proj1 (organized_slices t 2 g ltac:(lia) ltac:(lia))). change (binomial 3 2) with 3 in Hq. rewrite <- Hq.
    apply number_listed; [now apply to_quorum_slices_nodup|]. apply (minimal_quorums_f (3 * g) (stellar_like g) Hn1 Hnd Hs f0 f N0 N Q0 Qz Qx).
  - assert (Hq := proj1 (organized_slices (g - t + 1) 2 g ltac:(lia) ltac:(lia))). change (binomial 3 2) with 3 in Hq.
    assert (Ed := stellar_dual g H1). fold t in Ed. rewrite <- Ed in Hq. rewrite <- Hq.
    apply number_listed; [apply to_quorum_slices_nodup, dual_nodup; exact Hnq|]. apply (minimal_blocking_f (3 * g) (stellar_like g) Hn1 Hnd Hs f0 f N0 N Q0 Qz Qx).
  - assert (Hq := proj1 (organized_slices (2 * t - g) 1 g ltac:(lia) ltac:(lia))). change (binomial 3 1) with 3 in Hq.
    assert (Ed := stellar_splitter g H1). fold t in Ed. rewrite <- Ed in Hq.
    rewrite <- (to_splitting_sets_slices (stellar_like g) (stellar_splittable g H1) Hnq) in Hq. rewrite <- Hq.
    apply number_listed; [apply to_splitting_sets_nodup; [exact Hnq|left; now apply stellar_splittable]|].
    intro s. apply (minimal_splitting_f (3 * g) (stellar_like g) Hn1 Hnd Hs f0 f N0 N Q0 Qz Qx). left. now apply stellar_splittable.
  - intros E HE. apply (f_no_symmetric_top_tier (3 * g) (stellar_like g) Hn1 Hnd Hs f0 f N0 N Q0 Qz Qx); auto. lia.
Qed.
