(** Proofs about [RandomQsc]. *)
From Coq Require Import ZArith.
From Verif Require Import Spec_Simulation P_List P_Builder P_QuorumSet P_Quorum P_SimGraph P_Shuffle P_Float P_Simulation P_Growth.
Local Open Scope list_scope.
Local Open Scope nat_scope.

Lemma weight_of_nth p x : weight_of p x = nth x (weights p) 1.
Proof. unfold weight_of. destruct (nth_error (weights p) x) as [w|] eqn:E; [symmetry; apply nth_error_nth; auto|]. rewrite nth_overflow; auto. apply nth_error_None. auto. Qed.

Lemma NoDup_snoc {A} (l : list A) x : NoDup l -> ~ In x l -> NoDup (l ++ [x]).
Proof.
  intros H Hx. apply NoDup_rev in H. rewrite <- (rev_involutive (l ++ [x])). apply NoDup_rev. rewrite rev_app_distr. cbn. constructor; auto.
  rewrite <- in_rev. auto.
Qed.
Lemma sum_pos {A} (w : A -> nat) l : 0 < list_sum (map w l) <-> exists x, In x l /\ 0 < w x.
Proof.
  induction l as [|a l IH]; cbn [map].
  - cbn. split; [lia|]. intros (x & [] & _).
  - change (list_sum (w a :: map w l)) with (w a + list_sum (map w l)). split.
    + intros H. destruct (w a) eqn:E; [|exists a; split; [left; auto|lia]]. destruct (proj1 IH) as (x & Hx & Hw); [lia|]. exists x. split; auto. right. auto.
    + intros (x & [<-|Hx] & Hw); [lia|]. assert (0 < list_sum (map w l)) by (apply IH; eauto). lia.
Qed.

(** the loop; [available] is what is not yet chosen *)
Lemma choose_nodes_sound p n count : forall available chosen r vs r',
  (forall x, In x available <-> x < n /\ ~ In x chosen) ->
  choose_nodes (weights p) count available chosen r = Ok (vs, r') ->
  exists added, vs = chosen ++ added /\ List.length added = count /\ choosable p n chosen added.
Proof.
  induction count as [|count IH]; intros available chosen r vs r' Ha H; cbn [choose_nodes] in H.
  - injection H as <- <-. exists []. rewrite app_nil_r. split; auto. split; auto. split; [constructor|]. intros x [].
  - destruct (choose_weighted _ available r) as [choice r1] eqn:E. destruct choice as [x|]; [|discriminate]. cbn [unwrap bind] in H.
    assert (Hx : In x available /\ 0 < weight_of p x).
    { rewrite weight_of_nth. destruct (list_sum (map (fun node_id => nth node_id (weights p) 1) available)) eqn:Es.
      - exfalso. unfold choose_weighted in E. rewrite Es in E. discriminate.
      - destruct (choose_weighted_some (fun node_id => nth node_id (weights p) 1) available r) as (y & r2 & E2 & Hy & Hw); [lia|].
        rewrite E in E2. injection E2 as -> ->. auto. }
    destruct Hx as [Hx Hw]. apply Ha in Hx.
    apply IH in H.
    + destruct H as (added & -> & Hlen & Hnd & Hadd). exists (x :: added). rewrite <- app_assoc. split; auto. split; [cbn; lia|]. split.
      * constructor; auto. intros Hin. apply Hadd in Hin. destruct Hin as (_ & Hni & _). apply Hni. apply in_or_app. right. left. auto.
      * intros y [<-|Hy]; [tauto|]. specialize (Hadd y Hy). rewrite in_app_iff in Hadd. tauto.
    + intros y. rewrite filter_In, Ha, in_app_iff, negb_true_iff, Nat.eqb_neq. cbn. intuition congruence.
Qed.

Lemma choosable_cons p n old x l : choosable p n old (x :: l) -> choosable p n (old ++ [x]) l.
Proof.
  intros [Hnd H]. inversion Hnd; subst. split; auto. intros y Hy. destruct (H y) as (A & B & C); [right; auto|]. split; auto. split; auto.
  rewrite in_app_iff. cbn. intros [X|[X|[]]]; auto. subst. auto.
Qed.
(** choosing another node leaves enough *)
Lemma choosable_other p n old l x : choosable p n old l -> l <> [] -> exists l', choosable p n (old ++ [x]) l' /\ S (List.length l') = List.length l.
Proof.
  intros [Hnd H] Hne. destruct (in_dec Nat.eq_dec x l) as [Hx|Hx].
  - destruct (in_split _ _ Hx) as (a & b & ->). exists (a ++ b). split; [|rewrite !app_length; cbn; lia].
    pose proof (NoDup_remove_1 _ _ _ Hnd) as H1. pose proof (NoDup_remove_2 _ _ _ Hnd) as H2. split; auto.
    intros y Hy. destruct (H y) as (A & B & C); [apply in_app_iff in Hy; apply in_or_app; cbn; tauto|]. split; auto. split; auto.
    rewrite in_app_iff. cbn. intros [X|[X|[]]]; auto. subst. auto.
  - destruct l as [|y l]; [congruence|]. exists l. split; auto. split; [inversion Hnd; auto|]. intros z Hz. destruct (H z) as (A & B & C); [right; auto|].
    split; auto. split; auto. rewrite in_app_iff. cbn. intros [X|[X|[]]]; auto. subst. apply Hx. right. auto.
Qed.

Lemma choose_nodes_ok p n count : forall available chosen r,
  (forall x, In x available <-> x < n /\ ~ In x chosen) ->
  (choose_nodes (weights p) count available chosen r <> Panic <-> exists l, List.length l = count /\ choosable p n chosen l).
Proof.
  induction count as [|count IH]; intros available chosen r Ha; cbn [choose_nodes].
  - split; [|discriminate]. intros _. exists []. split; auto. split; [constructor|intros x []].
  - assert (Hav : forall x y, In y (filter (fun z => negb (z =? x)) available) <-> y < n /\ ~ In y (chosen ++ [x])).
    { intros x y. rewrite filter_In, Ha, in_app_iff, negb_true_iff, Nat.eqb_neq. cbn. intuition congruence. }
    set (w := fun node_id => nth node_id (weights p) 1). destruct (Nat.eq_dec (list_sum (map w available)) 0) as [Es|Es].
    + assert (Hz : forall x, In x available -> w x = 0).
      { intros x Hx. destruct (w x) eqn:E; auto. assert (0 < list_sum (map w available)); [|lia]. apply sum_pos. exists x. split; auto. lia. }
      pose proof (choose_weighted_none w available r Hz) as Hc. destruct (choose_weighted w available r) as [c r1]. cbn in Hc. subst c. cbn.
      split; [congruence|]. intros (l & Hl & Hnd & Hch) _. destruct l as [|x l]; [discriminate|]. destruct (Hch x) as (A & B & C); [left; auto|].
      rewrite weight_of_nth in C. fold (w x) in C. rewrite Hz in C; [lia|]. apply Ha. auto.
    + destruct (choose_weighted_some w available r) as (x & r1 & E & Hx & Hw); [lia|]. rewrite E. cbn [unwrap bind]. rewrite (IH _ _ _ (Hav x)). split.
      * intros (l & Hl & Hc). exists (x :: l). split; [cbn; lia|]. destruct Hc as [Hnd Hc]. apply Ha in Hx. split.
        -- constructor; auto. intros Hi. destruct (Hc x Hi) as (_ & B & _). apply B. apply in_or_app. right. left. auto.
        -- intros y [<-|Hy]; [rewrite weight_of_nth; fold (w x); tauto|]. destruct (Hc y Hy) as (A & B & C). rewrite in_app_iff in B. tauto.
      * intros (l & Hl & Hc). destruct (choosable_other p n chosen l x Hc) as (l' & Hc' & Hl'); [intros ->; discriminate|]. exists l'. split; auto. lia.
Qed.

(** every admissible choice can be made *)
Lemma choose_weighted_covers {A} (w : A -> nat) l x : In x l -> 0 < w x -> exists v, v < list_sum (map w l) /\ pick_weighted w l v = Some x.
Proof.
  induction l as [|a l IH]; intros Hx Hw; [destruct Hx|]. cbn [map pick_weighted]. change (list_sum (w a :: map w l)) with (w a + list_sum (map w l)).
  destruct Hx as [->|Hx].
  - exists 0. split; [lia|]. destruct (Nat.ltb_spec 0 (w x)); auto. lia.
  - destruct (IH Hx Hw) as (v & Hv & E). exists (w a + v). split; [lia|]. destruct (Nat.ltb_spec (w a + v) (w a)); [lia|].
    replace (w a + v - w a) with v by lia. auto.
Qed.
Lemma choose_nodes_covers p n added : forall available chosen r',
  (forall x, In x available <-> x < n /\ ~ In x chosen) -> choosable p n chosen added ->
  exists r, choose_nodes (weights p) (List.length added) available chosen r = Ok (chosen ++ added, r').
Proof.
  induction added as [|x added IH]; intros available chosen r' Ha Hc; cbn [choose_nodes List.length].
  - exists r'. rewrite app_nil_r. auto.
  - destruct (proj2 Hc x) as (A & B & C); [left; auto|]. rewrite weight_of_nth in C.
    destruct (IH (filter (fun z => negb (z =? x)) available) (chosen ++ [x]) r') as (r1 & E1); auto using choosable_cons.
    { intros y. rewrite filter_In, Ha, in_app_iff, negb_true_iff, Nat.eqb_neq. cbn. intuition congruence. }
    destruct (choose_weighted_covers (fun node_id => nth node_id (weights p) 1) available x) as (v & Hv & Ev); auto; [apply Ha; auto|].
    exists (fun k => match k with 0 => N.of_nat v | S k => r1 k end).
    unfold choose_weighted. destruct (Nat.eqb_spec (list_sum (map (fun node_id => nth node_id (weights p) 1) available)) 0); [lia|].
    unfold gen_index. rewrite N.mod_small by lia. rewrite Nat2N.id. rewrite Ev. cbn [unwrap bind].
    rewrite <- app_assoc in E1. exact E1.
Qed.

(** ** [configure] *)
Lemma members_before_eq i q : members_before i q = match validators q with [] => [i] | vs => vs end.
Proof. unfold members_before. destruct (validators q); auto. Qed.
Lemma available_spec n vs x : In x (filter (fun x => negb (mem x (of_list vs))) (range 0 n)) <-> x < n /\ ~ In x vs.
Proof.
  rewrite filter_In, range_in, negb_true_iff, <- not_true_iff_false, mem_of_list. intuition lia.
Qed.
Lemma requested_ok p m : 1 <= m -> (Z.of_nat m <= 2 ^ 53)%Z ->
  match desired_threshold p with Some t => t | None => calculate_67p_threshold m end = requested_threshold p m.
Proof. intros. unfold requested_threshold. destruct (desired_threshold p); auto. apply threshold_67p; auto. Qed.

Lemma random_local p : local_configurator (random_qsc p).
Proof.
  intros i f r f' c r'. unfold random_qsc. destruct (get_qset f i) as [q|]; [|discriminate]. cbn [bind].
  destruct (_ <? _).
  - destruct (choose_nodes _ _ _ _ _) as [[vs r1]|]; [|discriminate]. cbn [bind fst snd].
    destruct (set_qset f i _) as [f1|] eqn:E; [|discriminate]. cbn [bind]. intros H. injection H as <- <- <-. eapply set_qset_only; eauto.
  - destruct (set_qset f i _) as [f1|] eqn:E; [|discriminate]. cbn [bind]. intros H. injection H as <- <- <-. eapply set_qset_only; eauto.
Qed.

Lemma random_spec p i f r f' c r' q : node_of f i q -> let n := number_of_nodes f in let old := members_before i q in
  (Z.of_nat (Nat.min (desired_quorum_set_size p) n) <= 2 ^ 53)%Z ->
  random_qsc p i f r = Ok (f', c, r') ->
  exists added t, choosable p n old added /\ node_of f' i (QS t (old ++ added) (inner_quorum_sets q)) /\
    (List.length old < desired_quorum_set_size p -> List.length added = Nat.min (desired_quorum_set_size p) n - List.length old /\
        t = requested_threshold p (Nat.min (desired_quorum_set_size p) n) /\ c = Change) /\
    (desired_quorum_set_size p <= List.length old -> added = [] /\ t = threshold q /\ c = NoChange).
Proof.
  intros Hq n old Hb H. unfold random_qsc in H. pose proof (proj2 (get_qset_ok f i q) Hq) as Eg. rewrite Eg in H. cbn [bind] in H.
  rewrite <- members_before_eq in H. fold old in H. fold n in H.
  assert (Hn : 1 <= n) by (apply node_of_range in Hq; unfold n; lia).
  destruct (Nat.ltb_spec (List.length old) (desired_quorum_set_size p)) as [Hlt|Hge].
  - destruct (choose_nodes _ _ _ _ _) as [[vs r1]|] eqn:Ec; [|discriminate]. cbn [bind fst snd] in H.
    destruct (set_qset f i _) as [f1|] eqn:Es; [|discriminate]. cbn [bind] in H. injection H as <- <- <-.
    apply (choose_nodes_sound p n) in Ec; [|apply available_spec]. destruct Ec as (added & -> & Hlen & Hc).
    exists added. eexists. split; [exact Hc|]. split; [eapply set_qset_node; eauto|]. split; [|lia]. intros _. split; auto. split; auto.
    apply requested_ok; auto. lia.
  - destruct (set_qset f i _) as [f1|] eqn:Es; [|discriminate]. cbn [bind] in H. injection H as <- <- <-.
    exists [], (threshold q). rewrite app_nil_r. split; [split; [constructor|intros x []]|]. split; [eapply set_qset_node; eauto|]. split; [lia|]. auto.
Qed.

Lemma random_ok_iff p i f r q : node_of f i q -> let n := number_of_nodes f in let old := members_before i q in
  (random_qsc p i f r <> Panic <->
   (List.length old < desired_quorum_set_size p ->
    exists l, List.length l = Nat.min (desired_quorum_set_size p) n - List.length old /\ choosable p n old l)).
Proof.
  intros Hq n old. unfold random_qsc. pose proof (proj2 (get_qset_ok f i q) Hq) as Eg. rewrite Eg. cbn [bind].
  rewrite <- members_before_eq. fold old. fold n. pose proof (node_of_range _ _ _ Hq) as Hr.
  destruct (Nat.ltb_spec (List.length old) (desired_quorum_set_size p)) as [Hlt|Hge].
  - rewrite <- (choose_nodes_ok p n _ _ _ r (available_spec n old)). destruct (choose_nodes _ _ _ _ _) as [[vs r1]|].
    + cbn [bind fst snd]. split; [intros _ _; discriminate|]. intros _. destruct (set_qset_some f i (QS (match desired_threshold p with Some t => t | None => calculate_67p_threshold (Nat.min (desired_quorum_set_size p) n) end) vs (inner_quorum_sets q)) Hr) as [f' E].
      rewrite E. cbn. discriminate.
    + cbn. split; [congruence|]. intros X _. apply X; auto.
  - split; [intros _ ?; lia|]. intros _. destruct (set_qset_some f i (QS (threshold q) old (inner_quorum_sets q)) Hr) as [f' E]. rewrite E. cbn. discriminate.
Qed.

Lemma random_covers p i f q added r' : node_of f i q -> let n := number_of_nodes f in let old := members_before i q in
  List.length old < desired_quorum_set_size p -> List.length added = Nat.min (desired_quorum_set_size p) n - List.length old -> choosable p n old added ->
  exists r f' t, random_qsc p i f r = Ok (f', Change, r') /\ node_of f' i (QS t (old ++ added) (inner_quorum_sets q)).
Proof.
  intros Hq n old Hlt Hlen Hc. destruct (choose_nodes_covers p n added _ old r' (available_spec n old) Hc) as (r & E).
  exists r. unfold random_qsc. pose proof (proj2 (get_qset_ok f i q) Hq) as Eg. rewrite Eg. cbn [bind].
  rewrite <- members_before_eq. fold old. fold n. pose proof (node_of_range _ _ _ Hq) as Hr.
  destruct (Nat.ltb_spec (List.length old) (desired_quorum_set_size p)) as [_|Hge]; [|lia].
  rewrite <- Hlen, E. cbn [bind fst snd]. 
  destruct (set_qset_some f i (QS (match desired_threshold p with Some t => t | None => calculate_67p_threshold (Nat.min (desired_quorum_set_size p) n) end) (old ++ added) (inner_quorum_sets q)) Hr) as [f' Es].
  rewrite Es. cbn [bind]. eexists f', _. split; [reflexivity|]. eapply set_qset_node; eauto.
Qed.

(** ** growth *)
Lemma max_distinct n l : NoDup l -> (forall x, In x l -> x < n) -> List.length l <= n.
Proof.
  intros Hnd H. rewrite <- (seq_length n 0). apply NoDup_incl_length; auto. intros x Hx. apply in_seq. specialize (H x Hx). lia.
Qed.
Lemma NoDup_app_intro {A} (a b : list A) : NoDup a -> NoDup b -> (forall x, In x b -> ~ In x a) -> NoDup (a ++ b).
Proof.
  induction a as [|x a IH]; intros Ha Hb Hd; auto. cbn. inversion Ha; subst. constructor.
  - rewrite in_app_iff. intros [X|X]; auto. apply (Hd x); auto. left. auto.
  - apply IH; auto. intros y Hy. specialize (Hd y Hy). intros X. apply Hd. right. auto.
Qed.
Lemma NoDup_firstn {A} k : forall l : list A, NoDup l -> NoDup (firstn k l).
Proof.
  induction k as [|k IH]; intros [|x l] H; cbn; try constructor; inversion H; subst; auto.
  intros X. assert (In x l); auto. rewrite <- (firstn_skipn k l). apply in_or_app. auto.
Qed.
Lemma choosable_positive p n old : (forall w, In w (weights p) -> 0 < w) -> NoDup old -> (forall x, In x old -> x < n) -> forall k, k <= n - List.length old ->
  exists l, List.length l = k /\ choosable p n old l.
Proof.
  intros Hw Hnd Ho k Hk. set (av := filter (fun x => negb (mem x (of_list old))) (range 0 n)).
  assert (Hav : forall x, In x av <-> x < n /\ ~ In x old) by apply available_spec.
  assert (Hna : NoDup av) by (apply NoDup_filter, range_nodup).
  assert (Hl : n <= List.length old + List.length av).
  { rewrite <- app_length. rewrite <- (seq_length n 0) at 1. apply NoDup_incl_length; [apply seq_NoDup|]. intros x Hx. apply in_seq in Hx. apply in_or_app.
    destruct (in_dec Nat.eq_dec x old); auto. right. apply Hav. split; auto. lia. }
  exists (firstn k av). split; [rewrite firstn_length; lia|]. split.
  - apply NoDup_firstn. auto.
  - intros x Hx. assert (Hi : In x av) by (rewrite <- (firstn_skipn k av); apply in_or_app; auto). apply Hav in Hi. split; [tauto|]. split; [tauto|].
    unfold weight_of. destruct (nth_error (weights p) x) eqn:E; [|lia]. apply Hw. eapply nth_error_In; eauto.
Qed.

Lemma random_visit p i f r q : (forall w, In w (weights p) -> 0 < w) -> (Z.of_nat (number_of_nodes f) <= 2 ^ 53)%Z ->
  node_of f i q -> random_or_new p (number_of_nodes f) i q ->
  exists f' c r' q', random_qsc p i f r = Ok (f', c, r') /\ node_of f' i q' /\ randomly_configured p (number_of_nodes f) i q'.
Proof.
  intros Hw Hb Hq Hbe. set (n := number_of_nodes f) in *. pose proof (node_of_range _ _ _ Hq) as Hr. fold n in Hr.
  set (old := members_before i q). set (d := desired_quorum_set_size p).
  assert (Hold : NoDup old /\ (forall x, In x old -> x < n) /\ In i old /\ List.length old <= Nat.max 1 (Nat.min d n) /\ inner_quorum_sets q = [] /\
    (2 <= d -> d <= List.length old -> threshold q = requested_threshold p (Nat.min d n))).
  { destruct Hbe as [->|(m & Hm & H1 & H2 & H3 & H4 & H5 & H6)].
    - unfold old, members_before. cbn [validators qset_new List.length inner_quorum_sets threshold]. split; [constructor; [intros []|constructor]|]. split; [intros x [<-|[]]; auto|]. split; [left; auto|]. split; [lia|]. split; [auto|]. intros; lia.
    - assert (Eo : old = validators q) by (unfold old, members_before; destruct (validators q); [destruct H4|auto]). rewrite Eo. fold d in H5, H6.
      split; auto. split; [intros x Hx; specialize (H3 x Hx); lia|]. split; auto. split; [lia|]. split; auto. intros A B.
      rewrite H6 by auto. f_equal. lia. }
  destruct Hold as (O1 & O2 & O3 & O4 & O5 & O6).
  assert (Hp : random_qsc p i f r <> Panic).
  { apply (random_ok_iff p i f r q Hq). fold n old d. intros Hlt. apply choosable_positive; auto. lia. }
  destruct (random_qsc p i f r) as [[[f' c] r']|] eqn:E; [|congruence]. exists f', c, r'.
  assert (Hb' : (Z.of_nat (Nat.min (desired_quorum_set_size p) (number_of_nodes f)) <= 2 ^ 53)%Z) by (fold n; lia).
  destruct (random_spec p i f r f' c r' q Hq Hb' E) as (added & t & [C1 C2] & Hn' & H1 & H2). fold n old d in C2, Hn', H1, H2.
  eexists. split; auto. split; [exact Hn'|]. unfold randomly_configured. cbn [inner_quorum_sets validators threshold]. fold d. split; auto.
  assert (Hnd : NoDup (old ++ added)) by (apply NoDup_app_intro; auto; intros x Hx; apply C2; auto).
  split; auto. split; [intros x Hx; apply in_app_iff in Hx; destruct Hx as [Hx|Hx]; [auto|apply C2; auto]|].
  split; [apply in_or_app; auto|]. rewrite app_length. assert (L1 : 1 <= List.length old) by (destruct old; [destruct O3|cbn; lia]).
  destruct (Nat.lt_ge_cases (List.length old) d) as [Hlt|Hge].
  - destruct (H1 Hlt) as (A1 & A2 & _). split; auto. lia.
  - destruct (H2 Hge) as (A1 & A2 & _). subst added. cbn [List.length]. split; [lia|]. intros. rewrite A2. auto.
Qed.

Lemma random_growth p k s : 1 <= k -> (forall w, In w (weights p) -> 0 < w) -> generic_names (sim_fbas s) ->
  let n := k + number_of_nodes (sim_fbas s) in (Z.of_nat n <= 2 ^ 53)%Z ->
  all_nodes_are (random_or_new p) (sim_fbas s) ->
  exists s', simulate_growth (random_qsc p) k s = Ok s' /\ generic_names (sim_fbas s') /\ number_of_nodes (sim_fbas s') = n /\
    forall i q, node_of (sim_fbas s') i q -> randomly_configured p n i q.
Proof.
  intros Hk Hw Hg n Hb HB.
  destruct (growth_establishes (random_qsc p) (fun n => (Z.of_nat n <= 2 ^ 53)%Z) (randomly_configured p) (random_or_new p) (random_local p)) with (k := k) (s := s) as (s' & E & G & N & _ & A); auto.
  - intros i f r q Hl HB' Hq. apply (random_visit p i f r q); auto.
  - intros m i q H. right. exists m. auto.
  - intros m i q [->|(m' & Hm & H)]; [left; auto|]. right. exists m'. split; auto.
  - intros. left. auto.
  - intros m Hm. lia.
  - exists s'. split; auto. split; auto. split; auto. intros i q Hq. specialize (A Hk i q Hq). rewrite N in A. auto.
Qed.

(** ** a quorum set that cannot be as large as desired is changed forever *)
Lemma random_never_stable p max s s' k : 1 <= number_of_nodes (sim_fbas s) < desired_quorum_set_size p -> (forall w, In w (weights p) -> 0 < w) ->
  (Z.of_nat (number_of_nodes (sim_fbas s)) <= 2 ^ 53)%Z -> all_nodes_are (random_or_new p) (sim_fbas s) ->
  simulate_global_reevaluation (random_qsc p) max s = Ok (s', k) -> k = max.
Proof.
  intros Hn Hw Hb HB H. apply reevaluation_ok in H. destruct H as (rounds & Hlen & Hle & Hpos & _ & Hall & Hv & Hst).
  destruct (Nat.eq_dec k max) as [|Hne]; auto. exfalso.
  assert (Hnil : rounds <> []) by (destruct rounds; [cbn in Hlen; lia|discriminate]).
  destruct (exists_last Hnil) as (early & last & ->). destruct (Hst _ _ eq_refl) as [_ Hs]. specialize (Hs ltac:(lia)).
  rewrite concat_app in Hv. cbn in Hv. rewrite app_nil_r in Hv. apply visits_app_inv in Hv. destruct Hv as (f1 & V1 & V2).
  apply Forall_app in Hall. destruct Hall as [Hall1 Hall]. inversion Hall as [|? ? Ha _]; subst. clear Hall.
  destruct (visits_keep (random_qsc p) (fun n => (Z.of_nat n <= 2 ^ 53)%Z) (randomly_configured p) (random_or_new p) (random_local p)) with (l := concat early) (f := sim_fbas s) (f' := f1) as (S1 & B1 & _); auto.
  - intros i f r q Hl HB' Hq. apply (random_visit p i f r q); auto.
  - intros m i q X. right. exists m. auto.
  - intros v Hin. apply in_concat in Hin. destruct Hin as (round & Hr & Hin). rewrite Forall_forall in Hall1. specialize (Hall1 _ Hr).
    assert (Hi : In (fst v) (map fst round)) by (apply in_map; auto). rewrite Hall1 in Hi. apply in_seq in Hi. lia.
  - inversion V2 as [|i c l f r f2 r2 f3 E V]; subst.
    + unfold visits_all in Ha. cbn in Ha. apply Permutation_length in Ha. rewrite seq_length in Ha. cbn in Ha. lia.
    + assert (Hi : i < number_of_nodes f1).
      { assert (X : In i (map fst ((i, c) :: l))) by (left; auto). rewrite Ha in X. apply in_seq in X. lia. }
      assert (c = NoChange) by (apply (Hs (i, c)); left; auto). subst c. pose proof (qset_of_node f1 i Hi) as Hq.
      destruct (random_spec p i f1 r f2 NoChange r2 (qset_of f1 i) Hq) as (added & t & _ & _ & H1 & _); auto; [lia|].
      destruct H1 as (_ & _ & ?); [|discriminate]. pose proof (B1 i _ Hq) as [E0|(m & Hm & R1 & R2 & R3 & R4 & R5 & _)].
      * rewrite E0. unfold members_before. cbn. lia.
      * unfold members_before. destruct (validators (qset_of f1 i)) eqn:Ev; [destruct R4|]. rewrite R5. lia.
Qed.
