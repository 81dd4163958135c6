(** Proofs about the simulator and the graph generator as programs. *)
From Coq Require Import ZArith Relation_Operators Operators_Properties.
From Verif Require Import Spec_Bins P_List P_Builder P_QuorumSet P_Quorum P_Shrunken P_SimGraph P_Mesh P_Shuffle P_Float P_Rank P_Simulation P_Growth
  P_RandomQsc P_GraphQsc P_PageRank P_GraphIO.
Local Open Scope list_scope.
Local Open Scope nat_scope.

(** ** graphs that were read *)
Lemma read_any lines : forall o o', (exists items, read_inv items o) -> foldM read_line o lines = Ok o' -> exists items, read_inv items o'.
Proof.
  induction lines as [|line lines IH]; intros o o' Hi H; cbn [foldM] in H; [injection H as <-; auto|].
  destruct (read_line o line) as [o1|] eqn:E; [|discriminate]. cbn [bind] in H. apply (IH o1); auto.
  unfold read_line in E. destruct (get_edge_from_as_rel_line line) as [[[[a b] p]|]|]; [| |discriminate]; cbn [bind] in E.
  - destruct Hi as (items & Hi). pose proof E as E0. unfold add_edge in E.
    destruct (N.ltb_spec (N.max a b + 1) (2 ^ 64)) as [Hlt|]; [|discriminate]. clear E.
    rewrite <- (N2Nat.id a), <- (N2Nat.id b) in E0.
    destruct (add_edge_ok items o (N.to_nat a) (N.to_nat b) p ""%string) as (o2 & E2 & H2); auto.
    + split; [lia|]. split; [lia|]. split; [exact I|auto].
    + rewrite E0 in E2. injection E2 as <-. eauto.
  - injection E as <-. auto.
Qed.
Lemma read_graph text g : from_as_rel_string text = Ok g -> wf_graph g /\ ascending_links g.
Proof.
  unfold from_as_rel_string. fold read_line. destruct (foldM read_line [] (lines text)) as [o|] eqn:E; [|discriminate]. cbn [bind]. intros H. injection H as <-.
  destruct (read_any _ _ _ (ex_intro (fun items => read_inv items []) [] read_inv_nil) E) as (items & H1 & H2 & _). split.
  - intros i j H. rewrite link_links in H. unfold links in H. rewrite <- elements_empty, map_nth, elements_spec in H. rewrite map_length.
    apply H1 in H. apply H2. destruct H as (rest & [[p H]|H]).
    + exists i, p, rest. auto.
    + exists i, true, rest. auto.
  - unfold ascending_links. apply Forall_map, Forall_forall. intros s _. apply elements_sorted.
Qed.
Lemma ascending_no_repeats g : ascending_links g -> no_repeated_links g.
Proof. unfold ascending_links, no_repeated_links. rewrite !Forall_forall. intros H l Hl. apply sorted_lt_nodup. auto. Qed.
Lemma graph_at_fun w path g g' : graph_at w path g -> graph_at w path g' -> g = g'.
Proof. intros (t & H1 & E1) (t' & H2 & E2). destruct H1 as [[P1 T1]|[P1 T1]], H2 as [[P2 T2]|[P2 T2]]; congruence. Qed.
Lemma graph_at_ok w path g : graph_at w path g -> wf_graph g /\ no_repeated_links g.
Proof. intros (t & _ & E). apply read_graph in E. split; [tauto|apply ascending_no_repeats; tauto]. Qed.
Lemma parse_graph_iff w path g n : parse_graph_path w path = Ok (g, n) <-> graph_at w path g /\ n = List.length g.
Proof.
  unfold parse_graph_path, graph_at, text_at, graph_number_of_nodes.
  assert (T : forall t, (if String.eqb path "-" then in_stdin w else in_files w path) = Some t <->
    (path = "-"%string /\ in_stdin w = Some t) \/ (path <> "-"%string /\ in_files w path = Some t)).
  { intros t. destruct (String.eqb_spec path "-"); intuition congruence. }
  destruct (if String.eqb path "-" then in_stdin w else in_files w path) as [t|] eqn:Et; cbn [unwrap bind].
  - pose proof (proj1 (T t) eq_refl) as Ht. split.
    + destruct (from_as_rel_string t) as [g'|] eqn:E; [|discriminate]. cbn [bind]. intros H. injection H as <- <-. split; eauto.
    + intros ((t' & Ht' & E) & ->). apply T in Ht'. injection Ht' as <-. rewrite E. auto.
  - split; [discriminate|]. intros ((t' & Ht' & E) & ->). apply T in Ht'. discriminate.
Qed.
Lemma parse_graph_panic w path : (forall g, ~ graph_at w path g) -> parse_graph_path w path = Panic.
Proof.
  intros H. destruct (parse_graph_path w path) as [[g n]|] eqn:E; auto. apply parse_graph_iff in E. exfalso. eapply H. apply E.
Qed.

(** ** a whole simulation *)
Definition simulation (Q : configurator) (n0 k : nat) (r : rng) : res fbas :=
  f <- new_generic_unconfigured n0 ;;
  sk <- simulate_global_reevaluation Q n0 (mk_sim f [] r) ;;
  s <- simulate_growth Q k (fst sk) ;;
  Ok (sim_fbas s).

Lemma unconfigured n : exists f, new_generic_unconfigured n = Ok f /\ generic_names f /\ number_of_nodes f = n /\ forall i q, node_of f i q -> q = qset_new.
Proof.
  destruct (new_generic_ok n) as (f & E & Hk & Hg & Hq). exists f. split; auto. split; [split; auto|]. split.
  - unfold number_of_nodes. rewrite <- (map_length node_qset), Hq, repeat_length. auto.
  - intros i q (m & Em & <-). apply (map_nth_error node_qset) in Em. rewrite Hq in Em. apply nth_error_In, repeat_spec in Em. auto.
Qed.

Section Run.
Context (Q : configurator) (limit : nat -> Prop) (A B : nat -> nat -> qset -> Prop).
Context (HL : local_configurator Q).
Context (visit_ok : forall i f r q, limit (number_of_nodes f) -> all_nodes_are B f -> node_of f i q ->
  exists f' c r' q', Q i f r = Ok (f', c, r') /\ node_of f' i q' /\ A (number_of_nodes f) i q').
Context (A_B : forall n i q, A n i q -> B n i q) (B_next : forall n i q, B n i q -> B (S n) i q).
Context (B_new : forall n i, B n i qset_new).

Lemma growth_establishes_all k : forall s, (forall m, number_of_nodes (sim_fbas s) < m <= number_of_nodes (sim_fbas s) + k -> limit m) ->
  generic_names (sim_fbas s) -> all_nodes_are B (sim_fbas s) -> (k = 0 -> all_nodes_are A (sim_fbas s)) ->
  exists s', simulate_growth Q k s = Ok s' /\ generic_names (sim_fbas s') /\ number_of_nodes (sim_fbas s') = number_of_nodes (sim_fbas s) + k /\
    all_nodes_are A (sim_fbas s').
Proof.
  induction k as [|k IH]; intros s Hl Hg HB H0; cbn [simulate_growth].
  - exists s. rewrite Nat.add_0_r. auto 6.
  - destruct (grow_establishes Q limit A B HL visit_ok A_B B_next B_new s) as (s1 & E1 & G1 & N1 & A1); auto; [apply Hl; lia|]. rewrite E1. cbn [bind].
    destruct (IH s1) as (s' & E & G & N & A'); auto.
    + intros m Hm. apply Hl. lia.
    + intros i q Hi. auto.
    + exists s'. split; auto. split; auto. split; [lia|auto].
Qed.
Lemma simulation_establishes n0 k r : (forall m, 1 <= m -> n0 <= m <= n0 + k -> limit m) ->
  exists f, simulation Q n0 k r = Ok f /\ generic_names f /\ number_of_nodes f = n0 + k /\ all_nodes_are A f.
Proof.
  intros Hl. unfold simulation. destruct (unconfigured n0) as (f & E & Hg & Hn & Hq). rewrite E. cbn [bind].
  assert (HB : all_nodes_are B f) by (intros i q Hi; rewrite (Hq i q Hi); auto).
  destruct n0 as [|n0].
  - unfold simulate_global_reevaluation. cbn [reevaluation_rounds bind fst].
    destruct (growth_establishes_all k (register_event (FinishGlobalReevaluation 0) (register_event StartGlobalReevaluation (mk_sim f [] r)))) as (s' & E' & G & N & A'); cbn [sim_fbas register_event] in *.
    + rewrite Hn. intros m Hm. apply Hl; lia.
    + auto.
    + auto.
    + intros _ i q Hi. apply node_of_range in Hi. lia.
    + rewrite E'. cbn [bind]. exists (sim_fbas s'). rewrite Hn in N. auto.
  - destruct (reevaluation_establishes Q limit A B HL visit_ok A_B (S n0) (mk_sim f [] r)) as (s1 & rounds & E1 & N1 & B1 & A1 & G1); cbn [sim_fbas] in *; auto.
    + rewrite Hn. apply Hl; lia.
    + rewrite E1. cbn [bind fst]. destruct (growth_establishes_all k s1) as (s' & E' & G & N & A'); auto.
      * intros m Hm. apply Hl; lia.
      * intros _. apply A1. lia.
      * rewrite E'. cbn [bind]. exists (sim_fbas s'). split; auto. split; auto. split; [lia|auto].
Qed.
End Run.

(** what each visit needs is needed by a simulation *)
Section Needs.
Context (Q : configurator) (limit : nat -> Prop) (B : nat -> nat -> qset -> Prop) (needed : nat -> nat -> Prop).
Context (HL : local_configurator Q).
Context (visit_needs : forall i f r f' c r', limit (number_of_nodes f) -> all_nodes_are B f -> i < number_of_nodes f -> Q i f r = Ok (f', c, r') ->
  all_nodes_are B f' /\ needed (number_of_nodes f) i).
Context (B_next : forall n i q, B n i q -> B (S n) i q) (B_new : forall n i, B n i qset_new).

Lemma visits_need l f f' : visits Q l f f' -> limit (number_of_nodes f) -> all_nodes_are B f -> (forall v, In v l -> fst v < number_of_nodes f) ->
  all_nodes_are B f' /\ forall i, In i (map fst l) -> needed (number_of_nodes f) i.
Proof.
  intros H. induction H as [|i c l f r f1 r1 f2 E H IH]; intros Hl Hf Hv; [split; auto; intros i []|].
  destruct (visit_needs i f r f1 c r1 Hl Hf) as [B1 N1]; auto; [apply (Hv (i, c)); left; auto|].
  pose proof (changes_only_size _ _ _ (HL _ _ _ _ _ _ E)) as Hs. rewrite Hs in IH. destruct IH as [B2 N2]; auto; [intros; apply Hv; right; auto|].
  split; auto. intros j [<-|Hj]; auto.
Qed.
Lemma reevaluation_needs max s s' k : simulate_global_reevaluation Q max s = Ok (s', k) -> limit (number_of_nodes (sim_fbas s)) -> all_nodes_are B (sim_fbas s) ->
  number_of_nodes (sim_fbas s') = number_of_nodes (sim_fbas s) /\ all_nodes_are B (sim_fbas s') /\
  (1 <= max -> forall i, i < number_of_nodes (sim_fbas s) -> needed (number_of_nodes (sim_fbas s)) i).
Proof.
  intros E Hl HB. apply reevaluation_ok in E. destruct E as (rounds & Hlen & Hle & Hpos & _ & Hall & Hv & _).
  destruct (visits_need _ _ _ Hv Hl HB) as [B' N'].
  - intros v Hin. apply in_concat in Hin. destruct Hin as (round & Hr & Hin). rewrite Forall_forall in Hall. specialize (Hall _ Hr).
    assert (Hi : In (fst v) (map fst round)) by (apply in_map; auto). rewrite Hall in Hi. apply in_seq in Hi. lia.
  - split; [eapply visits_size; eauto|]. split; auto. intros Hm i Hi. apply N'.
    destruct rounds as [|round rounds]; [cbn in Hlen; lia|]. cbn [concat]. rewrite map_app, in_app_iff. left.
    inversion Hall as [|? ? Ha]; subst. rewrite Ha. apply in_seq. lia.
Qed.
Lemma grow_needs s s' : grow_by_one Q s = Ok s' -> limit (S (number_of_nodes (sim_fbas s))) -> all_nodes_are B (sim_fbas s) ->
  number_of_nodes (sim_fbas s') = S (number_of_nodes (sim_fbas s)) /\ all_nodes_are B (sim_fbas s') /\
  forall i, i < S (number_of_nodes (sim_fbas s)) -> needed (S (number_of_nodes (sim_fbas s))) i.
Proof.
  intros E Hl HB. unfold grow_by_one in E. destruct (add_generic_node (sim_fbas s) qset_new) as [[f1 i]|] eqn:Ea; [|discriminate]. cbn [bind] in E.
  assert (Hadd : i = number_of_nodes (sim_fbas s) /\ number_of_nodes f1 = S i /\ all_nodes_are B f1).
  { unfold add_generic_node in Ea. pose proof (add_node_spec _ _ _ _ Ea) as (-> & _ & En & _). 
    assert (L : number_of_nodes f1 = S (number_of_nodes (sim_fbas s))) by (unfold number_of_nodes; rewrite En, app_length; cbn; lia).
    split; auto. split; auto. intros j q (m & Em & Eq). rewrite En, nth_error_snoc in Em. fold (number_of_nodes (sim_fbas s)) in Em. rewrite L.
    destruct (Nat.eqb_spec j (number_of_nodes (sim_fbas s))) as [->|Hne].
    - injection Em as <-. cbn in Eq. subst q. auto.
    - apply B_next. apply HB. exists m. auto. }
  destruct Hadd as (-> & L1 & B1). destruct (Q _ f1 (sim_rng s)) as [[[f2 c] r]|] eqn:EQ; [|discriminate]. cbn [bind] in E.
  pose proof (changes_only_size _ _ _ (HL _ _ _ _ _ _ EQ)) as L2.
  destruct (visit_needs (number_of_nodes (sim_fbas s)) f1 (sim_rng s) f2 c r) as [B2 _]; auto; [rewrite L1; auto|lia|].
  destruct (simulate_global_reevaluation _ _ _) as [[s2 rounds_made]|] eqn:Er; [|discriminate]. cbn in E. injection E as ->.
  apply reevaluation_needs in Er; cbn [sim_fbas register_event] in *; [|rewrite L2, L1; auto|auto].
  destruct Er as (L3 & B3 & N3). rewrite L2, L1 in *. split; auto. split; auto. apply N3. lia.
Qed.
Lemma growth_needs k : forall s s', simulate_growth Q k s = Ok s' ->
  (forall m, number_of_nodes (sim_fbas s) < m <= number_of_nodes (sim_fbas s) + k -> limit m) -> all_nodes_are B (sim_fbas s) ->
  forall m i, number_of_nodes (sim_fbas s) < m <= number_of_nodes (sim_fbas s) + k -> i < m -> needed m i.
Proof.
  induction k as [|k IH]; intros s s' E Hl HB m i Hm Hi; [lia|]. cbn [simulate_growth] in E.
  destruct (grow_by_one Q s) as [s1|] eqn:E1; [|discriminate]. cbn [bind] in E.
  destruct (grow_needs _ _ E1) as (N1 & B1 & H1); auto; [apply Hl; lia|].
  destruct (Nat.eq_dec m (S (number_of_nodes (sim_fbas s)))) as [->|Hne]; auto.
  apply (IH s1 s'); auto; [|lia]. intros m' Hm'. apply Hl. lia.
Qed.
Lemma simulation_needs n0 k r f : simulation Q n0 k r = Ok f -> (forall m, n0 <= m <= n0 + k -> limit m) ->
  forall m i, n0 <= m <= n0 + k -> i < m -> needed m i.
Proof.
  intros E Hl m i Hm Hi. unfold simulation in E. destruct (unconfigured n0) as (f0 & E0 & _ & Hn & Hq). rewrite E0 in E. cbn [bind] in E.
  assert (HB : all_nodes_are B f0) by (intros j q Hj; rewrite (Hq j q Hj); auto).
  destruct (simulate_global_reevaluation Q n0 _) as [[s1 rounds]|] eqn:E1; [|discriminate]. cbn [bind fst] in E.
  apply reevaluation_needs in E1; cbn [sim_fbas] in *; [|rewrite Hn; apply Hl; lia|auto]. rewrite Hn in E1. destruct E1 as (N1 & B1 & H1).
  destruct (simulate_growth Q k s1) as [s2|] eqn:E2; [|discriminate].
  destruct (Nat.eq_dec m n0) as [->|Hne]; [apply H1; lia|].
  apply (growth_needs k s1 s2 E2); auto; rewrite ?N1; auto; [|lia]. intros m' Hm'. apply Hl. lia.
Qed.
End Needs.

(** ** the policies *)
Lemma uniform_simulation conf n0 k r : exists f, simulation (uniform conf) n0 k r = Ok f /\ generic_names f /\ number_of_nodes f = n0 + k /\
  forall i q, node_of f i q -> q = conf (n0 + k).
Proof.
  destruct (simulation_establishes (uniform conf) (fun _ => True) (fun n i q => q = conf n) (fun _ _ _ => True) (proj1 (uniform_faithful conf))) with (n0 := n0) (k := k) (r := r)
    as (f & E & G & N & A); auto.
  - intros i f r0 q _ _ Hq. destruct (replace_ok f i (conf (number_of_nodes f)) r0 (node_of_range _ _ _ Hq)) as (f' & c & E).
    exists f', c, r0, (conf (number_of_nodes f)). split; auto. apply replace_spec in E. split; [tauto|auto].
  - exists f. split; auto. split; auto. split; auto. intros i q Hq. rewrite <- N. apply (A i q Hq).
Qed.

(** *** random quorum sets *)
Notation famous := randomly_prescribed.
Definition famous_or_new (p : random_qsc_params) (n i : nat) (q : qset) : Prop := q = qset_new \/ exists m, m <= n /\ famous p m i q.

Lemma length_without (i : nat) old : NoDup old -> In i old -> exists rest, NoDup rest /\ (forall x, In x rest <-> In x old /\ x <> i) /\ S (List.length rest) = List.length old.
Proof.
  intros Hnd Hi. apply in_split in Hi. destruct Hi as (a & b & ->). exists (a ++ b). pose proof (NoDup_remove_1 _ _ _ Hnd). pose proof (NoDup_remove_2 _ _ _ Hnd).
  split; auto. split; [|rewrite !app_length; cbn; lia]. intros x. rewrite !in_app_iff. cbn [In]. split.
  - intros Hx. split; [tauto|]. intros ->. apply H0. apply in_or_app. auto.
  - intros [[Hx|[Hx|Hx]] Hne]; auto. congruence.
Qed.
Lemma choosable_more p n i old : NoDup old -> In i old -> enough_to_choose p n i -> List.length old <= Nat.min (desired_quorum_set_size p) n ->
  exists l, List.length l = Nat.min (desired_quorum_set_size p) n - List.length old /\ choosable p n old l.
Proof.
  intros Hnd Hi (l & Hl & Hn & Hc) Ho. set (d := Nat.min (desired_quorum_set_size p) n) in *.
  destruct (length_without i old Hnd Hi) as (rest & R1 & R2 & R3).
  set (av := filter (fun x => negb (existsb (Nat.eqb x) old)) l).
  assert (Hav : forall x, In x av <-> In x l /\ ~ In x old).
  { intros x. unfold av. rewrite filter_In, negb_true_iff. split; intros [A1 A2]; split; auto.
    - intros X. rewrite <- not_true_iff_false in A2. apply A2. apply existsb_exists. exists x. split; auto. apply Nat.eqb_refl.
    - apply not_true_iff_false. intros X. apply existsb_exists in X. destruct X as (y & Hy & Ey). apply Nat.eqb_eq in Ey. subst y. auto. }
  assert (Hlen : List.length l <= List.length (av ++ rest)).
  { apply NoDup_incl_length; auto. intros x Hx. apply in_or_app. destruct (in_dec Nat.eq_dec x old) as [Hxo|Hxo]; [right|left].
    - apply R2. split; auto. intros ->. apply Hc in Hx. destruct Hx as (_ & Hx & _). apply Hx. left. auto.
    - apply Hav. auto. }
  rewrite app_length in Hlen. exists (firstn (d - List.length old) av). split; [rewrite firstn_length; lia|]. split.
  - apply NoDup_firstn. apply NoDup_filter. auto.
  - intros x Hx. assert (Hin : In x av) by (rewrite <- (firstn_skipn (d - List.length old) av); apply in_or_app; auto). apply Hav in Hin. destruct Hin as [H1 H2].
    apply Hc in H1. tauto.
Qed.

Lemma famous_members p n i q : i < n -> famous_or_new p n i q -> let old := members_before i q in let d := desired_quorum_set_size p in
  NoDup old /\ (forall x, In x old -> x < n) /\ In i old /\ List.length old <= Nat.max 1 (Nat.min d n) /\ inner_quorum_sets q = [] /\
  (2 <= d -> d <= List.length old -> threshold q = requested_threshold p (Nat.min d n)) /\ (forall x, In x old -> x = i \/ 0 < weight_of p x) /\
  (d < 2 -> threshold q = 0).
Proof.
  intros Hr Hbe old d. destruct Hbe as [->|(m & Hm & (H1 & H2 & H3 & H4 & H5 & H6) & H7 & H8)].
  - unfold old, members_before. cbn [validators qset_new List.length inner_quorum_sets threshold]. split; [constructor; [intros []|constructor]|].
    split; [intros x [<-|[]]; auto|]. split; [left; auto|]. split; [lia|]. split; [auto|]. split; [intros; lia|]. split; [intros x [<-|[]]; auto|auto].
  - assert (Eo : old = validators q) by (unfold old, members_before; destruct (validators q); [destruct H4|auto]). rewrite Eo. fold d in H5, H6.
    split; auto. split; [intros x Hx; specialize (H3 x Hx); lia|]. split; auto. split; [lia|]. split; auto. split; [|split; auto].
    intros A B. rewrite H6 by auto. f_equal. lia.
Qed.
Lemma famous_after p i f r f' c r' q : (Z.of_nat (number_of_nodes f) <= 2 ^ 53)%Z -> node_of f i q -> famous_or_new p (number_of_nodes f) i q ->
  random_qsc p i f r = Ok (f', c, r') -> exists q', node_of f' i q' /\ famous p (number_of_nodes f) i q'.
Proof.
  intros Hb Hq Hbe E. set (n := number_of_nodes f) in *. pose proof (node_of_range _ _ _ Hq) as Hr. fold n in Hr.
  destruct (famous_members p n i q Hr Hbe) as (O1 & O2 & O3 & O4 & O5 & O6 & O7 & O8). set (old := members_before i q) in *. set (d := desired_quorum_set_size p) in *.
  assert (Hb' : (Z.of_nat (Nat.min (desired_quorum_set_size p) (number_of_nodes f)) <= 2 ^ 53)%Z) by (fold n; lia).
  destruct (random_spec p i f r f' c r' q Hq Hb' E) as (added & t & [C1 C2] & Hn' & H1 & H2). fold n old d in C2, Hn', H1, H2.
  eexists. split; [exact Hn'|]. unfold randomly_prescribed, randomly_configured. cbn [inner_quorum_sets validators threshold]. fold d.
  assert (Hnd : NoDup (old ++ added)) by (apply NoDup_app_intro; auto; intros x Hx; apply C2; auto).
  split.
  - split; auto. split; auto. split; [intros x Hx; apply in_app_iff in Hx; destruct Hx as [Hx|Hx]; [auto|apply C2; auto]|].
    split; [apply in_or_app; auto|]. rewrite app_length. assert (L1 : 1 <= List.length old) by (destruct old; [destruct O3|cbn; lia]).
    destruct (Nat.lt_ge_cases (List.length old) d) as [Hlt|Hge].
    + destruct (H1 Hlt) as (A1 & A2 & _). split; auto. lia.
    + destruct (H2 Hge) as (A1 & A2 & _). subst added. cbn [List.length]. split; [lia|]. intros. rewrite A2. auto.
  - split; [intros x Hx; apply in_app_iff in Hx; destruct Hx as [Hx|Hx]; [auto|right; apply C2; auto]|].
    intros Hd. assert (L1 : 1 <= List.length old) by (destruct old; [destruct O3|cbn; lia]). fold d in Hd.
    destruct (H2 ltac:(lia)) as (_ & -> & _). auto.
Qed.
Lemma famous_visit p i f r q : (Z.of_nat (number_of_nodes f) <= 2 ^ 53)%Z -> node_of f i q -> famous_or_new p (number_of_nodes f) i q ->
  (random_qsc p i f r <> Panic <-> enough_to_choose p (number_of_nodes f) i).
Proof.
  intros Hb Hq Hbe. set (n := number_of_nodes f) in *. pose proof (node_of_range _ _ _ Hq) as Hr. fold n in Hr.
  destruct (famous_members p n i q Hr Hbe) as (O1 & O2 & O3 & O4 & O5 & O6 & O7 & O8). set (old := members_before i q) in *. set (d := desired_quorum_set_size p) in *.
  pose proof (random_ok_iff p i f r q Hq) as Hp. cbv zeta in Hp. fold n old d in Hp. rewrite Hp.
  pose proof (max_distinct n old O1 O2) as Hon.
  destruct (length_without i old O1 O3) as (rest & R1 & R2 & R3).
  assert (Hrest : forall x, In x rest -> x < n /\ ~ In x [i] /\ 0 < weight_of p x).
  { intros x Hx. apply R2 in Hx. destruct Hx as [Hx Hne]. split; auto. split; [intros [X|[]]; congruence|]. destruct (O7 x Hx); [congruence|auto]. }
  split.
  - intros H. unfold enough_to_choose. fold d. destruct (Nat.lt_ge_cases (List.length old) d) as [Hlt|Hge].
    + destruct (H Hlt) as (l & L1 & L2 & L3). exists (rest ++ l). split; [rewrite app_length; lia|]. split.
      * apply NoDup_app_intro; auto. intros x Hx Hx'. apply R2 in Hx'. apply L3 in Hx. tauto.
      * intros x Hx. apply in_app_iff in Hx. destruct Hx as [Hx|Hx]; auto. destruct (L3 x Hx) as (A1 & A2 & A3). split; auto. split; auto.
        intros [<-|[]]. auto.
    + destruct (Nat.le_gt_cases (Nat.min d n) 1) as [Hd|Hd].
      * exists []. split; [cbn; lia|]. split; [constructor|intros x []].
      * exists rest. split; [lia|]. split; auto.
  - intros H Hlt. apply (choosable_more p n i old); auto. fold d. lia.
Qed.

Lemma famous_simulation p n0 k r : (Z.of_nat (n0 + k) <= 2 ^ 53)%Z -> (forall m i, n0 <= m <= n0 + k -> i < m -> enough_to_choose p m i) ->
  exists f, simulation (random_qsc p) n0 k r = Ok f /\ generic_names f /\ number_of_nodes f = n0 + k /\ forall i q, node_of f i q -> famous p (n0 + k) i q.
Proof.
  intros Hb Hen.
  destruct (simulation_establishes (random_qsc p) (fun n => (Z.of_nat n <= 2 ^ 53)%Z /\ forall i, i < n -> enough_to_choose p n i) (famous p) (famous_or_new p) (random_local p))
    with (n0 := n0) (k := k) (r := r) as (f & E & G & N & A).
  - intros i f r0 q [Hl He] HB Hq. pose proof (node_of_range _ _ _ Hq) as Hi.
    pose proof (proj2 (famous_visit p i f r0 q Hl Hq (HB i q Hq)) (He i Hi)) as Hp.
    destruct (random_qsc p i f r0) as [[[f' c] r']|] eqn:E; [|congruence].
    destruct (famous_after p i f r0 f' c r' q Hl Hq (HB i q Hq) E) as (q' & H1 & H2). exists f', c, r', q'. auto.
  - intros n i q H. right. eauto.
  - intros n i q [->|(m & Hm & H)]; [left; auto|]. right. exists m. auto.
  - intros. left. auto.
  - intros m H1 H2. split; [lia|]. intros i Hi. apply Hen; auto.
  - exists f. split; auto. split; auto. split; auto. intros i q Hq. rewrite <- N. apply (A i q Hq).
Qed.
Lemma famous_simulation_needs p n0 k r f : (Z.of_nat (n0 + k) <= 2 ^ 53)%Z -> simulation (random_qsc p) n0 k r = Ok f ->
  forall m i, n0 <= m <= n0 + k -> i < m -> enough_to_choose p m i.
Proof.
  intros Hb E. apply (simulation_needs (random_qsc p) (fun n => (Z.of_nat n <= 2 ^ 53)%Z) (famous_or_new p) (enough_to_choose p) (random_local p)) with (r := r) (f := f); auto.
  - intros i f0 r0 f' c r' Hl HB Hi E0. pose proof (qset_of_node f0 i Hi) as Hq. pose proof (random_local p _ _ _ _ _ _ E0) as Ho.
    destruct (famous_after p i f0 r0 f' c r' _ Hl Hq (HB i _ Hq) E0) as (q' & H1 & H2). split.
    + intros j q Hj. rewrite (changes_only_size _ _ _ Ho). destruct (Nat.eq_dec j i) as [->|Hne].
      * rewrite (node_of_fun _ _ _ _ Hj H1). right. eauto.
      * apply (changes_only_other i j f0 f') in Hj; auto.
    + apply (famous_visit p i f0 r0 _ Hl Hq (HB i _ Hq)). congruence.
  - intros n i q [->|(m & Hm & H)]; [left; auto|]. right. exists m. auto.
  - intros. left. auto.
  - intros m Hm. lia.
Qed.
Lemma enough_unweighted size thr m i : i < m -> enough_to_choose (mk_random_qsc size thr []) m i.
Proof.
  intros Hi. unfold enough_to_choose. apply (choosable_positive (mk_random_qsc size thr []) m [i]); cbn [weights desired_quorum_set_size List.length].
  - intros w [].
  - constructor; [intros []|constructor].
  - intros x [<-|[]]. auto.
  - lia.
Qed.
