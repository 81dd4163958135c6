(** Proofs about the simulator: policies that use graphs, whole runs, what is printed. *)
From Coq Require Import ZArith Relation_Operators Operators_Properties.
From Verif Require Import Spec_Bins P_List P_Builder P_QuorumSet P_Quorum P_Shrunken P_SimGraph P_Mesh P_Shuffle P_Float P_Rank P_Simulation P_Growth
  P_RandomQsc P_GraphQsc P_ThRank P_GraphIO P_IO P_Json P_Bins.
Local Open Scope list_scope.
Local Open Scope nat_scope.

Lemma all_neighbors_simulation g thr n0 k r : wf_graph g -> no_repeated_links g ->
  exists f, simulation (all_neighbors_qsc g thr) n0 k r = Ok f /\ generic_names f /\ number_of_nodes f = n0 + k /\
  forall i q, node_of f i q -> (connected g i -> flat_over (fun x => x = i \/ link g i x) thr q) /\ (~ connected g i -> q = qset_new).
Proof.
  intros Hw Hr.
  destruct (simulation_establishes (all_neighbors_qsc g thr) (fun _ => True) (neighbors_after g thr) (fun n i q => q = qset_new \/ neighbors_after g thr n i q)
    (proj1 (all_neighbors_faithful g thr))) with (n0 := n0) (k := k) (r := r) as (f & E & G & N & A); auto.
  - intros i f r0 q _ HB Hq. apply (all_neighbors_visit g thr i f r0 q); auto.
  - exists f. split; [auto|]. split; [auto|]. split; [auto|]. intros i q Hq. apply (A i q Hq).
Qed.

Lemma higher_tier_simulation g scores thr n0 k r : wf_graph g -> no_repeated_links g -> List.length scores = List.length g ->
  exists f, simulation (higher_tier_qsc g scores thr false) n0 k r = Ok f /\ generic_names f /\ number_of_nodes f = n0 + k /\
  forall i q, node_of f i q -> (connected g i -> flat_over (fun x => x = i \/ trusted_neighbor g scores i x) thr q) /\ (~ connected g i -> q = qset_new).
Proof.
  intros Hw Hr Hs.
  destruct (simulation_establishes (higher_tier_qsc g scores thr false) (fun _ => True) (higher_after g scores thr) (fun n i q => connected g i \/ q = qset_new)
    (proj1 (higher_tier_faithful g scores thr false))) with (n0 := n0) (k := k) (r := r) as (f & E & G & N & A); auto.
  - intros i f r0 q _ HB Hq. destruct (mem i (get_connected_nodes g)) eqn:Em.
    + apply connected_mem in Em. destruct (higher_tier_candidate g scores thr i f r0 Hw Hr Hs Em) as (q' & Hq' & Eq'). rewrite Eq'.
      destruct (replace_ok f i q' r0 (node_of_range _ _ _ Hq)) as (f' & c & E). exists f', c, r0, q'. split; auto.
      apply replace_spec in E. split; [tauto|]. split; [auto|tauto].
    + assert (Hn : ~ connected g i) by (rewrite <- connected_mem; congruence). exists f, NoChange, r0, q. unfold higher_tier_qsc. rewrite Em. cbn [negb].
      split; auto. split; auto. split; [tauto|]. intros _. destruct (HB i q Hq); tauto.
  - intros n i q [A1 A2]. destruct (mem i (get_connected_nodes g)) eqn:Em; [left; apply connected_mem; auto|right; apply A2; rewrite <- connected_mem; congruence].
  - exists f. split; [auto|]. split; [auto|]. split; [auto|]. intros i q Hq. apply (A i q Hq).
Qed.

(** rounds of reevaluation: each one leads to the next level *)
Section Levels.
Context (Q : configurator) (n : nat) (A : nat -> nat -> qset -> Prop).
Context (HL : local_configurator Q) (HF : faithful Q).
Definition all_at (m : nat) (f : fbas) : Prop := forall i q, node_of f i q -> A m i q.
Context (visit_up : forall m i f r f' c r', all_at m f -> number_of_nodes f = n -> i < n -> Q i f r = Ok (f', c, r') -> exists q', node_of f' i q' /\ A (S m) i q').
Context (A_down : forall m i q, A (S m) i q -> A m i q).

Lemma visits_up m l f f' : visits Q l f f' -> all_at m f -> number_of_nodes f = n -> (forall v, In v l -> fst v < n) ->
  all_at m f' /\ forall i q', node_of f' i q' -> In i (map fst l) \/ (forall q, node_of f i q -> A (S m) i q) -> A (S m) i q'.
Proof.
  intros H. induction H as [|i c l f r f1 r1 f2 E H IH]; intros Hf Hn Hv.
  - split; auto. intros i q' Hq [[]|Hi]; auto.
  - destruct (visit_up m i f r f1 c r1 Hf Hn) as (q1 & Hq1 & HA1); auto; [apply (Hv (i, c)); left; auto|].
    pose proof (HL _ _ _ _ _ _ E) as Ho. pose proof (changes_only_size _ _ _ Ho) as Hs.
    assert (Hf1 : all_at m f1).
    { intros j q Hj. destruct (Nat.eq_dec j i) as [->|Hne]; [rewrite (node_of_fun _ _ _ _ Hj Hq1); auto|]. apply Hf. apply (changes_only_other _ _ _ _ _ Ho Hne). auto. }
    destruct IH as [I1 I2]; auto; [congruence|intros; apply Hv; right; auto|]. split; auto.
    intros j q' Hq' Hj. apply I2; auto. cbn [map fst In] in Hj. destruct (in_dec Nat.eq_dec j (map fst l)) as [Hl|Hl]; auto. right. intros q Hq.
    destruct (Nat.eq_dec j i) as [->|Hne]; [rewrite (node_of_fun _ _ _ _ Hq Hq1); auto|].
    apply (changes_only_other _ _ _ _ _ Ho Hne) in Hq. destruct Hj as [[C|C]|C]; [congruence|tauto|auto].
Qed.
Lemma rounds_up rounds : forall m f f', Forall (visits_all n) rounds -> visits Q (concat rounds) f f' -> all_at m f -> number_of_nodes f = n ->
  all_at (m + List.length rounds) f'.
Proof.
  induction rounds as [|round rounds IH]; intros m f f' Hall Hv Hf Hn.
  - cbn in Hv. inversion Hv as [f0 E1 E2|]. subst f0 f'. cbn [List.length]. rewrite Nat.add_0_r. auto.
  - cbn [concat] in Hv. apply visits_app_inv in Hv. destruct Hv as (f1 & V1 & V2). assert (Ha := Forall_inv Hall). assert (Hall' := Forall_inv_tail Hall).
    assert (Hin : forall v, In v round -> fst v < n).
    { intros v Hv. assert (Hi : In (fst v) (map fst round)) by (apply in_map; auto). rewrite Ha in Hi. apply in_seq in Hi. lia. }
    destruct (visits_up m round f f1 V1 Hf Hn Hin) as [I1 I2]. pose proof (visits_size _ _ _ _ HL V1) as S1.
    cbn [List.length]. rewrite <- Nat.add_succ_comm. apply (IH (S m) f1 f'); auto; [|congruence].
    intros i q Hq. apply I2; auto. left. rewrite Ha. apply in_seq. apply node_of_range in Hq. lia.
Qed.
Lemma reevaluation_up max s s' k : simulate_global_reevaluation Q max s = Ok (s', k) -> number_of_nodes (sim_fbas s) = n -> all_at 0 (sim_fbas s) -> all_at max (sim_fbas s').
Proof.
  intros H Hn H0. pose proof H as H'. apply reevaluation_ok in H'. destruct H' as (rounds & Hlen & Hle & Hpos & _ & Hall & Hv & _). rewrite Hn in Hall.
  pose proof (rounds_up rounds 0 _ _ Hall Hv H0 Hn) as Hup. cbn [Nat.add] in Hup. subst k.
  destruct (Nat.lt_ge_cases (List.length rounds) max) as [Hlt|Hge]; [|replace max with (List.length rounds) by lia; auto].
  pose proof (fixed_point _ _ _ _ _ HL HF H ltac:(lia)) as Hfix. pose proof (visits_size _ _ _ _ HL Hv) as Hs.
  assert (Hmore : forall d, all_at (List.length rounds + d) (sim_fbas s')).
  { intro d. induction d as [|d IH]; [rewrite Nat.add_0_r; auto|]. intros i q Hq. destruct (Hfix i (node_of_range _ _ _ Hq)) as (r & r' & E).
    assert (Hi : i < n) by (rewrite <- Hn, <- Hs; eapply node_of_range; eauto). assert (Hn' : number_of_nodes (sim_fbas s') = n) by congruence.
    destruct (visit_up _ i _ r _ _ r' IH Hn' Hi E) as (q' & Hq' & HA).
    rewrite (node_of_fun _ _ _ _ Hq Hq'). rewrite Nat.add_succ_r. auto. }
  replace max with (List.length rounds + (max - List.length rounds)) by lia. apply Hmore.
Qed.
End Levels.
Lemma last_stage Q n0 k r f : local_configurator Q -> simulation Q n0 k r = Ok f ->
  exists s s' rounds, number_of_nodes (sim_fbas s) = n0 + k /\ simulate_global_reevaluation Q (n0 + k) s = Ok (s', rounds) /\ sim_fbas s' = f.
Proof.
  intros HL. unfold simulation. destruct (unconfigured n0) as (f0 & E & _ & Hn & _). rewrite E. cbn [bind].
  destruct (simulate_global_reevaluation Q n0 _) as [[s0 k0]|] eqn:E0; [|discriminate]. cbn [bind fst].
  destruct (simulate_growth Q k s0) as [s'|] eqn:Eg; [|discriminate]. cbn [bind]. intro H. injection H as <-.
  pose proof E0 as V0. apply reevaluation_ok in V0. destruct V0 as (rounds0 & _ & _ & _ & _ & _ & V0 & _). apply (visits_size _ _ _ _ HL) in V0. cbn [sim_fbas] in V0.
  destruct k as [|k].
  - cbn in Eg. injection Eg as <-. rewrite Nat.add_0_r. do 3 eexists. split; [|split; [exact E0|auto]]. auto.
  - assert (Hgen : forall k s s', simulate_growth Q (S k) s = Ok s' ->
      exists s1 rounds, number_of_nodes (sim_fbas s1) = number_of_nodes (sim_fbas s) + S k /\ simulate_global_reevaluation Q (number_of_nodes (sim_fbas s) + S k) s1 = Ok (s', rounds)).
    { clear - HL. induction k as [|k IH]; intros s s' H.
      - cbn [simulate_growth] in H. destruct (grow_by_one Q s) as [s1|] eqn:E; [|discriminate]. cbn in H. injection H as ->. unfold grow_by_one in E.
        destruct (add_generic_node (sim_fbas s) qset_new) as [[f1 i]|] eqn:Ea; [|discriminate]. cbn [bind] in E.
        assert (L1 : number_of_nodes f1 = S (number_of_nodes (sim_fbas s))).
        { unfold add_generic_node in Ea. pose proof (add_node_spec _ _ _ _ Ea) as (-> & _ & En & _). unfold number_of_nodes. rewrite En, app_length. cbn. lia. }
        destruct (Q _ f1 (sim_rng s)) as [[[f2 c] r]|] eqn:EQ; [|discriminate]. cbn [bind] in E.
        pose proof (changes_only_size _ _ _ (HL _ _ _ _ _ _ EQ)) as L2. cbn [sim_fbas register_event] in E.
        destruct (simulate_global_reevaluation Q (number_of_nodes f2) _) as [[s2 rounds]|] eqn:Er; [|discriminate]. cbn in E. injection E as ->.
        rewrite Nat.add_1_r, <- L1, <- L2. do 2 eexists. split; [|exact Er]. auto.
      - cbn [simulate_growth] in H. destruct (grow_by_one Q s) as [s1|] eqn:E; [|discriminate]. cbn [bind] in H.
        assert (L : number_of_nodes (sim_fbas s1) = S (number_of_nodes (sim_fbas s))).
        { assert (G : simulate_growth Q 1 s = Ok s1) by (cbn; rewrite E; auto). apply (growth_log_ok Q 1 HL) in G. clear - E HL. unfold grow_by_one in E.
          destruct (add_generic_node (sim_fbas s) qset_new) as [[f1 i]|] eqn:Ea; [|discriminate]. cbn [bind] in E.
          assert (L1 : number_of_nodes f1 = S (number_of_nodes (sim_fbas s))).
          { unfold add_generic_node in Ea. pose proof (add_node_spec _ _ _ _ Ea) as (-> & _ & En & _). unfold number_of_nodes. rewrite En, app_length. cbn. lia. }
          destruct (Q _ f1 (sim_rng s)) as [[[f2 c] r]|] eqn:EQ; [|discriminate]. cbn [bind] in E.
          pose proof (changes_only_size _ _ _ (HL _ _ _ _ _ _ EQ)) as L2. cbn [sim_fbas register_event] in E.
          destruct (simulate_global_reevaluation Q (number_of_nodes f2) _) as [[s2 rounds]|] eqn:Er; [|discriminate]. cbn in E. injection E as ->.
          apply reevaluation_ok in Er. destruct Er as (rs & _ & _ & _ & _ & _ & V & _). apply (visits_size _ _ _ _ HL) in V. cbn [sim_fbas register_event] in V. lia. }
        destruct (IH s1 s' H) as (s2 & rounds & N & Er). rewrite L in N, Er. exists s2, rounds. rewrite <- Nat.add_succ_comm. auto. }
    destruct (Hgen k s0 s' Eg) as (s1 & rounds & N & Er). rewrite V0, Hn in N, Er. exists s1, s', rounds. auto.
Qed.

Lemma shared_more g scores n n' k k' i x : shared g scores n k i x -> n <= n' -> k <= k' -> shared g scores n' k' i x.
Proof.
  intros H. revert k'. induction H as [k i|k i x Ht|k i j x Ht Hj _ IH1 _ IH2]; intros k' Hn Hk.
  - constructor.
  - constructor; auto.
  - destruct k' as [|k']; [lia|]. apply shared_symmetric with j; auto; [lia|apply IH1; lia|apply IH2; lia].
Qed.
Lemma flat_mentions P thr q x : flat_over P thr q -> mentions x q <-> P x.
Proof.
  intros (vs & [_ Hv] & ->). rewrite <- Hv. split; [|apply mentions_here]. intros H. inversion H as [? ? ? Hin|? ? ? i Hin Hm]; subst; auto. destruct Hin.
Qed.
Definition symmetric_after (g : graph) (scores : list f64) (thr : option f64) (n i : nat) (q : qset) : Prop :=
  (connected g i -> exists P, flat_over P thr q /\ forall x, P x -> exists k, shared g scores n k i x) /\
  (~ connected g i -> q = qset_new).
Lemma symmetric_above g scores thr n0 k r : wf_graph g -> no_repeated_links g -> List.length scores = List.length g ->
  exists f, simulation (higher_tier_qsc g scores thr true) n0 k r = Ok f /\ generic_names f /\ number_of_nodes f = n0 + k /\
  forall i q, node_of f i q -> symmetric_after g scores thr (n0 + k) i q.
Proof.
  intros Hw Hr Hs.
  destruct (simulation_establishes (higher_tier_qsc g scores thr true) (fun _ => True) (symmetric_after g scores thr) (fun n i q => q = qset_new \/ symmetric_after g scores thr n i q)
    (proj1 (higher_tier_faithful g scores thr true))) with (n0 := n0) (k := k) (r := r) as (f & E & G & N & A); auto.
  - intros i f r0 q _ HB Hq. destruct (mem i (get_connected_nodes g)) eqn:Em.
    + apply connected_mem in Em.
      assert (Hp : exists q', higher_tier_qsc g scores thr true i f r0 = replace_if_different f i q' r0).
      { unfold higher_tier_qsc. rewrite (proj2 (connected_mem g i) Em). cbn [negb].
        destruct (tiers_ok g scores i Hw Hr Hs (connected_lt _ _ Hw Em)) as (h & sa & lo & E & _). rewrite E. cbn [bind]. eauto. }
      destruct Hp as (q' & Eq'). destruct (replace_ok f i q' r0 (node_of_range _ _ _ Hq)) as (f' & c & E). rewrite <- Eq' in E.
      destruct (symmetric_visit g scores thr i f r0 f' c r0 Hw Hr Hs Em E) as (q1 & Hn1 & Hf1). exists f', c, r0, q1. split; auto. split; auto.
      split; [|tauto]. intros _. eexists. split; [exact Hf1|]. cbn beta.
      intros x [->|[Hx|(j & Hj & (q2 & Hn2 & Hm1 & Hm2))]]; [exists 0; constructor|exists 0; constructor; auto|].
      destruct (HB j q2 Hn2) as [->|[C1 C2]].
      * inversion Hm2 as [? ? ? Hin|? ? ? i0 Hin Hm0]; destruct Hin.
      * destruct (mem j (get_connected_nodes g)) eqn:Ej.
        -- apply connected_mem in Ej. destruct (C1 Ej) as (P & F1 & F4). apply (flat_mentions _ _ _ _ F1), F4 in Hm1. apply (flat_mentions _ _ _ _ F1), F4 in Hm2.
           destruct Hm1 as (k1 & Hm1). destruct Hm2 as (k2 & Hm2). exists (S (Nat.max k1 k2)). apply shared_symmetric with j; auto.
           ++ eapply node_of_range; eauto.
           ++ eapply shared_more; eauto; lia.
           ++ eapply shared_more; eauto; lia.
        -- rewrite C2 in Hm2 by (rewrite <- connected_mem; congruence). inversion Hm2 as [? ? ? Hin|? ? ? i0 Hin Hm0]; destruct Hin.
    + assert (Hn : ~ connected g i) by (rewrite <- connected_mem; congruence). exists f, NoChange, r0, q. unfold higher_tier_qsc. rewrite Em. cbn [negb].
      split; auto. split; auto. split; [tauto|]. intros _. destruct (HB i q Hq) as [|[_ X]]; auto.
  - intros n i q [->|[C1 C2]]; [left; auto|right]. split; auto. intros Hc. destruct (C1 Hc) as (P & F & U). exists P. split; auto.
    intros x Hx. destruct (U x Hx) as (k' & Hk'). exists k'. eapply shared_more; eauto.
  - exists f. split; [auto|]. split; [auto|]. split; [auto|]. intros i q Hq. rewrite <- N. apply (A i q Hq).
Qed.
Definition shared_at_least (g : graph) (scores : list f64) (thr : option f64) (n m i : nat) (q : qset) : Prop :=
  match m with 0 => True | S k => connected g i -> exists P, flat_over P thr q /\ forall x, shared g scores n k i x -> P x end.
Lemma trusted_connected g scores i j : trusted_neighbor g scores i j -> connected g j.
Proof. intros H. exists i. right. destruct H as [[H _]|[_ [H _]]]; auto. Qed.
Lemma symmetric_below g scores thr n0 k r f : wf_graph g -> no_repeated_links g -> List.length scores = List.length g ->
  simulation (higher_tier_qsc g scores thr true) n0 k r = Ok f -> forall i q, node_of f i q -> shared_at_least g scores thr (n0 + k) (n0 + k) i q.
Proof.
  intros Hw Hr Hs E. destruct (higher_tier_faithful g scores thr true) as [HL HF]. destruct (last_stage _ _ _ _ _ HL E) as (s & s' & rounds & Hn & Er & <-).
  refine (reevaluation_up (higher_tier_qsc g scores thr true) (n0 + k) (shared_at_least g scores thr (n0 + k)) HL HF _ _ (n0 + k) s s' rounds Er Hn _).
  - intros m i f r0 f' c r' Hf Hnf Hi EQ. destruct (mem i (get_connected_nodes g)) eqn:Em.
    + apply connected_mem in Em. destruct (symmetric_visit g scores thr i f r0 f' c r' Hw Hr Hs Em EQ) as (q & Hq & Hflat). exists q. split; auto.
      intros _. eexists. split; [exact Hflat|]. cbn beta. intros x Hx. inversion Hx as [|? ? ? Ht|k' ? j ? Ht Hj H1 H2]; subst; auto.
      right. right. exists j. split; auto. destruct (nth_error (nodes f) j) as [nj|] eqn:Ej; [|apply nth_error_None in Ej; unfold number_of_nodes in Hnf; lia].
      assert (Hqj : node_of f j (node_qset nj)) by (exists nj; auto). exists (node_qset nj). split; auto.
      destruct (Hf j _ Hqj (trusted_connected _ _ _ _ Ht)) as (P & F & U). split; apply (flat_mentions _ _ _ _ F); auto.
    + assert (Hc : ~ connected g i) by (rewrite <- connected_mem; congruence). unfold higher_tier_qsc in EQ. rewrite Em in EQ. cbn [negb] in EQ. injection EQ as <- _ _.
      destruct (nth_error (nodes f) i) as [nj|] eqn:Ej; [|apply nth_error_None in Ej; unfold number_of_nodes in Hnf; lia]. exists (node_qset nj). split; [exists nj; auto|]. intro C. tauto.
  - intros [|m] i q H; [exact I|]. intros Hc. destruct (H Hc) as (P & F & U). exists P. split; auto. intros x Hx. apply U. eapply shared_more; eauto.
  - intros i q _. exact I.
Qed.
Lemma symmetric_simulation g scores thr n0 k r : wf_graph g -> no_repeated_links g -> List.length scores = List.length g ->
  exists f, simulation (higher_tier_qsc g scores thr true) n0 k r = Ok f /\ generic_names f /\ number_of_nodes f = n0 + k /\
  forall i q, node_of f i q ->
    (connected g i -> exists P, flat_over P thr q /\ (forall x, shared g scores (n0 + k) (n0 + k - 1) i x -> P x) /\ forall x, P x -> exists k', shared g scores (n0 + k) k' i x) /\
    (~ connected g i -> q = qset_new).
Proof.
  intros Hw Hr Hs. destruct (symmetric_above g scores thr n0 k r Hw Hr Hs) as (f & E & G & N & A). exists f. split; [auto|]. split; [auto|]. split; [auto|].
  intros i q Hq. destruct (A i q Hq) as [A1 A2]. split; auto. intros Hc. destruct (A1 Hc) as (P & F & U). exists P. split; auto. split; auto.
  pose proof (symmetric_below g scores thr n0 k r f Hw Hr Hs E i q Hq) as B. pose proof (node_of_range _ _ _ Hq) as Hlt. rewrite N in Hlt.
  destruct (n0 + k) as [|m]; [lia|]. cbn [shared_at_least] in B. destruct (B Hc) as (P' & F' & U'). intros x Hx. rewrite Nat.sub_1_r in Hx. cbn [Nat.pred] in Hx.
  apply (flat_mentions _ _ _ _ F), (flat_mentions _ _ _ _ F'). auto.
Qed.

Lemma global_rank_simulation g top thr n0 k r : n0 + k <= List.length g ->
  exists f, simulation (global_rank_qsc g top thr) n0 k r = Ok f /\ generic_names f /\ number_of_nodes f = n0 + k /\
  forall i q, node_of f i q -> ((exists j, link g i j) -> q = QS (calculate_threshold (List.length top) thr) top []) /\ ((forall j, ~ link g i j) -> q = qset_new).
Proof.
  intros Hlim.
  destruct (simulation_establishes (global_rank_qsc g top thr) (fun n => n <= List.length g) (rank_after g top thr) (fun n i q => q = qset_new \/ rank_after g top thr n i q)
    (global_rank_local g top thr)) with (n0 := n0) (k := k) (r := r) as (f & E & G & N & A); auto.
  - intros i f r0 q Hl HB Hq. apply (global_rank_visit g top thr i f r0 q); auto.
  - intros m _ Hm. lia.
  - exists f. split; [auto|]. split; [auto|]. split; [auto|]. intros i q Hq. destruct (A i q Hq) as [A1 A2]. split.
    + intros [j Hj]. apply A1. apply link_links in Hj. intros X. rewrite X in Hj. destruct Hj.
    + intros Hn. apply A2. destruct (links g i) as [|j l] eqn:El; auto. exfalso. apply (Hn j). apply link_links. rewrite El. left. auto.
Qed.
Lemma global_rank_needs g top thr n0 k r f : simulation (global_rank_qsc g top thr) n0 k r = Ok f -> n0 + k <= List.length g.
Proof.
  intros E. destruct (Nat.le_gt_cases (n0 + k) (List.length g)) as [|Hgt]; auto. exfalso.
  assert (X : List.length g < List.length g); [|lia].
  apply (simulation_needs (global_rank_qsc g top thr) (fun _ => True) (fun n i q => List.length g <= i -> q = qset_new) (fun _ i => i < List.length g) (global_rank_local g top thr))
    with (n0 := n0) (k := k) (r := r) (f := f) (m := n0 + k); auto; [|lia].
  intros i f0 r0 f' c r' _ HB Hi E0. pose proof (qset_of_node f0 i Hi) as Hq. pose proof (global_rank_local g top thr _ _ _ _ _ _ E0) as Ho.
  assert (Hlt : i < List.length g).
  { destruct (Nat.lt_ge_cases i (List.length g)) as [|Hge]; auto. exfalso. specialize (HB i _ Hq Hge). rewrite HB in Hq.
    unfold global_rank_qsc in E0. rewrite (proj2 (get_qset_ok f0 i qset_new) Hq) in E0. cbn [bind] in E0.
    rewrite (proj2 (qset_eqb_eq qset_new qset_new) eq_refl), (proj2 (nth_error_None g i) Hge) in E0. discriminate. }
  split; auto. intros j q Hj Hge. apply (changes_only_other i j f0 f') in Hj; auto; [|lia]. eapply HB; eauto.
Qed.

(** ** whole runs *)
Lemma scores_exist g : wf_graph g -> no_repeated_links g -> exists scores, get_rank_scores g = Ok scores /\ List.length scores = List.length g.
Proof.
  intros Hw Hr. destruct (graph_scores_spec g Hw Hr) as (m & _ & E & _). eexists. split; [exact E|]. rewrite map_length, seq_length. auto.
Qed.
Lemma simulated_eq args w r : simulated args w r =
  (Qn <- parse_qsc_config w (arg_qsc_config args) ;;
   simulation (fst Qn) (if ((0 <? arg_initial_n args) || (0 <? arg_grow_by_n args))%bool then arg_initial_n args else snd Qn) (arg_grow_by_n args) r).
Proof. unfold simulated, simulation. destruct (parse_qsc_config w (arg_qsc_config args)) as [[Q n]|]; auto. Qed.
Lemma in_degrees_unique g d d' : in_degrees_of g d -> in_degrees_of g d' -> d = d'.
Proof.
  intros [L1 H1] [L2 H2]. apply nth_error_ext_eq. intros j. destruct (Nat.lt_ge_cases j (List.length g)) as [Hj|Hj].
  - rewrite (nth_error_some_nth d j 0), (nth_error_some_nth d' j 0) by lia. f_equal.
    assert (A1 := H1 j _ (nth_error_some_nth d j 0 ltac:(lia))). assert (A2 := H2 j _ (nth_error_some_nth d' j 0 ltac:(lia))).
    destruct A1 as (P1 & N1 & E1 & <-), A2 as (P2 & N2 & E2 & <-). apply Permutation_length. apply NoDup_Permutation; auto.
    intros [a b]. rewrite E1, E2. tauto.
  - rewrite (proj2 (nth_error_None d j)), (proj2 (nth_error_None d' j)) by lia. auto.
Qed.

(** the configurator of a policy, and the number of nodes in its graph *)
Inductive configures (w : inputs) : qsc_config -> configurator -> nat -> Prop :=
| conf_super : configures w SuperSafe super_safe_qsc 0
| conf_ideal : configures w Ideal ideal_qsc 0
| conf_random size : configures w (Random size) (random_qsc (mk_random_qsc size None [])) 0
| conf_fame size path thr g d : graph_at w path g -> in_degrees_of g d ->
    configures w (FameWeightedRandom size path thr) (random_qsc (mk_random_qsc size thr d)) (List.length g)
| conf_all path thr g : graph_at w path g -> configures w (AllNeighbors path thr) (all_neighbors_qsc g thr) (List.length g)
| conf_higher path thr g scores : graph_at w path g -> get_rank_scores g = Ok scores -> List.length scores = List.length g ->
    configures w (HigherTierNeighbors path thr) (higher_tier_qsc g scores thr false) (List.length g)
| conf_symmetric path thr g scores : graph_at w path g -> get_rank_scores g = Ok scores -> List.length scores = List.length g ->
    configures w (SymmetryEnforcingHigherTierNeighbors path thr) (higher_tier_qsc g scores thr true) (List.length g)
| conf_rank path thr g scores top : graph_at w path g -> get_rank_scores g = Ok scores ->
    ascending_list_of (fun x => exists s, nth_error scores x = Some s /\ fltb (average scores) s = true) top ->
    configures w (GlobalRank path thr) (global_rank_qsc g top thr) (List.length g).

Lemma parse_ok w c : (forall path, graph_path c = Some path -> exists g, graph_at w path g) -> exists Q n, parse_qsc_config w c = Ok (Q, n) /\ configures w c Q n.
Proof.
  intros Hg. destruct c; cbn [graph_path] in Hg; cbn [parse_qsc_config].
  1-3: do 2 eexists; split; [reflexivity|constructor].
  all: destruct (Hg _ eq_refl) as (g & Hgr); destruct (graph_at_ok _ _ _ Hgr) as [Hw Hr];
    rewrite (proj2 (parse_graph_iff w graph_data_path g (List.length g)) (conj Hgr eq_refl)); cbn [bind fst snd].
  - destruct (in_degrees_spec g Hw) as (d & E & L & _ & Hd). rewrite E. cbn [bind]. do 2 eexists. split; [reflexivity|]. constructor; auto. split; auto.
  - do 2 eexists. split; [reflexivity|]. constructor; auto.
  - destruct (scores_exist g Hw Hr) as (scores & E & L). unfold new_higher_tier_qsc. rewrite E. cbn [bind]. do 2 eexists. split; [reflexivity|]. constructor; auto.
  - destruct (scores_exist g Hw Hr) as (scores & E & L). unfold new_higher_tier_qsc. rewrite E. cbn [bind]. do 2 eexists. split; [reflexivity|]. constructor; auto.
  - destruct (scores_exist g Hw Hr) as (scores & E & L). destruct (top_tier_ok g scores E L) as (top & Et & Ht).
    unfold new_global_rank_qsc. rewrite Et. cbn [bind]. do 2 eexists. split; [reflexivity|]. econstructor; eauto.
Qed.
Lemma parse_panic w c path : graph_path c = Some path -> (forall g, ~ graph_at w path g) -> parse_qsc_config w c = Panic.
Proof. intros Hc Hg. destruct c; cbn in Hc; try discriminate; injection Hc as ->; cbn [parse_qsc_config]; rewrite (parse_graph_panic w path Hg); auto. Qed.
Lemma unreadable args w r path : graph_path (arg_qsc_config args) = Some path -> (forall g, ~ graph_at w path g) -> simulated args w r = Panic.
Proof. intros Hc Hg. rewrite simulated_eq, (parse_panic w _ path Hc Hg). auto. Qed.

Lemma configures_nodes w c Q n : configures w c Q n -> match graph_path c with None => n = 0 | Some path => exists g, graph_at w path g /\ n = List.length g end.
Proof. intros H. destruct H; cbn; eauto. Qed.
Lemma first_nodes args w Q n n0 : configures w (arg_qsc_config args) Q n -> initial_nodes args w n0 ->
  (if ((0 <? arg_initial_n args) || (0 <? arg_grow_by_n args))%bool then arg_initial_n args else n) = n0.
Proof.
  intros Hc [H1 H2]. apply configures_nodes in Hc.
  destruct (Nat.ltb_spec 0 (arg_initial_n args)); cbn [orb]; [symmetry; auto|].
  destruct (Nat.ltb_spec 0 (arg_grow_by_n args)); [symmetry; auto|]. specialize (H2 ltac:(lia) ltac:(lia)).
  destruct (graph_path (arg_qsc_config args)); [|lia]. destruct Hc as (g & Hg & ->), H2 as (g' & Hg' & ->). f_equal. eapply graph_at_fun; eauto.
Qed.

Lemma range_seq n : range 0 n = seq 0 n.
Proof. unfold range. rewrite Nat.sub_0_r. auto. Qed.
Lemma configured_runs w c Q n n0 k r : configures w c Q n -> (Z.of_nat (n0 + k) <= 2 ^ 53)%Z -> possible c w n0 (n0 + k) ->
  exists f, simulation Q n0 k r = Ok f /\ generic_names f /\ number_of_nodes f = n0 + k /\ forall i q, node_of f i q -> as_prescribed c w (n0 + k) i q.
Proof.
  intros Hc Hb Hp. destruct Hc as [| |size|size path thr g d Hg Hd|path thr g Hg|path thr g scores Hg Es Ls|path thr g scores Hg Es Ls|path thr g scores top Hg Es Ht];
    cbn [as_prescribed possible] in *; try (destruct (graph_at_ok _ _ _ Hg) as [Hw Hr]).
  - destruct (uniform_simulation (fun n => QS n (range 0 n) []) n0 k r) as (f & E & G & N & A). exists f. rewrite range_seq in A. auto.
  - destruct (uniform_simulation (fun n => QS (calculate_67p_threshold n) (range 0 n) []) n0 k r) as (f & E & G & N & A). exists f. split; [auto|]. split; [auto|]. split; [auto|].
    intros i q Hq. rewrite (A i q Hq), range_seq. apply node_of_range in Hq. rewrite threshold_67p by (auto; lia). auto.
  - destruct (famous_simulation (mk_random_qsc size None []) n0 k r Hb) as (f & E & G & N & A).
    { intros m i _ Hi. apply enough_unweighted. auto. }
    exists f. split; [auto|]. split; [auto|]. split; [auto|]. intros i q Hq. apply (A i q Hq).
  - destruct Hp as (g' & d' & Hg' & Hd' & Hen). rewrite <- (graph_at_fun _ _ _ _ Hg Hg') in Hd'. rewrite <- (in_degrees_unique g d d' Hd Hd') in Hen.
    destruct (famous_simulation (mk_random_qsc size thr d) n0 k r Hb Hen) as (f & E & G & N & A).
    exists f. split; [auto|]. split; [auto|]. split; [auto|]. intros i q Hq. exists g, d. split; [auto|]. split; [auto|]. apply (A i q Hq).
  - destruct (all_neighbors_simulation g thr n0 k r Hw Hr) as (f & E & G & N & A). exists f. split; [auto|]. split; [auto|]. split; [auto|].
    intros i q Hq. exists g. split; auto.
  - destruct (higher_tier_simulation g scores thr n0 k r Hw Hr Ls) as (f & E & G & N & A). exists f. split; [auto|]. split; [auto|]. split; [auto|].
    intros i q Hq. exists g, scores. split; auto.
  - destruct (symmetric_simulation g scores thr n0 k r Hw Hr Ls) as (f & E & G & N & A). exists f. split; [auto|]. split; [auto|]. split; [auto|].
    intros i q Hq. exists g, scores. split; [auto|]. split; [auto|]. apply (A i q Hq).
  - destruct Hp as (g' & Hg' & Hle). rewrite <- (graph_at_fun _ _ _ _ Hg Hg') in Hle.
    destruct (global_rank_simulation g top thr n0 k r Hle) as (f & E & G & N & A). exists f. split; [auto|]. split; [auto|]. split; [auto|].
    intros i q Hq. exists g, scores, top. split; auto.
Qed.
Lemma configured_needs w c Q n n0 k r f : configures w c Q n -> (Z.of_nat (n0 + k) <= 2 ^ 53)%Z -> simulation Q n0 k r = Ok f -> possible c w n0 (n0 + k).
Proof.
  intros Hc Hb E. destruct Hc as [| |size|size path thr g d Hg Hd|path thr g Hg|path thr g scores Hg Es Ls|path thr g scores Hg Es Ls|path thr g scores top Hg Es Ht];
    cbn [possible]; eauto.
  - exists g, d. split; auto. split; auto. eapply famous_simulation_needs; eauto.
  - exists g. split; auto. eapply global_rank_needs; eauto.
Qed.

Lemma possible_graph c w n0 n path : possible c w n0 n -> graph_path c = Some path -> exists g, graph_at w path g.
Proof.
  destruct c; cbn; intros H E; try discriminate; injection E as ->; auto.
  - destruct H as (g & _ & H & _). eauto.
  - destruct H as (g & H & _). eauto.
Qed.
Lemma simulated_iff args w r n0 : initial_nodes args w n0 -> (Z.of_nat (n0 + arg_grow_by_n args) <= 2 ^ 53)%Z ->
  (simulated args w r <> Panic <-> possible (arg_qsc_config args) w n0 (n0 + arg_grow_by_n args)).
Proof.
  intros Hi Hb. rewrite simulated_eq. split.
  - destruct (parse_qsc_config w (arg_qsc_config args)) as [[Q n]|] eqn:Ep; [|cbn; congruence]. cbn [bind fst snd].
    destruct (parse_ok w (arg_qsc_config args)) as (Q' & n' & E' & Hc).
    { intros path Hpath. destruct (parse_graph_path w path) as [[g m]|] eqn:Eg.
      - exists g. apply parse_graph_iff in Eg. tauto.
      - exfalso. destruct (arg_qsc_config args); cbn in Hpath; try discriminate; injection Hpath as ->; cbn [parse_qsc_config] in Ep; rewrite Eg in Ep; discriminate. }
    rewrite Ep in E'. injection E' as <- <-. rewrite (first_nodes args w Q n n0 Hc Hi).
    destruct (simulation Q n0 (arg_grow_by_n args) r) as [f|] eqn:Es; [|congruence]. intros _. eapply configured_needs; eauto.
  - intros Hp. destruct (parse_ok w (arg_qsc_config args)) as (Q & n & E & Hc); [intros path; eapply possible_graph; eauto|].
    rewrite E. cbn [bind fst snd]. rewrite (first_nodes args w Q n n0 Hc Hi).
    destruct (configured_runs w _ Q n n0 (arg_grow_by_n args) r Hc Hb Hp) as (f & Ef & _). congruence.
Qed.
Lemma simulated_spec args w r n0 f : initial_nodes args w n0 -> (Z.of_nat (n0 + arg_grow_by_n args) <= 2 ^ 53)%Z -> simulated args w r = Ok f ->
  let n := n0 + arg_grow_by_n args in number_of_nodes f = n /\ generic_names f /\ forall i q, node_of f i q -> as_prescribed (arg_qsc_config args) w n i q.
Proof.
  intros Hi Hb E n. assert (Hp : possible (arg_qsc_config args) w n0 n) by (apply (simulated_iff args w r n0 Hi Hb); congruence).
  rewrite simulated_eq in E. destruct (parse_ok w (arg_qsc_config args)) as (Q & m & Ep & Hc); [intros path; eapply possible_graph; eauto|].
  rewrite Ep in E. cbn [bind fst snd] in E. rewrite (first_nodes args w Q m n0 Hc Hi) in E.
  destruct (configured_runs w _ Q m n0 (arg_grow_by_n args) r Hc Hb Hp) as (f' & Ef & G & N & A). rewrite E in Ef. injection Ef as <-. auto.
Qed.

(** ** what is printed *)
(** fbas.rs l.122-131: the name written for a node that does not exist *)
Definition missing_name (v : nat) : string := String.append "missing #" (DecimalString.NilZero.string_of_uint (Nat.to_uint v)).
Definition no_missing_keys (f : fbas) : Prop := forall x v n, nth_error (nodes f) x = Some n -> node_pk n <> missing_name v.
Lemma known_filter f vs : distinct_keys f -> no_missing_keys f ->
  filter_map (fun x => assoc String.eqb x (key_map (fbas_to_raw f))) (map (key_or_missing f) vs) = filter (fun v => v <? number_of_nodes f) vs.
Proof.
  intros Hd Hm. induction vs as [|v vs IH]; cbn [map filter_map filter]; auto. unfold key_or_missing at 1.
  destruct (nth_error (nodes f) v) as [n|] eqn:En.
  - rewrite (key_map_own f v n Hd En). assert (v < number_of_nodes f) by (apply nth_error_Some; unfold number_of_nodes; congruence).
    destruct (Nat.ltb_spec v (number_of_nodes f)); [|lia]. f_equal. auto.
  - apply nth_error_None in En. fold (number_of_nodes f) in En. destruct (Nat.ltb_spec v (number_of_nodes f)); [lia|].
    destruct (assoc _ _ _) as [x|] eqn:Ea; [|exact IH]. exfalso. apply key_map_spec in Ea. destruct Ea as [Ea _]. unfold fbas_to_raw in Ea. rewrite nth_error_map in Ea.
    destruct (nth_error (nodes f) x) as [n|] eqn:Ex; [|discriminate]. cbn in Ea. injection Ea as Ea. apply (Hm x v n Ex Ea).
Qed.
Lemma reread_slice f q S : distinct_keys f -> no_missing_keys f -> (forall x, mem x S = true -> x < number_of_nodes f) ->
  is_quorum_slice (qset_from_raw (qset_to_raw q f) (key_map (fbas_to_raw f))) S = is_quorum_slice q S.
Proof.
  intros Hd Hm HS. induction q as [t vs is_ IH] using qset_ind'. cbn [qset_from_raw qset_to_raw]. apply eq_true_iff_eq. rewrite !is_quorum_slice_matches.
  unfold matches. rewrite known_filter by auto.
  rewrite (filter_perm_length (fun x => mem x S) _ _ (sort_by_perm Nat.compare (filter (fun v => v <? number_of_nodes f) vs))).
  rewrite (filter_perm_length (fun i => is_quorum_slice i S) _ _ (sort_by_perm qset_compare _)).
  replace (List.length (filter (fun x => mem x S) (filter (fun v => v <? number_of_nodes f) vs))) with (List.length (filter (fun x => mem x S) vs)).
  2:{ f_equal. clear - HS. induction vs as [|v vs IH]; cbn [filter]; auto. destruct (Nat.ltb_spec v (number_of_nodes f)); cbn [filter]; destruct (mem v S) eqn:E; rewrite ?IH; auto.
      specialize (HS v E). lia. }
  replace (List.length (filter (fun i => is_quorum_slice i S) (map (fun i => qset_from_raw i (key_map (fbas_to_raw f))) (map (fun i => qset_to_raw i f) is_))))
    with (List.length (filter (fun i => is_quorum_slice i S) is_)); [tauto|].
  rewrite map_map. clear - IH. induction is_ as [|i is_ IHl]; cbn [map filter]; auto. rewrite (IH i) by (left; auto).
  destruct (is_quorum_slice i S); cbn [List.length]; rewrite IHl; auto; intros; apply IH; right; auto.
Qed.
Lemma generic_distinct f : generic_names f -> distinct_keys f.
Proof.
  intros [Hk Hn]. unfold distinct_keys. apply NoDup_nth_error. intros i j Hi E. rewrite map_length in Hi. rewrite !nth_error_map in E.
  destruct (nth_error (nodes f) i) as [n|] eqn:Ei; [|apply nth_error_None in Ei; lia]. destruct (nth_error (nodes f) j) as [m|] eqn:Ej; [|discriminate].
  cbn in E. injection E as E. rewrite (Hn i n Ei), (Hn j m Ej) in E. apply generic_name_inj in E. auto.
Qed.
Lemma generic_not_missing f : generic_names f -> no_missing_keys f.
Proof. intros [_ Hn] x v n Hx E. rewrite (Hn x n Hx) in E. discriminate. Qed.
Lemma usize_bounded x : (Z.of_nat (usize_of_f64 x) < 2 ^ 64)%Z.
Proof.
  assert (H : forall z, (Z.of_nat (Z.to_nat (Z.min z usize_max)) < 2 ^ 64)%Z) by (intro z; unfold usize_max; lia).
  assert (H0 : (Z.of_nat 0 < 2 ^ 64)%Z) by lia.
  assert (H1 : (Z.of_nat (Z.to_nat usize_max) < 2 ^ 64)%Z) by (rewrite <- (Z.min_id usize_max) at 1; apply H).
  unfold usize_of_f64. destruct x as [s|[|]| |s m e Hb].
  - apply H.
  - exact H0.
  - exact H1.
  - exact H0.
  - apply H.
Qed.
Lemma threshold_bounded n thr : (Z.of_nat n < 2 ^ 64)%Z -> (Z.of_nat (calculate_threshold n thr) < 2 ^ 64)%Z.
Proof.
  intro H. destruct thr as [x|]; cbn [calculate_threshold]; unfold calculate_x_threshold, calculate_67p_threshold; [|lia].
  pose proof (usize_bounded (fceil (fmul x (f64_of_nat n)))). lia.
Qed.
Lemma ascending_bounded l b : StronglySorted lt l -> (forall x, In x l -> x < b) -> List.length l <= b.
Proof.
  intros Hs Hb. rewrite <- (seq_length b 0). apply NoDup_incl_length.
  - clear Hb. induction Hs as [|x l Hs IH Hx]; constructor; auto. intro Hin. rewrite Forall_forall in Hx. specialize (Hx x Hin). lia.
  - intros x Hx. apply in_seq. specialize (Hb x Hx). lia.
Qed.
Lemma trusted_bound g scores i x : wf_graph g -> trusted_neighbor g scores i x -> x < List.length g.
Proof. intros Hw H. apply (Hw i). destruct H as [[H _]|[_ [H _]]]; auto. Qed.
Lemma shared_bound g scores n k i x : wf_graph g -> shared g scores n k i x -> x = i \/ x < List.length g.
Proof.
  intros Hw H. induction H as [|k i x Ht|k i j x Ht Hj _ _ _ IH]; auto; [right; eapply trusted_bound; eauto|].
  destruct IH as [->|IH]; auto. right. eapply trusted_bound; eauto.
Qed.
Definition bounded_qset (b : nat) (q : qset) : Prop := small_qset q /\ forall y, mentions y q -> y < b.
Lemma flat_bounded P thr q b : flat_over P thr q -> (forall x, P x -> x < b) -> (Z.of_nat b < 2 ^ 64)%Z -> bounded_qset b q.
Proof.
  intros Hf Hb Hz. split; [|intros y Hy; apply Hb; apply (flat_mentions _ _ _ _ Hf); auto].
  destruct Hf as (vs & [Hs Hv] & ->). constructor; [|constructor]. apply threshold_bounded.
  assert (List.length vs <= b) by (apply ascending_bounded; auto; intros x Hx; apply Hb, Hv; auto). lia.
Qed.
Lemma new_bounded b : bounded_qset b qset_new.
Proof. split; [constructor; [lia|constructor]|]. intros y Hy. inversion Hy as [? ? ? Hin|? ? ? i Hin Hm]; destruct Hin. Qed.
Lemma list_bounded b t vs : (Z.of_nat t < 2 ^ 64)%Z -> (forall x, In x vs -> x < b) -> bounded_qset b (QS t vs []).
Proof. intros Ht Hv. split; [constructor; auto|]. intros y Hy. inversion Hy as [? ? ? Hin|? ? ? i Hin Hm]; subst; auto. destruct Hin. Qed.
Lemma random_bounded p n b i q : randomly_prescribed p n i q -> n <= b -> (Z.of_nat b < 2 ^ 64)%Z ->
  (forall t, desired_threshold p = Some t -> (Z.of_nat t < 2 ^ 64)%Z) -> bounded_qset b q.
Proof.
  intros [(Hi & _ & Hv & _ & _ & Ht) [_ Ht0]] Hn Hz Hs. destruct q as [t vs is_]. cbn [inner_quorum_sets validators threshold] in *. subst is_. apply list_bounded.
  - destruct (le_lt_dec 2 (desired_quorum_set_size p)) as [Hd|Hd].
    + rewrite Ht by auto. unfold requested_threshold. destruct (desired_threshold p) as [u|]; [auto|lia].
    + rewrite Ht0 by auto. lia.
  - intros x Hx. specialize (Hv x Hx). lia.
Qed.
Lemma prescribed_bounded c w n i q b : as_prescribed c w n i q -> i < n -> n <= b -> (Z.of_nat b < 2 ^ 64)%Z -> sixty_four_bits c w ->
  (forall path g, graph_path c = Some path -> graph_at w path g -> List.length g <= b) -> bounded_qset b q.
Proof.
  intros Ha Hi Hn Hz [Ht _] Hb. destruct c as [| |size|size path thr|path thr|path thr|path thr|path thr]; cbn [as_prescribed graph_path] in *.
  - subst q. apply list_bounded; [lia|]. intros x Hx. apply in_seq in Hx. lia.
  - subst q. apply list_bounded; [lia|]. intros x Hx. apply in_seq in Hx. lia.
  - eapply random_bounded; eauto. cbn. discriminate.
  - destruct Ha as (g & d & _ & _ & Ha). eapply random_bounded; eauto. cbn. intros t ->. eauto.
  - destruct Ha as (g & Hg & Hc & Hd). specialize (Hb path g eq_refl Hg). destruct (graph_at_ok _ _ _ Hg) as [Hw _].
    destruct (mem i (get_connected_nodes g)) eqn:Em; [apply connected_mem in Em|rewrite Hd by (rewrite <- connected_mem; congruence); apply new_bounded].
    eapply flat_bounded; eauto. cbn. intros x [-> | Hx]; [lia|]. specialize (Hw _ _ Hx). lia.
  - destruct Ha as (g & scores & Hg & _ & Hc & Hd). specialize (Hb path g eq_refl Hg). destruct (graph_at_ok _ _ _ Hg) as [Hw _].
    destruct (mem i (get_connected_nodes g)) eqn:Em; [apply connected_mem in Em|rewrite Hd by (rewrite <- connected_mem; congruence); apply new_bounded].
    eapply flat_bounded; eauto. cbn. intros x [-> | Hx]; [lia|]. apply (trusted_bound g scores i x Hw) in Hx. lia.
  - destruct Ha as (g & scores & Hg & _ & Hc & Hd). specialize (Hb path g eq_refl Hg). destruct (graph_at_ok _ _ _ Hg) as [Hw _].
    destruct (mem i (get_connected_nodes g)) eqn:Em; [apply connected_mem in Em|rewrite Hd by (rewrite <- connected_mem; congruence); apply new_bounded].
    destruct (Hc Em) as (P & HP & _ & Hp). eapply flat_bounded; eauto. intros x Hx. destruct (Hp x Hx) as (k & Hk). apply (shared_bound g scores n k i x Hw) in Hk. lia.
  - destruct Ha as (g & scores & top & Hg & Es & [Hs Htop] & Hc & Hd). specialize (Hb path g eq_refl Hg). destruct (graph_at_ok _ _ _ Hg) as [Hw Hr].
    assert (Ls : List.length scores = List.length g) by (destruct (scores_exist g Hw Hr) as (sc & E & L); congruence).
    assert (Hlt : forall x, In x top -> x < b).
    { intros x Hx. apply Htop in Hx. destruct Hx as (s & Hx & _). assert (x < List.length scores) by (apply nth_error_Some; congruence). lia. }
    assert (Hl : (exists j, link g i j) \/ forall j, ~ link g i j).
    { destruct (nth_error g i) as [[|j l]|] eqn:En.
      - right. intros j (l & Hl & Hj). rewrite En in Hl. injection Hl as <-. destruct Hj.
      - left. exists j, (j :: l). split; [auto|left; auto].
      - right. intros j (l & Hl & _). congruence. }
    destruct Hl as [Hl|Hl].
    + rewrite Hc by auto. apply list_bounded; auto. apply threshold_bounded. assert (List.length top <= b) by (apply ascending_bounded; auto). lia.
    + rewrite Hd by auto. apply new_bounded.
Qed.

Lemma reread_quorums f S : distinct_keys f -> no_missing_keys f -> (quorum (fbas_from_raw (fbas_to_raw f)) S <-> quorum f S).
Proof.
  intros Hd Hm.
  assert (Hn : forall x q, node_of f x q -> node_of (fbas_from_raw (fbas_to_raw f)) x (qset_from_raw (qset_to_raw q f) (key_map (fbas_to_raw f)))).
  { intros x q (n & Hn & <-). exists (node_from_raw (key_map (fbas_to_raw f)) (node_to_raw f n)). split; auto. cbn. fold (key_map (fbas_to_raw f)).
    unfold fbas_to_raw. rewrite map_map, nth_error_map, Hn. auto. }
  assert (HN : number_of_nodes (fbas_from_raw (fbas_to_raw f)) = number_of_nodes f) by (unfold number_of_nodes; cbn; unfold fbas_to_raw; rewrite !map_length; auto).
  split; intros [Hi H]; split; auto; intros x Hx.
  - destruct (H x Hx) as (q' & Hq' & Hs). assert (Hlt : x < number_of_nodes f) by (rewrite <- HN; eapply node_of_range; eauto).
    destruct (nth_error (nodes f) x) as [n|] eqn:En; [|apply nth_error_None in En; unfold number_of_nodes in Hlt; lia].
    exists (node_qset n). assert (Hq : node_of f x (node_qset n)) by (exists n; auto). split; auto.
    rewrite (node_of_fun _ _ _ _ Hq' (Hn x _ Hq)) in Hs. apply is_quorum_slice_iff in Hs. apply is_quorum_slice_iff. rewrite reread_slice in Hs; auto.
    intros y Hy. destruct (H y Hy) as (qy & Hqy & _). rewrite <- HN. eapply node_of_range; eauto.
  - destruct (H x Hx) as (q & Hq & Hs). exists (qset_from_raw (qset_to_raw q f) (key_map (fbas_to_raw f))). split; auto.
    apply is_quorum_slice_iff in Hs. apply is_quorum_slice_iff. rewrite reread_slice; auto. intros y Hy. destruct (H y Hy) as (qy & Hqy & _). eapply node_of_range; eauto.
Qed.
Lemma printed args w r n0 j : initial_nodes args w n0 -> (Z.of_nat (n0 + arg_grow_by_n args) <= 2 ^ 53)%Z -> sixty_four_bits (arg_qsc_config args) w ->
  qsc_simulator args w r = Ok j ->
  exists f f', simulated args w r = Ok f /\ fbas_from_json j = Ok f' /\ number_of_nodes f' = n0 + arg_grow_by_n args /\ generic_names f' /\
  (forall S, quorum f' S <-> quorum f S) /\
  (no_larger_graph (arg_qsc_config args) w (n0 + arg_grow_by_n args) -> renumbering (fun x => x) f f').
Proof.
  intros Hi Hb H64 E. unfold qsc_simulator in E. destruct (simulated args w r) as [f|] eqn:Es; [|discriminate]. cbn in E. injection E as <-.
  destruct (simulated_spec args w r n0 f Hi Hb Es) as (N & G & A). cbv zeta in A.
  assert (Hd := generic_distinct f G). assert (Hm := generic_not_missing f G).
  assert (Hall : forall b, n0 + arg_grow_by_n args <= b -> (Z.of_nat b < 2 ^ 64)%Z ->
    (forall path g, graph_path (arg_qsc_config args) = Some path -> graph_at w path g -> List.length g <= b) -> forall i q, node_of f i q -> bounded_qset b q).
  { intros b H1 H2 H3 i q Hq. eapply (prescribed_bounded (arg_qsc_config args)); eauto. rewrite <- N. eapply node_of_range; eauto. }
  assert (Hs : small_fbas f).
  { destruct (graph_path (arg_qsc_config args)) as [path|] eqn:Ep.
    - destruct (parse_graph_path w path) as [[g m]|] eqn:Eg.
      + apply parse_graph_iff in Eg. destruct Eg as [Hg _]. intros i q Hq.
        apply (Hall (Nat.max (n0 + arg_grow_by_n args) (List.length g))) with (i := i); auto; try lia.
        * destruct H64 as [_ H64]. specialize (H64 path g Ep Hg). lia.
        * intros path' g' E' Hg'. injection E' as <-. rewrite (graph_at_fun _ _ _ _ Hg Hg'). lia.
      + intros i q Hq. exfalso.
        assert (Hp : possible (arg_qsc_config args) w n0 (n0 + arg_grow_by_n args)) by (apply (simulated_iff args w r n0 Hi Hb); congruence).
        destruct (possible_graph _ _ _ _ _ Hp Ep) as (g & Hg). destruct (parse_graph_iff w path g (List.length g)) as [_ H]. rewrite H in Eg by auto. discriminate.
    - intros i q Hq. apply (Hall (n0 + arg_grow_by_n args)) with (i := i); auto; try lia. discriminate. }
  exists f, (fbas_from_raw (fbas_to_raw f)). split; [auto|]. split; [apply fbas_written; auto|].
  assert (HN : number_of_nodes (fbas_from_raw (fbas_to_raw f)) = number_of_nodes f) by (unfold number_of_nodes; cbn; unfold fbas_to_raw; rewrite !map_length; auto).
  split; [congruence|]. split.
  { split; [apply from_raw_keys_ok; unfold unique_keys, fbas_to_raw; rewrite map_map; apply Hd|].
    intros x n Hx. cbn in Hx. unfold fbas_to_raw in Hx. rewrite map_map, nth_error_map in Hx. destruct (nth_error (nodes f) x) as [m|] eqn:Em; [|discriminate].
    cbn in Hx. injection Hx as <-. cbn. apply G. auto. }
  split; [intro S; apply reread_quorums; auto|].
  intro Hl. apply reread; auto. intros x q y Hq Hy. rewrite N. apply (Hall (n0 + arg_grow_by_n args)) with (i := x) (q := q); auto; lia.
Qed.
