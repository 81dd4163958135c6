(** Lemmas and examples for [Th_Simulation.v]. *)
From Coq Require Import ZArith.
From Flocq Require Import IEEE754.BinarySingleNaN.
From Verif Require Export Spec_Simulation P_List P_Builder P_Quorum P_QuorumSet P_Float P_ThSimGraph P_Simulation P_Growth P_RandomQsc P_GraphQsc.
Local Open Scope list_scope.
Local Open Scope nat_scope.

Lemma faithful_configurators g scores thr sym :
  faithful dummy_qsc /\ faithful ideal_qsc /\ faithful super_safe_qsc /\ faithful (all_neighbors_qsc g thr) /\ faithful (higher_tier_qsc g scores thr sym).
Proof.
  split; [apply dummy_faithful|]. split; [apply ideal_faithful|]. split; [apply super_safe_faithful|]. split; [apply all_neighbors_faithful|]. apply higher_tier_faithful.
Qed.
Lemma local_configurators g scores top thr sym p :
  local_configurator dummy_qsc /\ local_configurator ideal_qsc /\ local_configurator super_safe_qsc /\ local_configurator (random_qsc p) /\
  local_configurator (all_neighbors_qsc g thr) /\ local_configurator (global_rank_qsc g top thr) /\ local_configurator (higher_tier_qsc g scores thr sym).
Proof.
  split; [apply dummy_faithful|]. split; [apply ideal_faithful|]. split; [apply super_safe_faithful|]. split; [apply random_local|].
  split; [apply all_neighbors_faithful|]. split; [apply global_rank_local|]. apply higher_tier_faithful.
Qed.

(** reports of [RandomQsc] are right where the number of validators says so *)
Lemma random_reports p i f r f' c r' q : node_of f i q -> (Z.of_nat (number_of_nodes f) <= 2 ^ 53)%Z ->
  validators q <> [] -> (List.length (validators q) < Nat.min (desired_quorum_set_size p) (number_of_nodes f) \/ desired_quorum_set_size p <= List.length (validators q)) ->
  random_qsc p i f r = Ok (f', c, r') -> (c = Change <-> changed i f f').
Proof.
  intros Hq Hb Hv Hor E.
  destruct (random_spec p i f r f' c r' q Hq ltac:(lia) E) as (added & t & _ & Hn' & H1 & H2).
  assert (Em : members_before i q = validators q) by (unfold members_before; destruct (validators q); congruence). rewrite Em in *.
  destruct Hor as [Hlt|Hge].
  - destruct H1 as (A1 & _ & ->); [lia|]. split; auto. intros _. exists q. eexists. split; auto. split; [exact Hn'|].
    intros X. assert (L : List.length (validators q) = List.length (validators q ++ added)) by (rewrite X at 1; reflexivity). rewrite app_length in L. lia.
  - destruct (H2 Hge) as (-> & -> & ->). split; [discriminate|]. intros (q1 & q2 & A & B & C). exfalso. apply C.
    rewrite (node_of_fun _ _ _ _ A Hq), (node_of_fun _ _ _ _ B Hn'), app_nil_r. destruct q; auto.
Qed.

Lemma scores_spec g : wf_graph g -> no_repeated_links g -> (Z.of_nat (List.length g) <= 2 ^ 53)%Z ->
  exists scores, get_rank_scores g = Ok scores /\ List.length scores = List.length g /\
    Forall (fun s => fnan s = false /\ fleb fzero s = true) scores.
Proof.
  intros Hw Hr Hn. destruct (rank_scores_ok g Hw (simple_degrees g Hw Hr Hn) Hn) as (scores & E & Hl & Hs). exists scores. split; auto. split; auto.
  rewrite Forall_forall in *. intros s Hin. specialize (Hs s Hin). split; [apply Hs|]. destruct Hs as [A B].
  destruct s as [[]|[]| |[] m e He]; try discriminate; reflexivity.
Qed.
Lemma global_rank_new g thr : wf_graph g -> no_repeated_links g -> (Z.of_nat (List.length g) <= 2 ^ 53)%Z ->
  exists scores top, get_rank_scores g = Ok scores /\ new_global_rank_qsc g thr = Ok (global_rank_qsc g top thr) /\
    ascending_list_of (fun x => exists s, nth_error scores x = Some s /\ fltb (average scores) s = true) top.
Proof.
  intros Hw Hr Hn. destruct (scores_spec g Hw Hr Hn) as (scores & E & Hl & _). destruct (top_tier_ok g scores E Hl) as (top & Et & Ht).
  exists scores, top. split; auto. split; auto. unfold new_global_rank_qsc. rewrite Et. auto.
Qed.
Lemma higher_tier_new g thr sym : wf_graph g -> no_repeated_links g -> (Z.of_nat (List.length g) <= 2 ^ 53)%Z ->
  exists scores, get_rank_scores g = Ok scores /\ List.length scores = List.length g /\ new_higher_tier_qsc g thr sym = Ok (higher_tier_qsc g scores thr sym).
Proof.
  intros Hw Hr Hn. destruct (scores_spec g Hw Hr Hn) as (scores & E & Hl & _). exists scores. split; auto. split; auto. unfold new_higher_tier_qsc. rewrite E. auto.
Qed.

Lemma global_rank_spec g top thr k s : 1 <= k -> k + number_of_nodes (sim_fbas s) <= List.length g -> generic_names (sim_fbas s) ->
  (forall i q, node_of (sim_fbas s) i q -> q = qset_new) -> NoDup top ->
  exists s', simulate_growth (global_rank_qsc g top thr) k s = Ok s' /\
    let f := sim_fbas s' in let t := calculate_threshold (List.length top) thr in
    number_of_nodes f = k + number_of_nodes (sim_fbas s) /\
    (forall i q, node_of f i q -> ((exists j, link g i j) -> q = QS t top []) /\ ((forall j, ~ link g i j) -> q = qset_new)) /\
    (1 <= t -> forall S, quorum f S <-> inhabited_set S /\ (forall x, mem x S = true -> x < number_of_nodes f /\ exists j, link g x j) /\ t <= len (inter S (of_list top))).
Proof.
  intros Hk Hlim Hg H0 Hnd. destruct (global_rank_growth g top thr k s Hk Hlim Hg H0) as (s' & E & _ & N & A). exists s'. split; auto. cbv zeta. split; auto. split; auto.
  intros Ht. apply rank_quorums; auto.
  - intros i q Hq. destruct (A i q Hq) as [A1 A2]. split; auto. intros Hn. apply A2. intros j Hj. apply Hn. eauto.
  - intros i. destruct (links g i) as [|j l] eqn:El.
    + right. intros [j Hj]. apply link_links in Hj. rewrite El in Hj. destruct Hj.
    + left. exists j. apply link_links. rewrite El. left. auto.
Qed.

(** ** examples *)
Definition empty_sim (r : rng) : sim := mk_sim fbas_new [] r.
Lemma empty_generic r : generic_names (sim_fbas (empty_sim r)).
Proof. split; [apply keys_ok_new|apply generic_new]. Qed.
Lemma empty_unconfigured r i q : node_of (sim_fbas (empty_sim r)) i q -> q = qset_new.
Proof. intros (n & E & _). destruct i; discriminate. Qed.
Definition one_node (q : qset) : fbas := mk_fbas [mk_node "n0"%string q] [("n0"%string, 0)].
Definition qsets_of (x : res sim) : res (list qset) := res_map (fun s => map node_qset (nodes (sim_fbas s))) x.

(** [RandomQsc] for 5 nodes, on an FBAS with one node *)
Lemma random_changes_nothing : random_qsc (random_qsc_simple 5) 0 (one_node (QS 1 [0] [])) zeros = Ok (one_node (QS 1 [0] []), Change, zeros).
Proof. vm_compute. reflexivity. Qed.
(** [RandomQsc] for 1 node *)
Lemma random_changes_silently : random_qsc (random_qsc_simple 1) 0 (one_node qset_new) zeros = Ok (one_node (QS 0 [0] []), NoChange, zeros).
Proof. vm_compute. reflexivity. Qed.
Lemma one_node_of q : node_of (one_node q) 0 q.
Proof. exists (mk_node "n0"%string q). auto. Qed.
Lemma random_not_faithful : ~ faithful (random_qsc (random_qsc_simple 5)) /\ ~ faithful (random_qsc (random_qsc_simple 1)).
Proof.
  split; intros H.
  - pose proof (proj1 (H _ _ _ _ _ _ random_changes_nothing) eq_refl) as X. eapply not_changed_refl; eauto.
  - assert (X : NoChange = Change); [|discriminate X]. apply (H _ _ _ _ _ _ random_changes_silently).
    exists qset_new, (QS 0 [0] []). split; [apply one_node_of|]. split; [apply one_node_of|discriminate].
Qed.
Lemma rank_changes_nothing : global_rank_qsc (new_full_mesh 2) [] None 0 (one_node qset_new) zeros = Ok (one_node qset_new, Change, zeros).
Proof. vm_compute. reflexivity. Qed.
Lemma rank_not_faithful : get_top_tier_nodes (new_full_mesh 2) = Ok [] /\ ~ faithful (global_rank_qsc (new_full_mesh 2) [] None).
Proof.
  split; [vm_compute; reflexivity|]. intros H. pose proof (proj1 (H _ _ _ _ _ _ rank_changes_nothing) eq_refl) as X. eapply not_changed_refl; eauto.
Qed.
Lemma random_threshold_zero : exists (s : sim) (p : random_qsc_params), desired_threshold p = Some 1 /\ desired_quorum_set_size p = 1 /\
  qsets_of (simulate_growth (random_qsc p) 1 s) = Ok [QS 0 [0] []].
Proof. exists (empty_sim zeros), (mk_random_qsc 1 (Some 1) []). split; [reflexivity|]. split; [reflexivity|]. vm_compute. reflexivity. Qed.
Definition taken : fbas := mk_fbas [mk_node "n1"%string qset_new] [("n1"%string, 0)].
Lemma name_taken : exists f : fbas, keys_ok f /\ simulate_growth super_safe_qsc 1 (mk_sim f [] zeros) = Panic.
Proof.
  exists taken. split; [|vm_compute; reflexivity]. intros pk i. unfold get_node_id, taken. cbn [pk_to_id nodes assoc].
  destruct (String.eqb_spec pk "n1"%string) as [->|Hne].
  - destruct i as [|i]; cbn; [tauto|]. split; [discriminate|destruct i; discriminate].
  - split; [discriminate|]. destruct i as [|i]; cbn; [congruence|destruct i; discriminate].
Qed.
Definition kite : graph := [[1; 2]; [0; 2; 3]; [0; 1]; [1]; []].
Lemma kite_wf : wf_graph kite.
Proof.
  intros i j (l & E & H). change (List.length kite) with 5.
  destruct i as [|[|[|[|[|i]]]]]; cbn in E; [injection E as <-..|destruct i; discriminate]; cbn in H; intuition lia.
Qed.
Lemma kite_simple : no_repeated_links kite.
Proof. unfold no_repeated_links, kite. repeat constructor; cbn; intuition lia. Qed.
Lemma ideal_no_panic (k : nat) (s : sim) : generic_names (sim_fbas s) -> simulate_growth ideal_qsc k s <> Panic.
Proof. intros H. apply (uniform_no_panic k s H). Qed.
Lemma super_safe_no_panic (k : nat) (s : sim) : generic_names (sim_fbas s) -> simulate_growth super_safe_qsc k s <> Panic.
Proof. intros H. apply (uniform_no_panic k s H). Qed.
