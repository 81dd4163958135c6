(** Simulations: C39-C43, C58-C60. *)
From Coq Require Import ZArith.
From Verif Require Import P_ThSimulation.
Local Open Scope list_scope.
Local Open Scope nat_scope.

(** C39. Up to 2^53 nodes, from where on [usize] to [f64] conversions are not exact. *)
Theorem C39_ideal : forall (k : nat) (s s' : sim), 1 <= k -> simulate_growth ideal_qsc k s = Ok s' ->
  let f := sim_fbas s' in let n := k + number_of_nodes (sim_fbas s) in
  number_of_nodes f = n /\ ((Z.of_nat n <= 2 ^ 53)%Z ->
  all_have f (QS (n - (n - 1) / 3) (seq 0 n) []) /\
  (forall S, quorum f S <-> (forall x, mem x S = true -> x < n) /\ n - (n - 1) / 3 <= len S) /\
  quorum_intersection f /\
  (forall B, blocking f B <-> (n - 1) / 3 < len (inter B (all_nodes f)))).
Proof. exact ideal_growth. Qed.
Print Assumptions C39_ideal.

Theorem C39_no_panic : forall (k : nat) (s : sim), generic_names (sim_fbas s) -> simulate_growth ideal_qsc k s <> Panic.
Proof. exact ideal_no_panic. Qed.
Print Assumptions C39_no_panic.

Example C39_example : qsets_of (simulate_growth ideal_qsc 4 (empty_sim counter)) = Ok (repeat (QS 3 [0; 1; 2; 3] []) 4).
Proof. vm_compute. reflexivity. Qed.

(** C40 *)
Theorem C40_super_safe : forall (k : nat) (s s' : sim), 1 <= k -> simulate_growth super_safe_qsc k s = Ok s' ->
  let f := sim_fbas s' in number_of_nodes f = k + number_of_nodes (sim_fbas s) /\
  (forall S, quorum f S <-> forall x, mem x S = true <-> x < number_of_nodes f).
Proof. exact super_safe_growth. Qed.
Print Assumptions C40_super_safe.

(** growth cannot panic if names are generic; otherwise the name of a new node may be taken *)
Theorem C40_no_panic_partial : forall (k : nat) (s : sim), generic_names (sim_fbas s) -> simulate_growth super_safe_qsc k s <> Panic.
Proof. exact super_safe_no_panic. Qed.
Print Assumptions C40_no_panic_partial.

Theorem C40_name_taken_refuted : exists f : fbas, keys_ok f /\ simulate_growth super_safe_qsc 1 (mk_sim f [] zeros) = Panic.
Proof. exact name_taken. Qed.
Print Assumptions C40_name_taken_refuted.

Example C40_example : qsets_of (simulate_growth super_safe_qsc 3 (empty_sim counter)) = Ok (repeat (QS 3 [0; 1; 2] []) 3).
Proof. vm_compute. reflexivity. Qed.

(** C41. [visits] says that the visits of all rounds, one after the other, lead from the old to the new FBAS. *)
Theorem C41_reevaluation : forall (Q : configurator) (max : nat) (s s' : sim) (k : nat), simulate_global_reevaluation Q max s = Ok (s', k) ->
  exists rounds, List.length rounds = k /\ k <= max /\ (0 < max -> 0 < k) /\
    sim_log s' = sim_log s ++ StartGlobalReevaluation :: flat_map round_events rounds ++ [FinishGlobalReevaluation k] /\
    Forall (visits_all (number_of_nodes (sim_fbas s))) rounds /\ visits Q (concat rounds) (sim_fbas s) (sim_fbas s') /\
    (forall early last, rounds = early ++ [last] -> Forall (fun round => ~ stable round) early /\ (k < max -> stable last)).
Proof. exact reevaluation_ok. Qed.
Print Assumptions C41_reevaluation.

Theorem C41_growth : forall (Q : configurator) (k : nat), local_configurator Q -> forall s s', simulate_growth Q k s = Ok s' ->
  exists blocks log, List.length blocks = k /\ sim_log s' = sim_log s ++ log /\ growth_log (number_of_nodes (sim_fbas s)) blocks log.
Proof. exact growth_log_ok. Qed.
Print Assumptions C41_growth.

(** a panic comes from the configurator *)
Theorem C41_no_panic : forall (Q : configurator) (I : fbas -> Prop) (max : nat) (s : sim),
  (forall i f r, i < number_of_nodes (sim_fbas s) -> I f -> exists f' c r', Q i f r = Ok (f', c, r') /\ I f') ->
  I (sim_fbas s) -> exists s' k, simulate_global_reevaluation Q max s = Ok (s', k) /\ I (sim_fbas s').
Proof. exact reevaluation_no_panic. Qed.
Print Assumptions C41_no_panic.

Example C41_example : res_map (fun x => (sim_log (fst x), snd x)) (simulate_global_reevaluation ideal_qsc 7 (mk_sim (one_node qset_new) [] zeros)) =
  Ok ([StartGlobalReevaluation; StartGlobalReevaluationRound; QuorumSetChange 0 Change; StartGlobalReevaluationRound;
       QuorumSetChange 0 NoChange; FinishGlobalReevaluation 2], 2).
Proof. vm_compute. reflexivity. Qed.

(** C42 *)
Theorem C42_local : forall (g : graph) scores top (thr : option f64) (sym : bool) (p : random_qsc_params),
  local_configurator dummy_qsc /\ local_configurator ideal_qsc /\ local_configurator super_safe_qsc /\ local_configurator (random_qsc p) /\
  local_configurator (all_neighbors_qsc g thr) /\ local_configurator (global_rank_qsc g top thr) /\ local_configurator (higher_tier_qsc g scores thr sym).
Proof. exact local_configurators. Qed.
Print Assumptions C42_local.

(** missing: [RandomQsc] and [GlobalRankQsc] with an empty top tier, where the claim is false *)
Theorem C42_faithful_partial : forall (g : graph) scores (thr : option f64) (sym : bool),
  faithful dummy_qsc /\ faithful ideal_qsc /\ faithful super_safe_qsc /\ faithful (all_neighbors_qsc g thr) /\ faithful (higher_tier_qsc g scores thr sym).
Proof. exact faithful_configurators. Qed.
Print Assumptions C42_faithful_partial.

Theorem C42_global_rank_partial : forall (g : graph) top (thr : option f64), top <> [] \/ thr <> None -> faithful (global_rank_qsc g top thr).
Proof. exact global_rank_faithful. Qed.
Print Assumptions C42_global_rank_partial.

(** missing: nodes without validators, and quorum sets that contain all nodes but should be larger *)
Theorem C42_random_partial : forall (p : random_qsc_params) (i : nat) (f : fbas) (r : rng) f' c r' q,
  node_of f i q -> (Z.of_nat (number_of_nodes f) <= 2 ^ 53)%Z -> validators q <> [] ->
  (List.length (validators q) < Nat.min (desired_quorum_set_size p) (number_of_nodes f) \/ desired_quorum_set_size p <= List.length (validators q)) ->
  random_qsc p i f r = Ok (f', c, r') -> (c = Change <-> changed i f f').
Proof. exact random_reports. Qed.
Print Assumptions C42_random_partial.

(** [RandomQsc] for 5 validators reports changes forever if there are fewer nodes; [RandomQsc] for 1 validator
    adds a node to its own quorum set without a report *)
Theorem C42_random_refuted : ~ faithful (random_qsc (random_qsc_simple 5)) /\ ~ faithful (random_qsc (random_qsc_simple 1)).
Proof. exact random_not_faithful. Qed.
Print Assumptions C42_random_refuted.

(** [GlobalRankQsc] of a full mesh with 2 nodes has an empty top tier and replaces the empty quorum set by itself *)
Theorem C42_global_rank_refuted : get_top_tier_nodes (new_full_mesh 2) = Ok [] /\ ~ faithful (global_rank_qsc (new_full_mesh 2) [] None).
Proof. exact rank_not_faithful. Qed.
Print Assumptions C42_global_rank_refuted.

(** stable means: for no node the configurator would change anything *)
Theorem C42_fixed_point : forall (Q : configurator) (max : nat) (s s' : sim) (k : nat), local_configurator Q -> faithful Q ->
  simulate_global_reevaluation Q max s = Ok (s', k) -> k < max ->
  forall i, i < number_of_nodes (sim_fbas s') -> exists r r', Q i (sim_fbas s') r = Ok (sim_fbas s', NoChange, r').
Proof. exact fixed_point. Qed.
Print Assumptions C42_fixed_point.

(** the number of rounds with [RandomQsc] is the maximum if there are too few nodes *)
Theorem C42_random_never_stable : forall (p : random_qsc_params) (max : nat) (s s' : sim) (k : nat),
  1 <= number_of_nodes (sim_fbas s) < desired_quorum_set_size p -> (forall w, In w (weights p) -> 0 < w) ->
  (Z.of_nat (number_of_nodes (sim_fbas s)) <= 2 ^ 53)%Z -> (forall i q, node_of (sim_fbas s) i q -> random_or_new p (number_of_nodes (sim_fbas s)) i q) ->
  simulate_global_reevaluation (random_qsc p) max s = Ok (s', k) -> k = max.
Proof. exact random_never_stable. Qed.
Print Assumptions C42_random_never_stable.

Example C42_example : res_map snd (simulate_global_reevaluation (random_qsc (random_qsc_simple 4)) 7 (mk_sim (one_node qset_new) [] zeros)) = Ok 7 /\
  res_map snd (simulate_global_reevaluation ideal_qsc 7 (mk_sim (one_node qset_new) [] zeros)) = Ok 2.
Proof. vm_compute. auto. Qed.

(** C43. One call: the old validators (or the node itself) are kept, the added ones are new, in range and of positive weight. *)
Theorem C43_configure : forall (p : random_qsc_params) (i : nat) (f : fbas) (r : rng) f' c r' q, node_of f i q ->
  let n := number_of_nodes f in let old := members_before i q in
  (Z.of_nat (Nat.min (desired_quorum_set_size p) n) <= 2 ^ 53)%Z ->
  random_qsc p i f r = Ok (f', c, r') ->
  exists added t, choosable p n old added /\ node_of f' i (QS t (old ++ added) (inner_quorum_sets q)) /\
    (List.length old < desired_quorum_set_size p -> List.length added = Nat.min (desired_quorum_set_size p) n - List.length old /\
        t = requested_threshold p (Nat.min (desired_quorum_set_size p) n) /\ c = Change) /\
    (desired_quorum_set_size p <= List.length old -> added = [] /\ t = threshold q /\ c = NoChange).
Proof. exact random_spec. Qed.
Print Assumptions C43_configure.

(** a panic means that there are not enough nodes of positive weight, and the other way round *)
Theorem C43_panic : forall (p : random_qsc_params) (i : nat) (f : fbas) (r : rng) q, node_of f i q ->
  let n := number_of_nodes f in let old := members_before i q in
  (random_qsc p i f r <> Panic <->
   (List.length old < desired_quorum_set_size p ->
    exists l, List.length l = Nat.min (desired_quorum_set_size p) n - List.length old /\ choosable p n old l)).
Proof. exact random_ok_iff. Qed.
Print Assumptions C43_panic.

(** every admissible choice can be made *)
Theorem C43_every_choice : forall (p : random_qsc_params) (i : nat) (f : fbas) q (added : list nat) (r' : rng), node_of f i q ->
  let n := number_of_nodes f in let old := members_before i q in
  List.length old < desired_quorum_set_size p -> List.length added = Nat.min (desired_quorum_set_size p) n - List.length old -> choosable p n old added ->
  exists r f' t, random_qsc p i f r = Ok (f', Change, r') /\ node_of f' i (QS t (old ++ added) (inner_quorum_sets q)).
Proof. exact random_covers. Qed.
Print Assumptions C43_every_choice.

(** Whole simulations. Missing: the threshold if quorum sets of fewer than two nodes are desired, where it stays 0. *)
Theorem C43_growth_partial : forall (p : random_qsc_params) (k : nat) (s : sim), 1 <= k -> (forall w, In w (weights p) -> 0 < w) ->
  generic_names (sim_fbas s) -> let n := k + number_of_nodes (sim_fbas s) in (Z.of_nat n <= 2 ^ 53)%Z ->
  (forall i q, node_of (sim_fbas s) i q -> random_or_new p (number_of_nodes (sim_fbas s)) i q) ->
  exists s', simulate_growth (random_qsc p) k s = Ok s' /\ generic_names (sim_fbas s') /\ number_of_nodes (sim_fbas s') = n /\
    forall i q, node_of (sim_fbas s') i q -> randomly_configured p n i q.
Proof. exact random_growth. Qed.
Print Assumptions C43_growth_partial.

(** the requested threshold is 1, the node gets threshold 0 and cannot be part of a quorum *)
Theorem C43_threshold_refuted : exists (s : sim) (p : random_qsc_params), desired_threshold p = Some 1 /\ desired_quorum_set_size p = 1 /\
  qsets_of (simulate_growth (random_qsc p) 1 s) = Ok [QS 0 [0] []].
Proof. exact random_threshold_zero. Qed.
Print Assumptions C43_threshold_refuted.

Example C43_example :
  qsets_of (simulate_growth (random_qsc (mk_random_qsc 3 None [1; 2; 1])) 5 (empty_sim counter)) =
    Ok [QS 3 [0; 1; 2] []; QS 3 [1; 0; 2] []; QS 3 [2; 1; 0] []; QS 3 [3; 1; 2] []; QS 3 [4; 1; 2] []] /\
  qsets_of (simulate_growth (random_qsc (mk_random_qsc 3 None [0; 0])) 5 (empty_sim counter)) = Panic.
Proof. vm_compute. auto. Qed.

(** C58 *)
Theorem C58_all_neighbors : forall (g : graph) (thr : option f64) (k : nat) (s : sim), 1 <= k -> wf_graph g -> no_repeated_links g -> generic_names (sim_fbas s) ->
  (forall i q, node_of (sim_fbas s) i q -> q = qset_new) ->
  exists s', simulate_growth (all_neighbors_qsc g thr) k s = Ok s' /\ generic_names (sim_fbas s') /\
    number_of_nodes (sim_fbas s') = k + number_of_nodes (sim_fbas s) /\
    forall i q, node_of (sim_fbas s') i q ->
      (connected g i -> flat_over (fun x => x = i \/ link g i x) thr q) /\ (~ connected g i -> q = qset_new).
Proof. exact all_neighbors_growth. Qed.
Print Assumptions C58_all_neighbors.

(** on a full mesh this is the configuration of [IdealQsc] *)
Theorem C58_full_mesh : forall (m k : nat) (s s' : sim), 2 <= m -> (Z.of_nat m <= 2 ^ 53)%Z -> 1 <= k -> k + number_of_nodes (sim_fbas s) = m ->
  generic_names (sim_fbas s) -> (forall i q, node_of (sim_fbas s) i q -> q = qset_new) ->
  simulate_growth (all_neighbors_qsc (new_full_mesh m) None) k s = Ok s' ->
  all_have (sim_fbas s') (QS (m - (m - 1) / 3) (seq 0 m) []).
Proof. exact mesh_neighbors. Qed.
Print Assumptions C58_full_mesh.

Example C58_example : generic_names (sim_fbas (empty_sim counter)) /\ wf_graph kite /\ no_repeated_links kite /\
  qsets_of (simulate_growth (all_neighbors_qsc kite None) 5 (empty_sim counter)) =
    Ok [QS 3 [0; 1; 2] []; QS 3 [0; 1; 2; 3] []; QS 3 [0; 1; 2] []; QS 2 [1; 3] []; QS 0 [] []].
Proof. split; [apply empty_generic|]. split; [apply kite_wf|]. split; [apply kite_simple|]. vm_compute. reflexivity. Qed.

(** C59 *)
Theorem C59_top_tier : forall (g : graph) (thr : option f64), wf_graph g -> no_repeated_links g -> (Z.of_nat (List.length g) <= 2 ^ 53)%Z ->
  exists scores top, get_rank_scores g = Ok scores /\ new_global_rank_qsc g thr = Ok (global_rank_qsc g top thr) /\
    ascending_list_of (fun x => exists s, nth_error scores x = Some s /\ fltb (average scores) s = true) top.
Proof. exact global_rank_new. Qed.
Print Assumptions C59_top_tier.

Theorem C59_global_rank : forall (g : graph) top (thr : option f64) (k : nat) (s : sim), 1 <= k -> k + number_of_nodes (sim_fbas s) <= List.length g ->
  generic_names (sim_fbas s) -> (forall i q, node_of (sim_fbas s) i q -> q = qset_new) -> NoDup top ->
  exists s', simulate_growth (global_rank_qsc g top thr) k s = Ok s' /\
    let f := sim_fbas s' in let t := calculate_threshold (List.length top) thr in
    number_of_nodes f = k + number_of_nodes (sim_fbas s) /\
    (forall i q, node_of f i q -> ((exists j, link g i j) -> q = QS t top []) /\ ((forall j, ~ link g i j) -> q = qset_new)) /\
    (1 <= t -> forall S, quorum f S <->
       inhabited_set S /\ (forall x, mem x S = true -> x < number_of_nodes f /\ exists j, link g x j) /\ t <= len (inter S (of_list top))).
Proof. exact global_rank_spec. Qed.
Print Assumptions C59_global_rank.

(** scores are not NaN and not negative *)
Theorem C59_scores : forall (g : graph), wf_graph g -> no_repeated_links g -> (Z.of_nat (List.length g) <= 2 ^ 53)%Z ->
  exists scores, get_rank_scores g = Ok scores /\ List.length scores = List.length g /\
    Forall (fun s => fnan s = false /\ fleb fzero s = true) scores.
Proof. exact scores_spec. Qed.
Print Assumptions C59_scores.

Example C59_example : get_top_tier_nodes kite = Ok [0; 1; 2] /\
  qsets_of (Q <- new_global_rank_qsc kite None ;; simulate_growth Q 5 (empty_sim counter)) = Ok (repeat (QS 3 [0; 1; 2] []) 4 ++ [qset_new]) /\
  get_top_tier_nodes (new_full_mesh 3) = Ok [].
Proof. vm_compute. auto. Qed.

(** C60 *)
Theorem C60_scores_used : forall (g : graph) (thr : option f64) (sym : bool), wf_graph g -> no_repeated_links g -> (Z.of_nat (List.length g) <= 2 ^ 53)%Z ->
  exists scores, get_rank_scores g = Ok scores /\ List.length scores = List.length g /\ new_higher_tier_qsc g thr sym = Ok (higher_tier_qsc g scores thr sym).
Proof. exact higher_tier_new. Qed.
Print Assumptions C60_scores_used.

Theorem C60_higher_tier : forall (g : graph) scores (thr : option f64) (k : nat) (s : sim), 1 <= k -> wf_graph g -> no_repeated_links g ->
  List.length scores = List.length g -> generic_names (sim_fbas s) ->
  (forall i q, node_of (sim_fbas s) i q -> connected g i \/ q = qset_new) ->
  exists s', simulate_growth (higher_tier_qsc g scores thr false) k s = Ok s' /\ generic_names (sim_fbas s') /\
    number_of_nodes (sim_fbas s') = k + number_of_nodes (sim_fbas s) /\
    forall i q, node_of (sim_fbas s') i q ->
      (connected g i -> flat_over (fun x => x = i \/ trusted_neighbor g scores i x) thr q) /\ (~ connected g i -> q = qset_new).
Proof. exact higher_tier_growth. Qed.
Print Assumptions C60_higher_tier.

(** with symmetry enforcing, once stable: nodes also list what is listed by those of their choices that list them *)
Theorem C60_symmetric_stable : forall (g : graph) scores (thr : option f64) (max : nat) (s s' : sim) (k : nat), wf_graph g -> no_repeated_links g ->
  List.length scores = List.length g -> simulate_global_reevaluation (higher_tier_qsc g scores thr true) max s = Ok (s', k) -> k < max ->
  forall i q, node_of (sim_fbas s') i q -> connected g i ->
    flat_over (fun x => x = i \/ trusted_neighbor g scores i x \/ exists j, trusted_neighbor g scores i j /\ listed_by (sim_fbas s') i j x) thr q.
Proof. exact symmetric_stable. Qed.
Print Assumptions C60_symmetric_stable.

Example C60_example :
  qsets_of (Q <- new_higher_tier_qsc kite None false ;; simulate_growth Q 5 (empty_sim counter)) =
    Ok [QS 3 [0; 1; 2] []; QS 3 [0; 1; 2] []; QS 3 [0; 1; 2] []; QS 2 [1; 3] []; QS 0 [] []] /\
  res_map snd (Q <- new_higher_tier_qsc kite None true ;; s <- simulate_growth Q 5 (empty_sim counter) ;; simulate_global_reevaluation Q 5 s) = Ok 1.
Proof. vm_compute. auto. Qed.
