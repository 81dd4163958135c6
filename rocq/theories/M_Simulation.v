(** Model of /repo/src/simulation/{mod,monitors}.rs, /repo/src/simulation/qsc/ and the scores of
    /repo/src/simulation/graph.rs. No proofs here. *)
From Coq Require Import ZArith.
From Flocq Require Import IEEE754.BinarySingleNaN.
From Verif Require Export M_SimGraph M_Float.
Local Open Scope list_scope.

(** ** mod.rs *)

(** l.105-108: [ChangeEffect] *)
Inductive change_effect := Change | NoChange.
(** l.110-112: [had_change] *)
Definition had_change (c : change_effect) : bool := match c with Change => true | NoChange => false end.
(** l.113-117: [update] *)
Definition update_change (any other : change_effect) : change_effect :=
  match any with NoChange => other | Change => Change end.
(** l.95-101: [Event] *)
Inductive event :=
| AddNode (node_id : nat)
| StartGlobalReevaluation
| StartGlobalReevaluationRound
| FinishGlobalReevaluation (number_of_rounds : nat)
| QuorumSetChange (node_id : nat) (change : change_effect).

(** l.82-84: [QuorumSetConfigurator]; [configure] may draw random numbers *)
Definition configurator := nat -> fbas -> rng -> res (fbas * change_effect * rng).

(** l.15-19: [Simulator], with the events registered so far (as by [DebugMonitor], monitors.rs l.13-34)
    and the state of the random number generator *)
Record sim := mk_sim { sim_fbas : fbas; sim_log : list event; sim_rng : rng }.
Definition register_event (e : event) (s : sim) : sim := mk_sim (sim_fbas s) (sim_log s ++ [e]) (sim_rng s).

(** l.69-79: [simulate_global_reevaluation_round] *)
Definition reevaluation_step (Q : configurator) (state : sim * change_effect) (node_id : nat) : res (sim * change_effect) :=
  let '(s, any_change) := state in
  fcr <- Q node_id (sim_fbas s) (sim_rng s) ;;
  let '(f, change, r) := fcr in
  Ok (mk_sim f (sim_log s ++ [QuorumSetChange node_id change]) r, update_change any_change change).
Definition simulate_global_reevaluation_round (Q : configurator) (order : list nat) (s : sim) : res (sim * change_effect) :=
  foldM (reevaluation_step Q) (register_event StartGlobalReevaluationRound s, NoChange) order.

(** l.57-61: the loop, [fuel] more rounds being allowed *)
Fixpoint reevaluation_rounds (fuel : nat) (Q : configurator) (order : list nat) (next_round_number : nat) (s : sim) : res (sim * nat) :=
  match fuel with
  | 0 => Ok (s, next_round_number)
  | S fuel' =>
      let '(order, r) := shuffle order (sim_rng s) in
      sc <- simulate_global_reevaluation_round Q order (mk_sim (sim_fbas s) (sim_log s) r) ;;
      let '(s, change) := sc in
      if had_change change then reevaluation_rounds fuel' Q order (next_round_number + 1) s
      else Ok (s, next_round_number + 1)
  end.
(** l.47-67: [simulate_global_reevaluation] *)
Definition simulate_global_reevaluation (Q : configurator) (maximum_number_of_rounds : nat) (s : sim) : res (sim * nat) :=
  let order := range 0 (number_of_nodes (sim_fbas s)) in
  sn <- reevaluation_rounds maximum_number_of_rounds Q order 0 (register_event StartGlobalReevaluation s) ;;
  let '(s, number_of_rounds) := sn in
  Ok (register_event (FinishGlobalReevaluation number_of_rounds) s, number_of_rounds).

(** l.34-41: [simulate_growth] *)
Definition grow_by_one (Q : configurator) (s : sim) : res sim :=
  fi <- add_generic_node (sim_fbas s) qset_new ;;
  let '(f, node_id) := fi in
  fcr <- Q node_id f (sim_rng s) ;;
  let '(f, _, r) := fcr in
  let s := register_event (AddNode node_id) (mk_sim f (sim_log s) r) in
  res_map fst (simulate_global_reevaluation Q (number_of_nodes (sim_fbas s)) s).
Fixpoint simulate_growth (Q : configurator) (nodes_to_spawn : nat) (s : sim) : res sim :=
  match nodes_to_spawn with
  | 0 => Ok s
  | S k => s' <- grow_by_one Q s ;; simulate_growth Q k s'
  end.

(** ** qsc *)

(** qsc/mod.rs l.18-24: [DummyQsc] *)
Definition dummy_qsc : configurator := fun _ f r => Ok (f, NoChange, r).

(** [fbas.nodes[node_id].quorum_set] *)
Definition get_qset (f : fbas) (node_id : nat) : res qset := unwrap (get_quorum_set f node_id).
(** [fbas.nodes[node_id].quorum_set = q] *)
Definition set_qset (f : fbas) (node_id : nat) (q : qset) : res fbas := res_map fst (swap_quorum_set f node_id q).
(** the common end of several configurators *)
Definition replace_if_different (f : fbas) (node_id : nat) (candidate : qset) (r : rng) : res (fbas * change_effect * rng) :=
  existing <- get_qset f node_id ;;
  if qset_eqb candidate existing then Ok (f, NoChange, r)
  else f' <- set_qset f node_id candidate ;; Ok (f', Change, r).

(** qsc/ideal.rs l.27-53: [IdealQsc] *)
Definition ideal_configuration (f : fbas) : qset :=
  let n := number_of_nodes f in QS (calculate_67p_threshold n) (range 0 n) [].
Definition ideal_qsc : configurator := fun node_id f r => replace_if_different f node_id (ideal_configuration f) r.

(** qsc/super_safe.rs l.26-52: [SuperSafeQsc] *)
Definition super_safe_configuration (f : fbas) : qset :=
  let n := number_of_nodes f in QS n (range 0 n) [].
Definition super_safe_qsc : configurator := fun node_id f r => replace_if_different f node_id (super_safe_configuration f) r.

(** qsc/random.rs l.3-25: [RandomQsc] *)
Record random_qsc_params := mk_random_qsc {
  desired_quorum_set_size : nat;
  desired_threshold : option nat;
  weights : list nat }.
Definition random_qsc_simple (desired_quorum_set_size : nat) : random_qsc_params := mk_random_qsc desired_quorum_set_size None [].
(** l.53-62: the loop. [available_nodes] is ascending, so that the binary search finds the chosen node. *)
Fixpoint choose_nodes (weights : list nat) (count : nat) (available_nodes chosen : list nat) (r : rng) : res (list nat * rng) :=
  match count with
  | 0 => Ok (chosen, r)
  | S count' =>
      let '(choice, r') := choose_weighted (fun node_id => nth node_id weights 1) available_nodes r in
      chosen_node <- unwrap choice ;;
      choose_nodes weights count' (filter (fun x => negb (x =? chosen_node)) available_nodes) (chosen ++ [chosen_node]) r'
  end.
(** l.26-70: [configure]; in case of [NoChange] the validators may have been set to the node itself *)
Definition random_qsc (p : random_qsc_params) : configurator := fun node_id f r =>
  let n := number_of_nodes f in
  existing <- get_qset f node_id ;;
  let vs := match validators existing with [] => [node_id] | vs => vs end in
  let current_quorum_set_size := List.length vs in
  if current_quorum_set_size <? desired_quorum_set_size p then
    let target_quorum_set_size := Nat.min (desired_quorum_set_size p) n in
    let threshold := match desired_threshold p with
                     | Some t => t
                     | None => calculate_67p_threshold target_quorum_set_size
                     end in
    let used_nodes := of_list vs in
    let available_nodes := filter (fun x => negb (mem x used_nodes)) (range 0 n) in
    vr <- choose_nodes (weights p) (target_quorum_set_size - current_quorum_set_size) available_nodes vs r ;;
    f' <- set_qset f node_id (QS threshold (fst vr) (inner_quorum_sets existing)) ;;
    Ok (f', Change, snd vr)
  else
    f' <- set_qset f node_id (QS (threshold existing) vs (inner_quorum_sets existing)) ;;
    Ok (f', NoChange, r).

(** qsc/graph_based/all_neighbors.rs l.4-54: [AllNeighborsQsc] *)
Definition with_self (node_id : nat) (vs : list nat) : list nat :=
  sort_by Nat.compare (if existsb (Nat.eqb node_id) vs then vs else vs ++ [node_id]).
Definition all_neighbors_qsc (g : graph) (relative_threshold : option f64) : configurator := fun node_id f r =>
  existing <- get_qset f node_id ;;
  if mem node_id (get_connected_nodes g) && qset_eqb existing qset_new then
    neighbors <- unwrap (nth_error g node_id) ;;
    let vs := with_self node_id neighbors in
    f' <- set_qset f node_id (QS (calculate_threshold (List.length vs) relative_threshold)
                                 (validators existing ++ vs) (inner_quorum_sets existing)) ;;
    Ok (f', Change, r)
  else Ok (f, NoChange, r).

(** graph.rs l.206-236: [get_rank_scores] *)
Definition fabs (x : f64) : f64 := Babs x.
(** [f64::max] *)
Definition fmax (x y : f64) : f64 := if fnan x then y else if fltb x y then y else x.
Definition graph_rank_run (g : graph) (last_scores : list f64) : res (list f64) :=
  foldM (fun scores '(i, outlinks) =>
           foldM (fun scores j =>
                    last <- unwrap (nth_error last_scores i) ;;
                    old <- unwrap (nth_error scores j) ;;
                    set_at j (fadd old (fdiv last (f64_of_nat (List.length outlinks)))) scores)
                 scores outlinks)
        (repeat fzero (List.length g)) (enumerate g).
Fixpoint graph_rank_runs (runs : nat) (g : graph) (epsilon : f64) (scores : list f64) : res (list f64) :=
  match runs with
  | 0 => Ok scores
  | S runs' =>
      let last_scores := scores in
      scores <- graph_rank_run g last_scores ;;
      if forallb (fun '(x, y) => fltb (fabs (fsub x y)) epsilon) (combine scores last_scores) then Ok scores
      else graph_rank_runs runs' g epsilon scores
  end.
Definition get_rank_scores (g : graph) : res (list f64) :=
  let n := List.length g in
  let starting_score := fdiv (f64_of_nat 1) (f64_of_nat n) in
  let max_runs := Nat.max (2 * n) 1000 in
  let epsilon := fmax (fdiv starting_score (f64_of_nat n)) (fdiv (f64_of_nat 1) (f64_of_Z 100000)) in
  graph_rank_runs max_runs g epsilon (repeat starting_score n).

(** qsc/graph_based/global_ranking_based.rs l.23-37: [get_top_tier_nodes] *)
Definition get_top_tier_nodes (g : graph) : res (list nat) :=
  let n := List.length g in
  rank_scores <- get_rank_scores g ;;
  let average_rank_score := fdiv (fold_left fadd rank_scores fzero) (f64_of_nat n) in
  Ok (filter (fun i => match nth_error rank_scores i with Some x => fltb average_rank_score x | None => false end) (range 0 n)).
(** l.4-17: [GlobalRankQsc], l.39-55: [configure] *)
Definition global_rank_qsc (g : graph) (top_tier_nodes : list nat) (relative_threshold : option f64) : configurator := fun node_id f r =>
  existing <- get_qset f node_id ;;
  if qset_eqb existing qset_new then
    outlinks <- unwrap (nth_error g node_id) ;;
    match outlinks with
    | [] => Ok (f, NoChange, r)
    | _ =>
        let vs := top_tier_nodes in
        f' <- set_qset f node_id (QS (calculate_threshold (List.length vs) relative_threshold) vs (inner_quorum_sets existing)) ;;
        Ok (f', Change, r)
    end
  else Ok (f, NoChange, r).
Definition new_global_rank_qsc (g : graph) (relative_threshold : option f64) : res configurator :=
  top_tier_nodes <- get_top_tier_nodes g ;; Ok (global_rank_qsc g top_tier_nodes relative_threshold).

(** qsc/graph_based/relative_tierness_based.rs l.4-45: [HigherTierNeighborsQsc], [get_neighbors_by_tierness];
    a missing score panics *)
Definition partition_res (p : nat -> res bool) (l : list nat) : res (list nat * list nat) :=
  foldM (fun '(yes, no) x => b <- p x ;; Ok (if b : bool then (yes ++ [x], no) else (yes, no ++ [x]))) ([], []) l.
Definition get_neighbors_by_tierness (g : graph) (rank_scores : list f64) (node_id : nat) : res (list nat * list nat * list nat) :=
  own_rank_score <- unwrap (nth_error rank_scores node_id) ;;
  neighbors <- unwrap (nth_error g node_id) ;;
  let is_higher_tier := fun i => s <- unwrap (nth_error rank_scores i) ;; Ok (fleb (fmul (f64_of_nat 2) own_rank_score) s) in
  ho <- partition_res is_higher_tier neighbors ;;
  let is_lower_tier := fun i => s <- unwrap (nth_error rank_scores i) ;; Ok (fleb (fmul (f64_of_nat 2) s) own_rank_score) in
  ls <- partition_res is_lower_tier (snd ho) ;;
  Ok (fst ho, snd ls, fst ls).
(** l.71-84: symmetry enforcing *)
Definition corrected_validators (f : fbas) (node_id : nat) (vs : list nat) : list nat :=
  elements (fold_left (fun corrected i =>
                         let corrected := insert i corrected in
                         match nth_error (nodes f) i with
                         | Some other_node =>
                             let other_validators := contained_nodes (node_qset other_node) in
                             if mem node_id other_validators then union corrected other_validators else corrected
                         | None => corrected
                         end) vs bempty).
(** l.56-111: [configure] *)
Definition higher_tier_qsc (g : graph) (rank_scores : list f64) (relative_threshold : option f64) (symmetry_enforcing : bool) : configurator :=
  fun node_id f r =>
  if negb (mem node_id (get_connected_nodes g)) then Ok (f, NoChange, r)
  else
    hsl <- get_neighbors_by_tierness g rank_scores node_id ;;
    let '(higher_tier_neighbors, same_tier_neighbors, _) := hsl in
    let vs := match higher_tier_neighbors with [] => same_tier_neighbors | _ => higher_tier_neighbors end in
    let vs := if symmetry_enforcing then corrected_validators f node_id vs else vs in
    let vs := with_self node_id vs in
    replace_if_different f node_id (QS (calculate_threshold (List.length vs) relative_threshold) vs []) r.
Definition new_higher_tier_qsc (g : graph) (relative_threshold : option f64) (symmetry_enforcing : bool) : res configurator :=
  rank_scores <- get_rank_scores g ;; Ok (higher_tier_qsc g rank_scores relative_threshold symmetry_enforcing).
