(** Model of the analysis in a debug build, that is, of the functions of /repo/src/analysis that
    contain a [debug_assert!] or call one that does. Apart from the assertions they are the
    functions modelled in M_Sets, M_Quorums, M_Blocking, M_Splitting and M_FrontEnd, where a
    [debug_assert!] does nothing, and of the functions that double a threshold, which panics in a debug build
    if the result does not fit into 64 bits, see [doubled]. (The debug assertions of simulation/graph.rs are part of
    M_SimGraph.) No proofs here. *)
From Coq Require Import NArith.
From Verif Require Export M_Splitting M_FrontEnd.
Local Open Scope list_scope.

(** [debug_assert!(is_set_of_minimal_node_sets(&l)); l] *)
Definition check_minimal (l : list bset) : res (list bset) := assert (is_set_of_minimal_node_sets l) (Ok l).

(** sets.rs l.77-99 and 134-156, with l.154 *)
Definition remove_non_minimal_node_sets_d (node_sets : list bset) : res (list bset) :=
  check_minimal (remove_non_minimal_node_sets node_sets).
(** sets.rs l.101-123, with l.121 *)
Definition remove_non_minimal_x_d (node_sets : list bset) (is_minimal : bset -> bool) : res (list bset) :=
  check_minimal (remove_non_minimal_x node_sets is_minimal).

(** quorums.rs l.99-106 *)
Definition to_minimal_quorums_d (q : qset) (f : fbas) : res (list bset) :=
  let quorums := to_quorum_slices q in
  if contains_duplicates q
  then remove_non_minimal_x_d quorums (fun s => is_minimal_for_quorum s f)
  else Ok quorums.

(** quorums.rs l.149-208, with l.158.. *)
Fixpoint nonintersecting_step_d (f : fbas) (unprocessed : list nat)
    (selection available antiselection : bset) (picks_left : nat) (selection_changed : bool)
    : res (bset * bset * bset * option (bset * bset)) :=
  assert (disjoint selection antiselection)
  (if selection_changed && is_quorum f selection then
    let potential_complement := fst (find_satisfiable_nodes antiselection f) in
    Ok (selection, available, antiselection,
        if negb (is_empty potential_complement) then Some (selection, potential_complement) else None)
  else if picks_left =? 0 then Ok (selection, available, antiselection, None)
  else
    match unprocessed with
    | [] => Ok (selection, available, antiselection, None)
    | current_candidate :: unprocessed' =>
        let selection := insert current_candidate selection in
        let antiselection := remove current_candidate antiselection in
        st <- nonintersecting_step_d f unprocessed' selection available antiselection (picks_left - 1) true ;;
        let '(selection, available, antiselection, r) := st in
        match r with
        | Some _ => Ok (selection, available, antiselection, r)
        | None =>
            let selection := remove current_candidate selection in
            let antiselection := insert current_candidate antiselection in
            let available := remove current_candidate available in
            st <- (if selection_satisfiable selection available f
                   then nonintersecting_step_d f unprocessed' selection available antiselection picks_left false
                   else Ok (selection, available, antiselection, None)) ;;
            let '(selection, available, antiselection, r) := st in
            match r with
            | Some _ => Ok (selection, available, antiselection, r)
            | None => Ok (selection, insert current_candidate available, antiselection, None)
            end
        end
    end).

(** blocking_sets.rs l.118-125 *)
Definition to_minimal_blocking_sets_d (q : qset) (f : fbas) : res (list bset) :=
  let blocking_sets := to_blocking_sets q in
  if contains_duplicates q
  then remove_non_minimal_x_d blocking_sets (fun s => is_minimal_for_blocking_set s f)
  else Ok blocking_sets.

(** splitting_sets.rs l.204-210, where [2 * self.threshold] is checked for overflow *)
Definition splitting_threshold_d (q : qset) : res nat :=
  let 'QS t vs is_ := q in assert (N.of_nat t <? 2 ^ 63)%N (Ok (splitting_threshold (QS t vs is_))).

(** [l.iter().filter(p).take(k).count()]: [p] is not called any more after [k] hits *)
Definition count_up_to {A} (p : A -> res bool) : nat -> list A -> res nat :=
  fix count (k : nat) (l : list A) {struct l} : res nat :=
    match l with
    | [] => Ok 0
    | x :: l' =>
        if k =? 0 then Ok 0
        else b <- p x ;; if b : bool then n <- count (k - 1) l' ;; Ok (S n) else count k l'
    end.
(** [l.iter().all(p)]: [p] is not called any more after a failure *)
Fixpoint all_hold {A} (p : A -> res bool) (l : list A) : res bool :=
  match l with
  | [] => Ok true
  | x :: l' => b <- p x ;; if b : bool then all_hold p l' else Ok false
  end.

(** splitting_sets.rs l.134-154 *)
Fixpoint is_slice_intersection_d (q : qset) (node_set : bset) : res bool :=
  let 'QS t vs is_ := q in
  st <- splitting_threshold_d (QS t vs is_) ;;
  if st =? 0 then Ok true
  else
    let found_validator_matches := List.length (firstn st (filter (fun x => mem x node_set) vs)) in
    found_inner_quorum_set_matches <-
      count_up_to (fun x => is_slice_intersection_d x node_set) (st - found_validator_matches) is_ ;;
    Ok (found_validator_matches + found_inner_quorum_set_matches =? st).

(** splitting_sets.rs l.224-228 *)
Definition has_potential_d (selection available : bset) (f : fbas) : res bool :=
  all_hold (fun x => is_slice_intersection_d (qset_of f x) available) (elements selection).

(** splitting_sets.rs l.213-221 *)
Definition is_quorum_intersection_d (selection : bset) (f : fbas) (relevant_quorum_parts : list bset) : res bool :=
  if is_empty selection then Ok false
  else b <- has_potential_d selection selection f ;; Ok (b && negb (all_intersect relevant_quorum_parts)).

(** splitting_sets.rs l.65-126 *)
Fixpoint splitting_sets_finder_step_d (f : fbas) (unprocessed : list nat)
    (selection available : bset) (found : list bset) (relevant_quorum_parts : list bset)
    (selection_changed : bool) : res (bset * bset * list bset) :=
  if List.length relevant_quorum_parts <? 2 then Ok (selection, available, found)
  else
    intersection <- (if selection_changed then is_quorum_intersection_d selection f relevant_quorum_parts else Ok false) ;;
    if intersection : bool then Ok (selection, available, found ++ [selection])
    else
      match unprocessed with
      | [] => Ok (selection, available, found)
      | current_candidate :: unprocessed' =>
          let selection := insert current_candidate selection in
          let parts_with_select :=
            map (remove current_candidate) (filter (fun q => mem current_candidate q) relevant_quorum_parts) in
          st <- splitting_sets_finder_step_d f unprocessed' selection available found parts_with_select true ;;
          let '(selection, available, found) := st in
          let selection := remove current_candidate selection in
          let available := remove current_candidate available in
          let parts_for_available := filter (fun q => negb (disjoint q available)) relevant_quorum_parts in
          potential <- has_potential_d selection available f ;;
          st <- (if potential : bool
                 then splitting_sets_finder_step_d f unprocessed' selection available found parts_for_available false
                 else Ok (selection, available, found)) ;;
          let '(selection, available, found) := st in
          Ok (selection, insert current_candidate available, found)
      end.

(** [mapM], in a form that allows for recursive calls *)
Definition of_each {A B} (h : A -> res B) : list A -> res (list B) :=
  fix each (l : list A) : res (list B) :=
    match l with
    | [] => Ok []
    | x :: l' => y <- h x ;; ys <- each l' ;; Ok (y :: ys)
    end.
(** splitting_sets.rs l.166-203 *)
Fixpoint to_splitting_sets_d (q : qset) : res (list bset) :=
  let 'QS t vs is_ := q in
  inner <- of_each to_splitting_sets_d is_ ;;
  st <- splitting_threshold_d (QS t vs is_) ;;
  let potential_splitting_sets := combine_groups st (map (fun node_id => [of_list [node_id]]) vs ++ inner) in
  Ok (match potential_splitting_sets with
      | [s] => if is_quorum_slice (QS t vs is_) s then [] else [s]
      | l => l
      end).

(** splitting_sets.rs l.156-163 *)
Definition to_minimal_splitting_sets_d (q : qset) : res (list bset) :=
  splitting_sets <- to_splitting_sets_d q ;;
  if contains_duplicates q then remove_non_minimal_node_sets_d splitting_sets else Ok splitting_sets.

Section WithExt.
Variable E : ext.

(** sets.rs l.26-35, with l.31 *)
Definition find_minimal_sets_d (f : fbas) (finder : list bset -> fbas -> res (list bset)) : res (list bset) :=
  sets <- find_sets E f finder ;;
  sets <- check_minimal sets ;;
  Ok (sort_sets sets).

(** quorums.rs l.29-58 *)
Fixpoint minimal_quorums_finder_loop_d (f : fbas) (clusters : list bset) (found_quorums : list bset) : res (list bset) :=
  match clusters with
  | [] => Ok found_quorums
  | nodes_ :: clusters' =>
      o <- find_symmetric_cluster_in_consensus_cluster nodes_ f ;;
      match o with
      | Some symmetric_cluster =>
          quorums <- to_minimal_quorums_d symmetric_cluster f ;;
          minimal_quorums_finder_loop_d f clusters' (found_quorums ++ quorums)
      | None =>
          let unprocessed := rank_sort E f (elements nodes_) in
          let '(_, _, found_quorums) :=
            minimal_quorums_finder_step f unprocessed bempty (of_list unprocessed) found_quorums true in
          minimal_quorums_finder_loop_d f clusters' found_quorums
      end
  end.
(** quorums.rs l.4-9 *)
Definition find_minimal_quorums_d (f : fbas) : res (list bset) :=
  find_minimal_sets_d f (fun clusters f => minimal_quorums_finder_loop_d f clusters []).

(** quorums.rs l.109-148 *)
Definition nonintersecting_quorums_finder_d (clusters : list bset) (f : fbas) : res (list bset) :=
  if 1 <? List.length clusters then
    Ok (map (fun c => fst (find_satisfiable_nodes c f)) clusters)
  else
    let nodes_ := match clusters with [] => bempty | c :: _ => c end in
    let unprocessed := rank_sort E f (elements nodes_) in
    let available := of_list unprocessed in
    st <- nonintersecting_step_d f unprocessed bempty available available (List.length unprocessed / 2) true ;;
    let '(_, available, _, r) := st in
    match r with
    | Some (a, b) => assert (is_quorum f a && is_quorum f b) (assert (disjoint a b) (Ok [a; b]))
    | None => assert (is_quorum f available) (Ok [available])
    end.
(** quorums.rs l.14-27 *)
Definition find_nonintersecting_quorums_d (f : fbas) : res (option (list bset)) :=
  quorums <- find_sets E f nonintersecting_quorums_finder_d ;;
  Ok (if List.length quorums <? 2 then None else Some quorums).

(** blocking_sets.rs l.17-52 *)
Definition blocking_sets_in_cluster_d (f : fbas) (nodes_ : bset) : res (list bset) :=
  o <- find_symmetric_cluster_in_consensus_cluster nodes_ f ;;
  match o with
  | Some symmetric_cluster => to_minimal_blocking_sets_d symmetric_cluster f
  | None =>
      let unprocessed := rank_sort E f (elements nodes_) in
      let '(_, _, _, found) :=
        minimal_blocking_sets_finder_step f unprocessed bempty (of_list unprocessed) bempty [] true in
      Ok found
  end.
(** blocking_sets.rs l.16-65 *)
Definition minimal_blocking_sets_finder_d (clusters : list bset) (f : fbas) : res (list bset) :=
  per_cluster <- mapM (blocking_sets_in_cluster_d f) clusters ;;
  Ok (map unions (multi_cartesian_product per_cluster)).
(** blocking_sets.rs l.6-14 *)
Definition find_minimal_blocking_sets_d (f : fbas) : res (list bset) :=
  find_minimal_sets_d f minimal_blocking_sets_finder_d.

(** splitting_sets.rs l.19-64 *)
Fixpoint minimal_splitting_sets_finder_d (minimal_quorums : list bset) (clusters : list bset) (f : fbas) : res (list bset) :=
  match clusters with
  | [] => Ok []
  | nodes_ :: clusters' =>
      o <- find_symmetric_cluster_in_consensus_cluster nodes_ f ;;
      here <- match o with
              | Some symmetric_cluster => to_minimal_splitting_sets_d symmetric_cluster
              | None =>
                  let unprocessed := rank_sort E f (elements nodes_) in
                  st <- splitting_sets_finder_step_d f unprocessed bempty (of_list unprocessed) [] minimal_quorums true ;;
                  let '(_, _, found) := st in
                  remove_non_minimal_node_sets_d found
              end ;;
      rest <- minimal_splitting_sets_finder_d minimal_quorums clusters' f ;;
      Ok (here ++ rest)
  end.
(** splitting_sets.rs l.7-17 *)
Definition find_minimal_splitting_sets_d (f : fbas) (minimal_quorums : list bset) : res (list bset) :=
  find_minimal_sets_d f (minimal_splitting_sets_finder_d minimal_quorums).

(** ** front_end.rs: as in M_FrontEnd, with the functions above *)

(** l.113-120 with l.154-203 *)
Definition minimal_quorums_shrunken_d (a : analysis) : res (list bset * analysis) :=
  match mq_cache a with
  | Some v => Ok (v, a)
  | None =>
      let should_shrink := is_none (mq_cache a) && is_none (mbs_cache a) in
      result <- find_minimal_quorums_d (fbas_shrunken a) ;;
      let a := set_mq a (Some result) in
      a <- (if should_shrink then shrink_id_space_to_top_tier a else Ok a) ;;
      v <- unwrap (mq_cache a) ;;
      Ok (v, a)
  end.
(** l.121-128 *)
Definition minimal_blocking_sets_shrunken_d (a : analysis) : res (list bset * analysis) :=
  match mbs_cache a with
  | Some v => Ok (v, a)
  | None =>
      let should_shrink := is_none (mq_cache a) && is_none (mbs_cache a) in
      result <- find_minimal_blocking_sets_d (fbas_shrunken a) ;;
      let a := set_mbs a (Some result) in
      a <- (if should_shrink then shrink_id_space_to_top_tier a else Ok a) ;;
      v <- unwrap (mbs_cache a) ;;
      Ok (v, a)
  end.
(** l.102-112 *)
Definition has_quorum_intersection_d (a : analysis) : res (bool * analysis) :=
  match hqi_cache a with
  | Some v => Ok (v, a)
  | None =>
      r <- minimal_quorums_shrunken_d a ;;
      let '(quorums, a) := r in
      let result := negb (match quorums with [] => true | _ => false end) && all_intersect quorums in
      Ok (result, set_hqi a (Some result))
  end.
(** l.129-143 *)
Definition minimal_splitting_sets_shrunken_d (a : analysis) : res (list bset * analysis) :=
  r <- minimal_quorums_shrunken_d a ;;
  let '(minimal_quorums, a) := r in
  match mss_cache a with
  | Some v => Ok (v, a)
  | None =>
      let f := fbas_shrunken a in
      r <- has_quorum_intersection_d a ;;
      let '(hqi, a) := r in
      result <- (if hqi : bool then find_minimal_splitting_sets_d f minimal_quorums else Ok [bempty]) ;;
      let a := set_mss a (Some result) in
      v <- unwrap (mss_cache a) ;;
      Ok (v, a)
  end.
(** l.144-152 *)
Definition top_tier_shrunken_d (a : analysis) : res (bset * analysis) :=
  if negb (is_none (mq_cache a)) || is_none (mbs_cache a)
  then r <- minimal_quorums_shrunken_d a ;; Ok (involved_nodes (fst r), snd r)
  else r <- minimal_blocking_sets_shrunken_d a ;; Ok (involved_nodes (fst r), snd r).
(** l.61-73 *)
Definition alternative_check_d (a : analysis) : res (bool * option vec_result) :=
  o <- find_nonintersecting_quorums_d (fbas_shrunken a) ;;
  match o with
  | Some quorums =>
      q0 <- unwrap (nth_error quorums 0) ;;
      q1 <- unwrap (nth_error quorums 1) ;;
      assert (disjoint q0 q1) (Ok (false, Some (vec_result_new quorums (Some (a_sm a)))))
  | None => Ok (true, None)
  end.

(** l.41-100 *)
Definition perform_d (a : analysis) (c : call) : res (answer * analysis) :=
  match c with
  | AllNodes => Ok (ASet (all_nodes (fbas_original a)), a)
  | SatisfiableNodes => Ok (ASet (satisfiable_nodes (fbas_original a)), a)
  | UnsatisfiableNodes => Ok (ASet (unsatisfiable_nodes (fbas_original a)), a)
  | HasQuorumIntersection => r <- has_quorum_intersection_d a ;; Ok (ABool (fst r), snd r)
  | AlternativeCheck => r <- alternative_check_d a ;; Ok (AAlternative (fst r) (snd r), a)
  | MinimalQuorums => res_map vec_answer (minimal_quorums_shrunken_d a)
  | MinimalBlockingSets => res_map vec_answer (minimal_blocking_sets_shrunken_d a)
  | MinimalSplittingSets => res_map vec_answer (minimal_splitting_sets_shrunken_d a)
  | TopTier =>
      r <- top_tier_shrunken_d a ;;
      s <- set_result_new (fst r) (Some (a_sm (snd r))) ;;
      Ok (ASet s, snd r)
  | SymmetricTopTier => q <- find_symmetric_top_tier E (fbas_original a) ;; Ok (AQset q, a)
  | SymmetricClusters => l <- find_symmetric_clusters E (fbas_original a) ;; Ok (AQsets l, a)
  end.
Fixpoint perform_all_d (a : analysis) (cs : list call) : res (list answer * analysis) :=
  match cs with
  | [] => Ok ([], a)
  | c :: cs' =>
      r <- perform_d a c ;;
      r' <- perform_all_d (snd r) cs' ;;
      Ok (fst r :: fst r', snd r')
  end.
Definition analyze_d (f : fbas) (cs : list call) : res (list answer) :=
  a <- analysis_new E f ;; res_map fst (perform_all_d a cs).

End WithExt.
