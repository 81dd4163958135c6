(** Model of /repo/src/analysis/blocking_sets.rs. No proofs here. *)
From Verif Require Export M_Quorums.
Local Open Scope list_scope.

(** l.190-192: [is_blocked_set] *)
Definition is_blocked_set (nodes_ : bset) (f : fbas) : bool := negb (contains_quorum nodes_ f).

(** l.173-188: [is_minimal_for_blocking_set_with_precomputed_blocked_set] *)
Fixpoint minimal_for_blocking_loop (f : fbas) (ids : list nat) (tester : bset) : bool :=
  match ids with
  | [] => true
  | node_id :: ids' =>
      let tester := insert node_id tester in
      if is_blocked_set tester f then false
      else minimal_for_blocking_loop f ids' (remove node_id tester)
  end.
Definition is_minimal_for_blocking_set_with_precomputed_blocked_set
    (blocking_set blocked_set : bset) (f : fbas) : bool :=
  minimal_for_blocking_loop f (elements blocking_set) blocked_set.

(** l.168-172: [is_minimal_for_blocking_set]. As in the code, [blocked_set] is computed but the
    blocking set itself is passed on (l.171). *)
Definition is_minimal_for_blocking_set (blocking_set : bset) (f : fbas) : bool :=
  let blocked_set := diff (all_nodes f) blocking_set in
  is_minimal_for_blocking_set_with_precomputed_blocked_set blocking_set blocking_set f.

(** l.66-114: [minimal_blocking_sets_finder_step]; results are
    (selection, remaining, max_remaining, found_blocking_sets) *)
Fixpoint minimal_blocking_sets_finder_step (f : fbas) (unprocessed : list nat)
    (selection remaining max_remaining : bset) (found : list bset) (selection_changed : bool)
    : bset * bset * bset * list bset :=
  if selection_changed && is_blocked_set remaining f then
    (selection, remaining, max_remaining,
     if is_minimal_for_blocking_set_with_precomputed_blocked_set selection remaining f
     then found ++ [selection] else found)
  else
    match unprocessed with
    | [] => (selection, remaining, max_remaining, found)
    | current_candidate :: unprocessed' =>
        let selection := insert current_candidate selection in
        let remaining := remove current_candidate remaining in
        let '(selection, remaining, max_remaining, found) :=
          minimal_blocking_sets_finder_step f unprocessed' selection remaining max_remaining found true in
        let selection := remove current_candidate selection in
        let remaining := insert current_candidate remaining in
        let max_remaining := insert current_candidate max_remaining in
        let '(selection, remaining, max_remaining, found) :=
          if is_blocked_set max_remaining f
          then minimal_blocking_sets_finder_step f unprocessed' selection remaining max_remaining found false
          else (selection, remaining, max_remaining, found) in
        (selection, remaining, remove current_candidate max_remaining, found)
    end.

(** l.159-165: [blocking_threshold] *)
Definition blocking_threshold (q : qset) : nat :=
  let 'QS t vs is_ := q in
  if t <=? List.length vs + List.length is_
  then List.length vs + List.length is_ - t + 1
  else 0.

(** l.128-158: [to_blocking_sets] *)
Fixpoint to_blocking_sets (q : qset) : list bset :=
  let 'QS t vs is_ := q in
  combine_groups (blocking_threshold (QS t vs is_))
    (map (fun node_id => [of_list [node_id]]) vs ++ map to_blocking_sets is_).

(** l.118-125: [to_minimal_blocking_sets] *)
Definition to_minimal_blocking_sets (q : qset) (f : fbas) : list bset :=
  let blocking_sets := to_blocking_sets q in
  if contains_duplicates q
  then remove_non_minimal_x blocking_sets (fun s => is_minimal_for_blocking_set s f)
  else blocking_sets.

Section WithExt.
Variable E : ext.

(** l.17-52: the loop of [minimal_blocking_sets_finder] *)
Definition blocking_sets_in_cluster (f : fbas) (nodes_ : bset) : res (list bset) :=
  o <- find_symmetric_cluster_in_consensus_cluster nodes_ f ;;
  match o with
  | Some symmetric_cluster => Ok (to_minimal_blocking_sets symmetric_cluster f)
  | None =>
      let unprocessed := rank_sort E f (elements nodes_) in
      let '(_, _, _, found) :=
        minimal_blocking_sets_finder_step f unprocessed bempty (of_list unprocessed) bempty [] true in
      Ok found
  end.

(** l.16-65: [minimal_blocking_sets_finder] *)
Definition minimal_blocking_sets_finder (clusters : list bset) (f : fbas) : res (list bset) :=
  per_cluster <- mapM (blocking_sets_in_cluster f) clusters ;;
  Ok (map unions (multi_cartesian_product per_cluster)).

(** l.6-14: [find_minimal_blocking_sets] *)
Definition find_minimal_blocking_sets (f : fbas) : res (list bset) :=
  find_minimal_sets E f minimal_blocking_sets_finder.

End WithExt.
