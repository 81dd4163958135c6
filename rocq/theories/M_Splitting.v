(** Model of /repo/src/analysis/splitting_sets.rs. No proofs here. *)
From Verif Require Export M_Blocking.
Local Open Scope list_scope.

(** l.205-206: [2 * self.threshold] as [usize] of 64 bits; [n] is the number of entries of the quorum set, which is below
    2^63, so that nothing overflows if the threshold is at most [n] *)
Definition doubled (n t : nat) : nat := if t <=? n then 2 * t else N.to_nat ((2 * N.of_nat t) mod 2 ^ 64).
(** l.204-210: [splitting_threshold] *)
Definition splitting_threshold (q : qset) : nat :=
  let 'QS t vs is_ := q in
  let n := List.length vs + List.length is_ in
  if n <? doubled n t then doubled n t - n else 0.

(** l.134-154: [QuorumSet::is_slice_intersection] *)
Fixpoint is_slice_intersection (q : qset) (node_set : bset) : bool :=
  let 'QS t vs is_ := q in
  let st := splitting_threshold (QS t vs is_) in
  if st =? 0 then true
  else
    let found_validator_matches := List.length (firstn st (filter (fun x => mem x node_set) vs)) in
    let found_inner_quorum_set_matches :=
      List.length (firstn (st - found_validator_matches)
                     (filter (fun x => is_slice_intersection x node_set) is_)) in
    found_validator_matches + found_inner_quorum_set_matches =? st.

(** l.224-228: [has_potential] *)
Definition has_potential (selection available : bset) (f : fbas) : bool :=
  forallb (fun x => is_slice_intersection (qset_of f x) available) (elements selection).

(** l.213-221: [is_quorum_intersection] *)
Definition is_quorum_intersection (selection : bset) (f : fbas) (relevant_quorum_parts : list bset) : bool :=
  negb (is_empty selection) && has_potential selection selection f && negb (all_intersect relevant_quorum_parts).

(** l.65-126: [splitting_sets_finder_step]; results are (selection, available, found_splitting_sets) *)
Fixpoint splitting_sets_finder_step (f : fbas) (unprocessed : list nat)
    (selection available : bset) (found : list bset) (relevant_quorum_parts : list bset)
    (selection_changed : bool) : bset * bset * list bset :=
  if List.length relevant_quorum_parts <? 2 then (selection, available, found)
  else if selection_changed && is_quorum_intersection selection f relevant_quorum_parts then
    (selection, available, found ++ [selection])
  else
    match unprocessed with
    | [] => (selection, available, found)
    | current_candidate :: unprocessed' =>
        let selection := insert current_candidate selection in
        let parts_with_select :=
          map (remove current_candidate) (filter (fun q => mem current_candidate q) relevant_quorum_parts) in
        let '(selection, available, found) :=
          splitting_sets_finder_step f unprocessed' selection available found parts_with_select true in
        let selection := remove current_candidate selection in
        let available := remove current_candidate available in
        let parts_for_available := filter (fun q => negb (disjoint q available)) relevant_quorum_parts in
        let '(selection, available, found) :=
          if has_potential selection available f
          then splitting_sets_finder_step f unprocessed' selection available found parts_for_available false
          else (selection, available, found) in
        (selection, insert current_candidate available, found)
    end.

(** l.166-203: [to_splitting_sets] *)
Fixpoint to_splitting_sets (q : qset) : list bset :=
  let 'QS t vs is_ := q in
  let potential_splitting_sets :=
    combine_groups (splitting_threshold (QS t vs is_))
      (map (fun node_id => [of_list [node_id]]) vs ++ map to_splitting_sets is_) in
  match potential_splitting_sets with
  | [s] => if is_quorum_slice (QS t vs is_) s then [] else [s]
  | l => l
  end.

(** l.156-163: [to_minimal_splitting_sets] *)
Definition to_minimal_splitting_sets (q : qset) : list bset :=
  let splitting_sets := to_splitting_sets q in
  if contains_duplicates q then remove_non_minimal_node_sets splitting_sets else splitting_sets.

Section WithExt.
Variable E : ext.

(** l.19-64: [minimal_splitting_sets_finder] *)
Fixpoint minimal_splitting_sets_finder (minimal_quorums : list bset) (clusters : list bset) (f : fbas) : res (list bset) :=
  match clusters with
  | [] => Ok []
  | nodes_ :: clusters' =>
      o <- find_symmetric_cluster_in_consensus_cluster nodes_ f ;;
      let here :=
        match o with
        | Some symmetric_cluster => to_minimal_splitting_sets symmetric_cluster
        | None =>
            let unprocessed := rank_sort E f (elements nodes_) in
            let '(_, _, found) :=
              splitting_sets_finder_step f unprocessed bempty (of_list unprocessed) [] minimal_quorums true in
            remove_non_minimal_node_sets found
        end in
      rest <- minimal_splitting_sets_finder minimal_quorums clusters' f ;;
      Ok (here ++ rest)
  end.

(** l.7-17: [find_minimal_splitting_sets] *)
Definition find_minimal_splitting_sets (f : fbas) (minimal_quorums : list bset) : res (list bset) :=
  find_minimal_sets E f (minimal_splitting_sets_finder minimal_quorums).

End WithExt.
