(** Model of /repo/src/analysis/quorums.rs. No proofs here. *)
From Verif Require Export M_Preprocessing.
Local Open Scope list_scope.

(** l.210-214: [selection_satisfiable] *)
Definition selection_satisfiable (selection available : bset) (f : fbas) : bool :=
  forallb (fun x => sat f x available) (elements selection).

(** l.234-245: [is_minimal_for_quorum]; the mutable [tester] is threaded through the loop *)
Fixpoint minimal_for_quorum_loop (f : fbas) (ids : list nat) (tester : bset) : bool :=
  match ids with
  | [] => true
  | node_id :: ids' =>
      let tester := remove node_id tester in
      if contains_quorum tester f then false
      else minimal_for_quorum_loop f ids' (insert node_id tester)
  end.
Definition is_minimal_for_quorum (quorum : bset) (f : fbas) : bool :=
  minimal_for_quorum_loop f (elements quorum) quorum.

(** l.59-95: [minimal_quorums_finder_step]. The mutable [selection], [available] and
    [found_quorums] are arguments and results. [unprocessed.pop_front] .. [push_front] around the
    two recursive calls is the recursion on the list; a recursive call leaves [unprocessed] as it
    found it. *)
Fixpoint minimal_quorums_finder_step (f : fbas) (unprocessed : list nat)
    (selection available : bset) (found_quorums : list bset) (selection_changed : bool)
    : bset * bset * list bset :=
  if selection_changed && is_quorum f selection then
    (selection, available,
     if is_minimal_for_quorum selection f then found_quorums ++ [selection] else found_quorums)
  else
    match unprocessed with
    | [] => (selection, available, found_quorums)
    | current_candidate :: unprocessed' =>
        let selection := insert current_candidate selection in
        let '(selection, available, found_quorums) :=
          minimal_quorums_finder_step f unprocessed' selection available found_quorums true in
        let selection := remove current_candidate selection in
        let available := remove current_candidate available in
        let '(selection, available, found_quorums) :=
          if selection_satisfiable selection available f
          then minimal_quorums_finder_step f unprocessed' selection available found_quorums false
          else (selection, available, found_quorums) in
        (selection, insert current_candidate available, found_quorums)
    end.

(** l.99-106: [QuorumSet::to_minimal_quorums] *)
Definition to_minimal_quorums (q : qset) (f : fbas) : list bset :=
  let quorums := to_quorum_slices q in
  if contains_duplicates q
  then remove_non_minimal_x quorums (fun s => is_minimal_for_quorum s f)
  else quorums.

Section WithExt.
Variable E : ext.

(** l.29-58: [minimal_quorums_finder] *)
Fixpoint minimal_quorums_finder_loop (f : fbas) (clusters : list bset) (found_quorums : list bset) : res (list bset) :=
  match clusters with
  | [] => Ok found_quorums
  | nodes_ :: clusters' =>
      o <- find_symmetric_cluster_in_consensus_cluster nodes_ f ;;
      match o with
      | Some symmetric_cluster =>
          minimal_quorums_finder_loop f clusters' (found_quorums ++ to_minimal_quorums symmetric_cluster f)
      | None =>
          let unprocessed := rank_sort E f (elements nodes_) in
          let '(_, _, found_quorums) :=
            minimal_quorums_finder_step f unprocessed bempty (of_list unprocessed) found_quorums true in
          minimal_quorums_finder_loop f clusters' found_quorums
      end
  end.
Definition minimal_quorums_finder (clusters : list bset) (f : fbas) : res (list bset) :=
  minimal_quorums_finder_loop f clusters [].

(** l.4-9: [find_minimal_quorums] *)
Definition find_minimal_quorums (f : fbas) : res (list bset) :=
  find_minimal_sets E f minimal_quorums_finder.

(** l.149-208: [nonintersecting_quorums_finder_step]. Returns the mutable sets
    (selection, available, antiselection) and the result; after a [Some] the sets are abandoned. *)
Fixpoint nonintersecting_step (f : fbas) (unprocessed : list nat)
    (selection available antiselection : bset) (picks_left : nat) (selection_changed : bool)
    : bset * bset * bset * option (bset * bset) :=
  if selection_changed && is_quorum f selection then
    let potential_complement := fst (find_satisfiable_nodes antiselection f) in
    (selection, available, antiselection,
     if negb (is_empty potential_complement) then Some (selection, potential_complement) else None)
  else if picks_left =? 0 then (selection, available, antiselection, None)
  else
    match unprocessed with
    | [] => (selection, available, antiselection, None)
    | current_candidate :: unprocessed' =>
        let selection := insert current_candidate selection in
        let antiselection := remove current_candidate antiselection in
        let '(selection, available, antiselection, r) :=
          nonintersecting_step f unprocessed' selection available antiselection (picks_left - 1) true in
        match r with
        | Some _ => (selection, available, antiselection, r)
        | None =>
            let selection := remove current_candidate selection in
            let antiselection := insert current_candidate antiselection in
            let available := remove current_candidate available in
            let '(selection, available, antiselection, r) :=
              if selection_satisfiable selection available f
              then nonintersecting_step f unprocessed' selection available antiselection picks_left false
              else (selection, available, antiselection, None) in
            match r with
            | Some _ => (selection, available, antiselection, r)
            | None => (selection, insert current_candidate available, antiselection, None)
            end
        end
    end.

(** l.109-148: [nonintersecting_quorums_finder] with its three asserts *)
Definition nonintersecting_quorums_finder (clusters : list bset) (f : fbas) : res (list bset) :=
  if 1 <? List.length clusters then
    Ok (map (fun c => fst (find_satisfiable_nodes c f)) clusters)
  else
    let nodes_ := match clusters with [] => bempty | c :: _ => c end in
    let unprocessed := rank_sort E f (elements nodes_) in
    let available := of_list unprocessed in
    let '(_, available, _, r) :=
      nonintersecting_step f unprocessed bempty available available (List.length unprocessed / 2) true in
    match r with
    | Some (a, b) => assert (is_quorum f a && is_quorum f b) (assert (disjoint a b) (Ok [a; b]))
    | None => assert (is_quorum f available) (Ok [available])
    end.

(** l.14-27: [find_nonintersecting_quorums] *)
Definition find_nonintersecting_quorums (f : fbas) : res (option (list bset)) :=
  quorums <- find_sets E f nonintersecting_quorums_finder ;;
  Ok (if List.length quorums <? 2 then None else Some quorums).

End WithExt.
