(** Model of /repo/src/analysis/preprocessing.rs, of [contains_quorum] (quorums.rs), of
    [find_sets]/[find_minimal_sets] (sets.rs) and of symmetric_clusters.rs. No proofs here. *)
From Verif Require Export M_Sets M_Shrinking.
Local Open Scope list_scope.

(** Behaviours with freedom in the order of results:
    - [scc n nodes succ]: pathfinding 2.0.4 [strongly_connected_components(nodes, succ)]; the extra
      argument [n] is the number of nodes of the FBAS (an executable reference implementation needs it);
    - [rank_sort f l]: [sort_by_rank(l, f)] of preprocessing.rs l.126-131. *)
Record ext := mk_ext {
  scc : nat -> list nat -> (nat -> list nat) -> list (list nat);
  rank_sort : fbas -> list nat -> list nat }.

(** the [while let Some(..) = satisfiable.iter().find(..)] loop of
    preprocessing.rs l.52-58; each iteration removes a member, so [len] is enough fuel *)
Fixpoint satisfiable_loop (fuel : nat) (f : fbas) (satisfiable unsatisfiable : bset) : bset * bset :=
  match find (fun x => negb (sat f x satisfiable)) (elements satisfiable) with
  | None => (satisfiable, unsatisfiable)
  | Some x => match fuel with
              | 0 => (satisfiable, unsatisfiable)
              | S k => satisfiable_loop k f (remove x satisfiable) (insert x unsatisfiable)
              end
  end.

(** preprocessing.rs l.47-60: [find_satisfiable_nodes] *)
Definition find_satisfiable_nodes (node_set : bset) (f : fbas) : bset * bset :=
  let satisfiable := of_list (filter (fun x => sat f x node_set) (elements node_set)) in
  let unsatisfiable := of_list (filter (fun x => negb (sat f x node_set)) (elements node_set)) in
  satisfiable_loop (len satisfiable) f satisfiable unsatisfiable.

(** quorums.rs l.216-226: [contains_quorum] *)
Fixpoint contains_quorum_loop (fuel : nat) (f : fbas) (satisfiable : bset) : bool :=
  match find (fun x => negb (sat f x satisfiable)) (elements satisfiable) with
  | None => negb (is_empty satisfiable)
  | Some x => match fuel with
              | 0 => negb (is_empty satisfiable)
              | S k => contains_quorum_loop k f (remove x satisfiable)
              end
  end.
Definition contains_quorum (node_set : bset) (f : fbas) : bool :=
  contains_quorum_loop (len node_set) f node_set.

(** quorums.rs l.228-232: [complement_contains_quorum] *)
Definition complement_contains_quorum (node_set : bset) (f : fbas) : bool :=
  contains_quorum (diff (all_nodes f) node_set) f.

(** preprocessing.rs l.9-14 *)
Definition satisfiable_nodes (f : fbas) : bset := fst (find_satisfiable_nodes (all_nodes f) f).
Definition unsatisfiable_nodes (f : fbas) : bset := snd (find_satisfiable_nodes (all_nodes f) f).

(** preprocessing.rs l.67-73: [successors] *)
Definition successors (f : fbas) (node_id : nat) : list nat := elements (contained_nodes (qset_of f node_id)).

Section WithExt.
Variable E : ext.

(** preprocessing.rs l.63-80: [partition_into_strongly_connected_components] *)
Definition partition_into_strongly_connected_components (nodes_ : bset) (f : fbas) : list bset :=
  map (fun x => of_list (filter (fun n => mem n nodes_) x))
      (scc E (number_of_nodes f) (elements nodes_) (successors f)).

(** preprocessing.rs l.15-17 *)
Definition strongly_connected_components (f : fbas) : list bset :=
  partition_into_strongly_connected_components (all_nodes f) f.

(** preprocessing.rs l.24-33: [relevant_nodes] *)
Definition relevant_nodes (f : fbas) : bset :=
  fold_left (fun acc c => if contains_quorum c f then union acc c else acc)
            (partition_into_strongly_connected_components (satisfiable_nodes f) f) bempty.

(** sets.rs l.37-74: [find_sets]; the consensus clusters are passed to the finder *)
Definition consensus_clusters (f : fbas) : list bset :=
  filter (fun c => contains_quorum c f)
         (partition_into_strongly_connected_components (fst (find_satisfiable_nodes (all_nodes f) f)) f).
Definition find_sets {R} (f : fbas) (finder : list bset -> fbas -> res (list R)) : res (list R) :=
  finder (consensus_clusters f) f.

(** sets.rs l.26-35: [find_minimal_sets] *)
Definition find_minimal_sets (f : fbas) (finder : list bset -> fbas -> res (list bset)) : res (list bset) :=
  res_map sort_sets (find_sets f finder).

End WithExt.

(** symmetric_clusters.rs l.59-77: the loop of [find_symmetric_clusters_in_node_set]. The map of
    occurrences is an association list with updated entries put in front. *)
Fixpoint symmetric_loop (f : fbas) (ids : list nat) (occ : list (qset * (nat * nat))) (found : list qset) : list qset :=
  match ids with
  | [] => found
  | node_id :: ids' =>
      let q := qset_of f node_id in
      if mem node_id (contained_nodes q) then
        let '(count, goal) := match assoc qset_eqb q occ with
                              | Some (counter, goal) => (S counter, goal)
                              | None => (1, len (contained_nodes q))
                              end in
        symmetric_loop f ids' ((q, (count, goal)) :: occ) (if count =? goal then found ++ [q] else found)
      else symmetric_loop f ids' occ found
  end.

(** symmetric_clusters.rs l.54-79 *)
Definition find_symmetric_clusters_in_node_set (nodes_ : bset) (f : fbas) : list qset :=
  symmetric_loop f (elements nodes_) [] [].

(** symmetric_clusters.rs l.40-52: [find_symmetric_cluster_in_consensus_cluster] with its two asserts *)
Definition find_symmetric_cluster_in_consensus_cluster (cluster : bset) (f : fbas) : res (option qset) :=
  match find_symmetric_clusters_in_node_set cluster f with
  | [] => Ok None
  | q :: rest => assert (match rest with [] => true | _ => false end)
                   (assert (beq (contained_nodes q) cluster) (Ok (Some q)))
  end.

(** symmetric_clusters.rs l.30-38 *)
Definition symmetric_clusters_finder (clusters : list bset) (f : fbas) : res (list qset) :=
  Ok (flat_map (fun c => find_symmetric_clusters_in_node_set c f) clusters).

(** symmetric_clusters.rs l.7-15 *)
Definition find_symmetric_clusters (E : ext) (f : fbas) : res (list qset) := find_sets E f symmetric_clusters_finder.

(** symmetric_clusters.rs l.19-28 *)
Definition find_symmetric_top_tier (E : ext) (f : fbas) : res (option qset) :=
  l <- find_symmetric_clusters E f ;;
  Ok (match l with
      | [q] => if complement_contains_quorum (contained_nodes q) f then None else Some q
      | _ => None
      end).
