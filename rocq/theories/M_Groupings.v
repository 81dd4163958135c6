(** Model of /repo/src/core_types/groupings.rs, /repo/src/analysis/merge_by_group.rs,
    /repo/src/core_types/shrinking.rs l.139-167 and of the remaining methods of
    /repo/src/analysis/results.rs and /repo/src/io/results.rs. No proofs here. *)
From Verif Require Export M_FrontEnd.
Local Open Scope list_scope.

(** groupings.rs l.13-17: [Grouping] *)
Record grouping := mk_grouping { g_name : string; g_validators : list nat }.

(** groupings.rs l.6-12: [Groupings]; the hash map is an association list *)
Record groupings := mk_groupings {
  g_groupings : list grouping;
  g_merged_ids : list nat;
  g_node_id_to_org_idx : list (nat * nat);
  g_fbas : fbas }.

(** groupings.rs l.27-30: the loop over the members after the first; indexing panics out of range *)
Fixpoint add_members (merged_id org_idx : nat) (vs : list nat) (st : list nat * list (nat * nat))
  : res (list nat * list (nat * nat)) :=
  match vs with
  | [] => Ok st
  | v :: vs' =>
      let '(ids, m) := st in
      assert (v <? List.length ids) (add_members merged_id org_idx vs' (update v merged_id ids, (v, org_idx) :: m))
  end.
(** groupings.rs l.23-32: the loop over the groups *)
Fixpoint add_groups (org_idx : nat) (gs : list grouping) (st : list nat * list (nat * nat))
  : res (list nat * list (nat * nat)) :=
  match gs with
  | [] => Ok st
  | g :: gs' =>
      st' <- (match g_validators g with
              | [] => Ok st
              | merged_id :: vs => add_members merged_id org_idx vs (fst st, (merged_id, org_idx) :: snd st)
              end) ;;
      add_groups (S org_idx) gs' st'
  end.
(** groupings.rs l.19-39: [Groupings::new] *)
Definition groupings_new (gs : list grouping) (f : fbas) : res groupings :=
  st <- add_groups 0 gs (seq 0 (number_of_nodes f), []) ;;
  Ok (mk_groupings gs (fst st) (snd st) f).

(** groupings.rs l.40-46: [get_by_member] *)
Definition get_by_member (g : groupings) (node_id : nat) : res (option grouping) :=
  match assoc Nat.eqb node_id (g_node_id_to_org_idx g) with
  | Some org_idx => res_map Some (unwrap (nth_error (g_groupings g) org_idx))
  | None => Ok None
  end.
(** groupings.rs l.47-49: [get_by_name] *)
Definition get_by_name (g : groupings) (name : string) : option grouping :=
  find (fun org => String.eqb (g_name org) name) (g_groupings g).
(** groupings.rs l.50-52 *)
Definition number_of_groupings (g : groupings) : nat := List.length (g_groupings g).

(** merge_by_group.rs l.5-7: [merge_node] *)
Definition merge_node (g : groupings) (node_id : nat) : res nat := unwrap (nth_error (g_merged_ids g) node_id).
(** merge_by_group.rs l.9-11: [merge_node_set] *)
Definition merge_node_set (g : groupings) (s : bset) : res bset := res_map of_list (mapM (merge_node g) (elements s)).
(** merge_by_group.rs l.13-18: [merge_node_sets] *)
Definition merge_node_sets (g : groupings) (l : list bset) : res (list bset) := mapM (merge_node_set g) l.
(** merge_by_group.rs l.21-23: [merge_minimal_node_sets] *)
Definition merge_minimal_node_sets (g : groupings) (l : list bset) : res (list bset) :=
  res_map remove_non_minimal_node_sets (merge_node_sets g l).

(** merge_by_group.rs l.46-49 *)
Definition collapse (t : nat) (vs : list nat) (is_ : list qset) : qset :=
  match vs with
  | [] => QS t vs is_
  | v :: _ => if forallb (fun w => w =? v) vs then QS 1 [v] is_ else QS t vs is_
  end.
(** [q.validators.len() == 1] *)
Definition single (q : qset) : bool := List.length (validators q) =? 1.
(** merge_by_group.rs l.26-55: [merge_quorum_set] *)
Fixpoint merge_quorum_set (g : groupings) (q : qset) : res qset :=
  let 'QS t vs is_ := q in
  vs' <- mapM (merge_node g) vs ;;
  merged <- (fix go (l : list qset) : res (list qset) :=
               match l with
               | [] => Ok []
               | i :: l' => i' <- merge_quorum_set g i ;; r <- go l' ;; Ok (i' :: r)
               end) is_ ;;
  let new_validator_candidates := filter single merged in
  let inner := filter (fun i => negb (single i)) merged in
  new_validators <- mapM (fun i => unwrap (nth_error (validators i) 0)) new_validator_candidates ;;
  Ok (collapse t (vs' ++ new_validators) inner).
(** merge_by_group.rs l.57-62: [merge_quorum_sets] *)
Definition merge_quorum_sets (g : groupings) (l : list qset) : res (list qset) := mapM (merge_quorum_set g) l.

(** shrinking.rs l.154-166: [Grouping::shrunken] *)
Definition grouping_shrunken (m : list (nat * nat)) (g : grouping) : grouping :=
  mk_grouping (g_name g)
              (sort_by Nat.compare (filter_map (fun old_id => assoc Nat.eqb old_id m) (g_validators g))).
(** shrinking.rs l.140-151: [Groupings::shrunken] *)
Definition groupings_shrunken (g : groupings) (sm : shrink_manager) (shrunken_fbas : fbas) : res groupings :=
  groupings_new (map (grouping_shrunken (shrink_map sm)) (g_groupings g)) shrunken_fbas.

(** ** results.rs: [NodeIdSetResult] (only the payload is kept, as in [set_result_new]) *)

(** l.19-21: [into_vec] *)
Definition sr_into_vec (s : bset) : list nat := elements s.
(** l.31-37: [without_nodes] *)
Definition sr_without_nodes (s : bset) (ids : list nat) : bset := fold_left (fun s x => remove x s) ids s.
(** l.52-56: [merged_by_group] *)
Definition sr_merged_by_group (s : bset) (g : groupings) : res bset := merge_node_set g s.

(** ** results.rs: [NodeIdSetVecResult] *)

(** l.88-90 *)
Definition vr_len (r : vec_result) : nat := List.length (node_sets r).
(** l.91-93 *)
Definition vr_is_empty (r : vec_result) : bool := match node_sets r with [] => true | _ => false end.
(** [Iterator::min] and [max], with [unwrap_or(0)] *)
Definition min_or_0 (l : list nat) : nat := match l with [] => 0 | a :: l' => fold_left Nat.min l' a end.
Definition max_or_0 (l : list nat) : nat := match l with [] => 0 | a :: l' => fold_left Nat.max l' a end.
(** l.111-113: [min] *)
Definition vr_min (r : vec_result) : nat := min_or_0 (map len (node_sets r)).
(** l.115-117: [max] *)
Definition vr_max (r : vec_result) : nat := max_or_0 (map len (node_sets r)).
(** l.128-136: [histogram]; [checked_add] cannot overflow since the counts are bounded by the
    length of the vector *)
Definition histogram_loop (h : list nat) (size : nat) : res (list nat) :=
  c <- unwrap (nth_error h size) ;; Ok (update size (c + 1) h).
Fixpoint foldM {A B} (k : A -> B -> res A) (a : A) (l : list B) : res A :=
  match l with [] => Ok a | b :: l' => a' <- k a b ;; foldM k a' l' end.
Definition vr_histogram (r : vec_result) : res (list nat) :=
  foldM histogram_loop (repeat 0 (vr_max r + 1)) (map len (node_sets r)).
(** l.140-145: [merged_by_group] *)
Definition vr_merged_by_group (r : vec_result) (g : groupings) : res vec_result :=
  r' <- vr_unshrink r ;;
  sets <- merge_node_sets g (node_sets r') ;;
  Ok (mk_vec_result sets (vr_unshrink_table r')).

(** l.182-184: [from_public_keys] *)
Definition from_public_keys (names : list string) (f : fbas) : list nat := filter_map (get_node_id f) names.
(** l.185-199: [from_grouping_names] *)
Definition from_grouping_names (names : list string) (f : fbas) (g : groupings) : list nat :=
  flat_map (fun name => match get_by_name g name with
                        | Some org => g_validators org
                        | None => match get_node_id f name with Some id => [id] | None => [] end
                        end) names.
Definition ids_of_names (names : list string) (f : fbas) (g : option groupings) : list nat :=
  match g with Some orgs => from_grouping_names names f orgs | None => from_public_keys names f end.
(** l.161-173: [without_nodes_pretty] *)
Definition vr_without_nodes_pretty (r : vec_result) (names : list string) (f : fbas) (g : option groupings) : res vec_result :=
  vr_without_nodes r (ids_of_names names f g).
(** l.38-50: [without_nodes_pretty] *)
Definition sr_without_nodes_pretty (s : bset) (names : list string) (f : fbas) (g : option groupings) : bset :=
  sr_without_nodes s (ids_of_names names f g).

(** ** io/results.rs *)

(** l.195-201: [to_public_keys] *)
Definition to_public_key (f : fbas) (id : nat) : res string := res_map node_pk (unwrap (nth_error (nodes f) id)).
Definition to_public_keys (ids : list nat) (f : fbas) : res (list string) := mapM (to_public_key f) ids.
(** l.202-215: [to_grouping_names] *)
Definition to_grouping_name (f : fbas) (g : groupings) (id : nat) : res string :=
  o <- get_by_member g id ;;
  match o with Some org => Ok (g_name org) | None => to_public_key f id end.
Definition to_grouping_names (ids : list nat) (f : fbas) (g : groupings) : res (list string) :=
  mapM (to_grouping_name f g) ids.
Definition to_names (ids : list nat) (f : fbas) (g : option groupings) : res (list string) :=
  match g with Some orgs => to_grouping_names ids f orgs | None => to_public_keys ids f end.
(** l.158-164: [NodeIdSetResult::into_pretty_vec] *)
Definition sr_into_pretty_vec (s : bset) (f : fbas) (g : option groupings) : res (list string) :=
  to_names (elements s) f g.
(** l.171-192: [NodeIdSetVecResult::into_pretty_vec_vec] *)
Definition vr_into_pretty_vec_vec (r : vec_result) (f : fbas) (g : option groupings) : res (list (list string)) :=
  mapM (fun s =>
          s' <- (match vr_unshrink_table r with Some table => unshrink_set_with table s | None => Ok s end) ;;
          sr_into_pretty_vec s' f g) (node_sets r).

(** l.6-11: [PrettyQuorumSet] *)
Inductive pretty_qset := PQS (threshold : nat) (validators : list string) (inner_quorum_sets : list pretty_qset).

(** l.118-150: [into_pretty_quorum_set]. Every level is merged again before it is printed, so the
    recursion is not structural; [fuel] bounds the nesting depth. *)
Fixpoint qset_depth (q : qset) : nat :=
  let 'QS _ _ is_ := q in S (fold_right Nat.max 0 (map qset_depth is_)).
Fixpoint pretty_quorum_set (fuel : nat) (q : qset) (f : fbas) (g : option groupings) : res pretty_qset :=
  match fuel with
  | 0 => Panic
  | S fuel' =>
      q' <- (match g with Some orgs => merge_quorum_set orgs q | None => Ok q end) ;;
      let 'QS t vs is_ := q' in
      vs' <- to_names vs f g ;;
      is' <- mapM (fun i => pretty_quorum_set fuel' i f g) is_ ;;
      Ok (PQS t vs' is')
  end.
Definition into_pretty_quorum_set (q : qset) (f : fbas) (g : option groupings) : res pretty_qset :=
  pretty_quorum_set (qset_depth q) q f g.
