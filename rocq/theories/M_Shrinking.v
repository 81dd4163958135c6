(** Model of /repo/src/core_types/shrinking.rs l.1-137. No proofs here. *)
From Verif Require Export M_Core.
Local Open Scope list_scope.

(** l.7-10: [ShrinkManager] *)
Record shrink_manager := mk_sm { unshrink_table : list nat; shrink_map : list (nat * nat) }.

(** [enumerate] *)
Definition enumerate {A} (l : list A) : list (nat * A) := combine (seq 0 (List.length l)) l.

(** l.12-23: [ShrinkManager::new] *)
Definition sm_new (ids_to_keep : bset) : shrink_manager :=
  mk_sm (elements ids_to_keep)
        (map (fun p => (snd p, fst p)) (enumerate (elements ids_to_keep))).

(** l.58-64: [shrink_set]; [unwrap] panics on an unmapped id *)
Definition shrink_set_with (m : list (nat * nat)) (s : bset) : res bset :=
  res_map of_list (mapM (fun id => unwrap (assoc Nat.eqb id m)) (elements s)).
(** l.66-74: [shrink_sets] *)
Definition shrink_sets_with (m : list (nat * nat)) (l : list bset) : res (list bset) :=
  mapM (shrink_set_with m) l.
(** l.76-78: [unshrink_set]; indexing panics out of range *)
Definition unshrink_set_with (table : list nat) (s : bset) : res bset :=
  res_map of_list (mapM (fun id => unwrap (nth_error table id)) (elements s)).
(** l.80-85: [unshrink_sets] *)
Definition unshrink_sets_with (table : list nat) (l : list bset) : res (list bset) :=
  mapM (unshrink_set_with table) l.

(** l.24-35 *)
Definition shrink_set (sm : shrink_manager) := shrink_set_with (shrink_map sm).
Definition shrink_sets (sm : shrink_manager) := shrink_sets_with (shrink_map sm).
Definition unshrink_set (sm : shrink_manager) := unshrink_set_with (unshrink_table sm).
Definition unshrink_sets (sm : shrink_manager) := unshrink_sets_with (unshrink_table sm).

(** [filter_map] *)
Fixpoint filter_map {A B} (g : A -> option B) (l : list A) : list B :=
  match l with
  | [] => []
  | a :: l' => match g a with Some b => b :: filter_map g l' | None => filter_map g l' end
  end.

(** l.36-52: [reshrink_sets] *)
Definition reshrink_map (new old : shrink_manager) : list (nat * nat) :=
  filter_map (fun p => let '(current_id, original_id) := p in
                       option_map (fun new_id => (current_id, new_id)) (assoc Nat.eqb original_id (shrink_map new)))
             (enumerate (unshrink_table old)).
Definition reshrink_sets (new : shrink_manager) (l : list bset) (old : shrink_manager) : res (list bset) :=
  shrink_sets_with (reshrink_map new old) l.

(** l.111-136: [QuorumSet::shrunken] *)
Fixpoint qset_shrunken (m : list (nat * nat)) (q : qset) : qset :=
  let 'QS t vs is_ := q in
  let vs' := sort_by Nat.compare (filter_map (fun old_id => assoc Nat.eqb old_id m) vs) in
  let is' := sort_by qset_compare
               (filter (fun i => negb (qset_eqb i qset_new)) (map (qset_shrunken m) is_)) in
  QS t vs' is'.

(** l.103-108: [Node::shrunken] *)
Definition node_shrunken (m : list (nat * nat)) (n : node) : node :=
  mk_node (node_pk n) (qset_shrunken m (node_qset n)).

(** l.88-100: [Fbas::shrunken]. Only [nodes] is overwritten, so [pk_to_id] keeps the generic names. *)
Definition overwrite (f : fbas) (m : list (nat * nat)) (ns : list node) (old_id : nat) : list node :=
  match assoc Nat.eqb old_id m, nth_error (nodes f) old_id with
  | Some new_id, Some n => update new_id (node_shrunken m n) ns
  | _, _ => ns
  end.
Definition shrunken (f : fbas) (ids_to_keep : bset) : res (fbas * shrink_manager) :=
  let sm := sm_new ids_to_keep in
  g <- new_generic_unconfigured (List.length (unshrink_table sm)) ;;
  Ok (mk_fbas (fold_left (overwrite f (shrink_map sm)) (seq 0 (List.length (nodes f))) (nodes g)) (pk_to_id g), sm).
