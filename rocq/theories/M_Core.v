(** Model of /repo/src/core_types/{quorum_set,fbas}.rs. No proofs here. *)
From Coq Require Export String.
From Coq Require Import DecimalString DecimalNat.
From Verif Require Export ListUtil.
Local Open Scope list_scope.

(** quorum_set.rs l.6-12: [QuorumSet] *)
Inductive qset := QS (threshold : nat) (validators : list nat) (inner_quorum_sets : list qset).

Definition threshold (q : qset) : nat := let 'QS t _ _ := q in t.
Definition validators (q : qset) : list nat := let 'QS _ vs _ := q in vs.
Definition inner_quorum_sets (q : qset) : list qset := let 'QS _ _ is_ := q in is_.

(** quorum_set.rs l.14-20: [QuorumSet::new] *)
Definition qset_new : qset := QS 0 [] [].

(** derived [PartialEq] *)
Fixpoint qset_eqb (a b : qset) {struct a} : bool :=
  match a, b with
  | QS t1 v1 i1, QS t2 v2 i2 =>
      (t1 =? t2) && (if list_eq_dec Nat.eq_dec v1 v2 then true else false) &&
      (fix eqs (l1 l2 : list qset) {struct l1} : bool :=
         match l1, l2 with
         | [], [] => true
         | x :: l1', y :: l2' => qset_eqb x y && eqs l1' l2'
         | _, _ => false
         end) i1 i2
  end.

(** derived [Ord] (quorum_set.rs l.4): threshold, then validators, then inner quorum sets *)
Fixpoint qset_compare (a b : qset) {struct a} : comparison :=
  match a, b with
  | QS t1 v1 i1, QS t2 v2 i2 =>
      match Nat.compare t1 t2 with
      | Eq => match lex_compare Nat.compare v1 v2 with
              | Eq => (fix cmps (l1 l2 : list qset) {struct l1} : comparison :=
                         match l1, l2 with
                         | [], [] => Eq
                         | [], _ => Lt
                         | _, [] => Gt
                         | x :: l1', y :: l2' => match qset_compare x y with Eq => cmps l1' l2' | c => c end
                         end) i1 i2
              | c => c
              end
      | c => c
      end
  end.

(** quorum_set.rs l.83-89: [contained_nodes_with_duplicates] *)
Fixpoint contained_nodes_with_duplicates (q : qset) : list nat :=
  let 'QS _ vs is_ := q in vs ++ flat_map contained_nodes_with_duplicates is_.

(** quorum_set.rs l.21-23: [contained_nodes] *)
Definition contained_nodes (q : qset) : bset := of_list (contained_nodes_with_duplicates q).

(** quorum_set.rs l.25-29: [contains_duplicates] *)
Definition contains_duplicates (q : qset) : bool :=
  let nodes_vec := contained_nodes_with_duplicates q in
  let nodes_set := of_list nodes_vec in
  negb (List.length nodes_vec =? len nodes_set).

(** quorum_set.rs l.30-49: [QuorumSet::is_quorum_slice]; [filter .. take .. count] *)
Fixpoint is_quorum_slice (q : qset) (node_set : bset) : bool :=
  let 'QS t vs is_ := q in
  if t =? 0 then false
  else
    let found_validator_matches := List.length (firstn t (filter (fun x => mem x node_set) vs)) in
    let found_inner_quorum_set_matches :=
      List.length (firstn (t - found_validator_matches)
                     (filter (fun x => is_quorum_slice x node_set) is_)) in
    found_validator_matches + found_inner_quorum_set_matches =? t.

(** quorum_set.rs l.64-81 (also blocking_sets.rs l.140-157 and splitting_sets.rs l.178-195):
    combinations of [k] groups, the unions over the cartesian product of each *)
Definition combine_groups (k : nat) (subslice_groups : list (list bset)) : list bset :=
  flat_map (fun group_combination => map unions (multi_cartesian_product group_combination))
           (combinations k subslice_groups).

(** quorum_set.rs l.52-82: [to_quorum_slices] *)
Fixpoint to_quorum_slices (q : qset) : list bset :=
  let 'QS t vs is_ := q in
  let subslice_groups := map (fun node_id => [of_list [node_id]]) vs ++ map to_quorum_slices is_ in
  combine_groups t subslice_groups.

(** ** fbas.rs *)

Definition public_key := string.

(** fbas.rs l.135-139: [Node] *)
Record node := mk_node { node_pk : public_key; node_qset : qset }.

(** fbas.rs l.48-52: [Fbas]; the hash map is an association list *)
Record fbas := mk_fbas { nodes : list node; pk_to_id : list (public_key * nat) }.

(** fbas.rs l.55-60: [Fbas::new] *)
Definition fbas_new : fbas := mk_fbas [] [].

(** fbas.rs l.153-155: [generate_generic_node_name] *)
Definition generate_generic_node_name (node_id : nat) : string :=
  String.append "n" (NilZero.string_of_uint (Nat.to_uint node_id)).

(** fbas.rs l.69-80: [add_node]. The map insertion happens first; an existing key panics. *)
Definition add_node (f : fbas) (n : node) : res (fbas * nat) :=
  let node_id := List.length (nodes f) in
  match assoc String.eqb (node_pk n) (pk_to_id f) with
  | Some _ => Panic
  | None => Ok (mk_fbas (nodes f ++ [n]) ((node_pk n, node_id) :: pk_to_id f), node_id)
  end.

(** fbas.rs l.82-89: [add_generic_node] *)
Definition add_generic_node (f : fbas) (q : qset) : res (fbas * nat) :=
  let node_id := List.length (nodes f) in
  add_node f (mk_node (generate_generic_node_name node_id) q).

(** fbas.rs l.62-68: [new_generic_unconfigured] *)
Fixpoint add_generic_nodes (n : nat) (f : fbas) : res fbas :=
  match n with
  | 0 => Ok f
  | S n' => r <- add_generic_node f qset_new ;; add_generic_nodes n' (fst r)
  end.
Definition new_generic_unconfigured (n : nat) : res fbas := add_generic_nodes n fbas_new.

(** fbas.rs l.90-92 *)
Definition get_node_id (f : fbas) (pk : public_key) : option nat := assoc String.eqb pk (pk_to_id f).
(** fbas.rs l.93-95 *)
Definition get_quorum_set (f : fbas) (node_id : nat) : option qset :=
  option_map node_qset (nth_error (nodes f) node_id).
(** fbas.rs l.96-99: [swap_quorum_set]; panics on an invalid id *)
Definition swap_quorum_set (f : fbas) (node_id : nat) (q : qset) : res (fbas * qset) :=
  match nth_error (nodes f) node_id with
  | None => Panic
  | Some n => Ok (mk_fbas (update node_id (mk_node (node_pk n) q) (nodes f)) (pk_to_id f), node_qset n)
  end.
(** fbas.rs l.100-102 *)
Definition number_of_nodes (f : fbas) : nat := List.length (nodes f).
(** fbas.rs l.103-105 *)
Definition all_nodes (f : fbas) : bset := below (List.length (nodes f)).

(** [fbas.nodes[x].quorum_set]; the code panics for an [x] that is no node, the model gives the
    empty quorum set. All theorems about callers assume ids in range ([wf_fbas]). *)
Definition qset_of (f : fbas) (x : nat) : qset :=
  match nth_error (nodes f) x with Some n => node_qset n | None => qset_new end.

(** [fbas.nodes[x].is_quorum_slice(s)]: fbas.rs l.148-150 *)
Definition sat (f : fbas) (x : nat) (s : bset) : bool := is_quorum_slice (qset_of f x) s.

(** fbas.rs l.106-111: [Fbas::is_quorum], for sets of valid ids *)
Definition is_quorum (f : fbas) (node_set : bset) : bool :=
  negb (is_empty node_set) && forallb (fun x => sat f x node_set) (elements node_set).

(** the same with the index panic made visible: [all] stops at the first [false] *)
Fixpoint all_res (p : nat -> res bool) (l : list nat) : res bool :=
  match l with
  | [] => Ok true
  | x :: l' => b <- p x ;; if b : bool then all_res p l' else Ok false
  end.
Definition is_quorum_checked (f : fbas) (node_set : bset) : res bool :=
  if is_empty node_set then Ok false
  else all_res (fun x => match nth_error (nodes f) x with
                         | Some n => Ok (is_quorum_slice (node_qset n) node_set)
                         | None => Panic
                         end) (elements node_set).

(** Sequences of the builder calls above (fbas.rs l.69-99). *)
Inductive build_call :=
| B_add_node (n : node)
| B_add_generic_node (q : qset)
| B_swap_quorum_set (node_id : nat) (q : qset).

Definition build (f : fbas) (b : build_call) : res fbas :=
  match b with
  | B_add_node n => res_map fst (add_node f n)
  | B_add_generic_node q => res_map fst (add_generic_node f q)
  | B_swap_quorum_set i q => res_map fst (swap_quorum_set f i q)
  end.

Fixpoint build_all (f : fbas) (l : list build_call) : res fbas :=
  match l with
  | [] => Ok f
  | b :: l' => f' <- build f b ;; build_all f' l'
  end.

