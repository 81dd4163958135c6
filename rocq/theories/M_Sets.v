(** Model of the set-list functions of /repo/src/analysis/sets.rs. No proofs here. *)
From Verif Require Export M_Core.
Local Open Scope list_scope.

(** l.17-23: [involved_nodes] *)
Definition involved_nodes (node_sets : list bset) : bset := unions node_sets.

(** l.10-14: every set against all later ones *)
Fixpoint all_pairs_intersect (l : list bset) : bool :=
  match l with
  | [] => true
  | x :: l' => forallb (fun y => negb (disjoint x y)) l' && all_pairs_intersect l'
  end.

(** l.3-15: [all_intersect] *)
Definition all_intersect (node_sets : list bset) : bool :=
  let max_size := len (involved_nodes node_sets) in
  if forallb (fun x => max_size / 2 <? len x) node_sets then true
  else all_pairs_intersect node_sets.

(** l.32-34: [sort_unstable] followed by the stable [sort_by_key(len)] *)
Definition sort_sets (l : list bset) : list bset :=
  sort_by (fun a b => Nat.compare (len a) (len b)) (sort_by bset_compare l).

(** l.143-151: one bucket; [minimal] are the sets kept from earlier (shorter) buckets *)
Definition filter_bucket (minimal : list bset) (bucket : list bset) : list bset :=
  filter (fun node_set => forallb (fun x => negb (subset x node_set)) minimal) bucket.

(** l.134-156: [remove_non_minimal_node_sets_from_buckets] *)
Fixpoint minimal_from_buckets (minimal : list bset) (buckets : list (list bset)) : list bset :=
  match buckets with
  | [] => minimal
  | bucket :: buckets' => minimal_from_buckets (minimal ++ filter_bucket minimal bucket) buckets'
  end.

(** l.77-99: [remove_non_minimal_node_sets] *)
Definition remove_non_minimal_node_sets (node_sets : list bset) : list bset :=
  let ns := dedup beq (sort_by bset_compare node_sets) in
  let max_len_upper_bound := fold_left Nat.max (map len ns) 0 + 1 in
  let buckets := map (fun k => filter (fun s => len s =? k) ns) (seq 0 max_len_upper_bound) in
  minimal_from_buckets [] buckets.

(** l.101-123: [remove_non_minimal_x]; the last line is a [debug_assert!] *)
Definition remove_non_minimal_x (node_sets : list bset) (is_minimal : bset -> bool) : list bset :=
  filter is_minimal node_sets.

(** l.125-132: [is_set_of_minimal_node_sets] *)
Definition is_set_of_minimal_node_sets (node_sets : list bset) : bool :=
  forallb (fun p => forallb (fun r => (fst p =? fst r) || negb (subset (snd p) (snd r)))
                            (combine (seq 0 (List.length node_sets)) node_sets))
          (combine (seq 0 (List.length node_sets)) node_sets).
