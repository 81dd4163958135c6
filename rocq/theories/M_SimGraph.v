(** Model of /repo/src/simulation/graph.rs (without the floating point scores, see [M_Simulation.v]).
    No proofs here. *)
From Verif Require Export M_Groupings.
Local Open Scope list_scope.

(** ** rand 0.7. A random number generator is an infinite stream of numbers; theorems quantify over
    all streams, hence over all outcomes. *)
Definition rng := nat -> N.
Definition advance (r : rng) : rng := fun i => r (S i).
(** a number below [n], for [n > 0] *)
Definition gen_index (n : nat) (r : rng) : nat * rng := (N.to_nat (r 0%nat mod N.of_nat n)%N, advance r).
(** [gen_bool(beta)] compares a random [u64] with [beta * 2^64] rounded to an integer, and panics unless
    [0 <= beta <= 1]. A probability is represented by that integer ([2^64] for 1), or by [None]. *)
Definition probability := option N.
Definition gen_bool (beta : probability) (r : rng) : res (bool * rng) :=
  match beta with
  | Some p => Ok ((r 0%nat mod 2 ^ 64 <? p)%N, advance r)
  | None => Panic
  end.
(** [slice::swap] for indices in range *)
Definition swap {A} (i j : nat) (l : list A) : list A :=
  match nth_error l i, nth_error l j with
  | Some x, Some y => update i y (update j x l)
  | _, _ => l
  end.
(** [SliceRandom::shuffle]: for i from the last index down to 1, swap positions i and a random one up to i *)
Fixpoint shuffle_from {A} (i : nat) (l : list A) (r : rng) : list A * rng :=
  match i with
  | 0 => (l, r)
  | S i' => let '(j, r') := gen_index (S i) r in shuffle_from i' (swap i j l) r'
  end.
Definition shuffle {A} (l : list A) (r : rng) : list A * rng := shuffle_from (List.length l - 1) l r.
(** [SliceRandom::choose] *)
Definition choose {A} (l : list A) (r : rng) : option A * rng :=
  match l with
  | [] => (None, r)
  | _ => let '(i, r') := gen_index (List.length l) r in (nth_error l i, r')
  end.
(** [SliceRandom::choose_weighted]: an error if the list is empty or all weights are zero; otherwise an
    element found by a random number below the total weight. Overflow of the total is not modelled. *)
Fixpoint pick_weighted {A} (w : A -> nat) (l : list A) (v : nat) : option A :=
  match l with
  | [] => None
  | a :: l' => if v <? w a then Some a else pick_weighted w l' (v - w a)
  end.
Definition choose_weighted {A} (w : A -> nat) (l : list A) (r : rng) : option A * rng :=
  let total := list_sum (map w l) in
  if total =? 0 then (None, r)
  else let '(v, r') := gen_index total r in (pick_weighted w l v, r').

(** [v[i] = x] *)
Definition set_at {A} (i : nat) (x : A) (l : list A) : res (list A) :=
  if i <? List.length l then Ok (update i x l) else Panic.
(** [a..b] *)
Definition range (a b : nat) : list nat := seq a (b - a).

(** ** graph.rs *)

(** l.9-12: [Graph], its field [outlinks] *)
Definition graph := list (list nat).
Definition links (g : graph) (i : nat) : list nat := nth i g [].

(** l.19-21: [new_full_mesh] *)
Definition new_full_mesh (n : nat) : graph := map (fun i => range 0 i ++ range (i + 1) n) (range 0 n).

(** l.29-36: the body of the loop over tiers *)
Definition add_tier (state : graph * list nat) (tier_size : nat) : res (graph * list nat) :=
  let '(outlinks, higher_tier_node_ids) := state in
  let i0 := match rev higher_tier_node_ids with [] => 0 | x :: _ => x + 1 end in
  let n := i0 + tier_size in
  outlinks' <- foldM (fun outlinks i =>
                        old <- unwrap (nth_error outlinks i) ;;
                        set_at i (old ++ higher_tier_node_ids ++ range i0 i ++ range (i + 1) n) outlinks)
                     outlinks (range i0 n) ;;
  Ok (outlinks', range i0 n).
(** l.26-39: [new_tiered_full_mesh] *)
Definition new_tiered_full_mesh (tier_sizes : list nat) : res graph :=
  res_map fst (foldM add_tier (repeat [] (list_sum tier_sizes), []) tier_sizes).

(** l.171-178: [is_undirected]; [all] stops at the first [false], an invalid id panics *)
Fixpoint all_checked {A} (p : A -> res bool) (l : list A) : res bool :=
  match l with
  | [] => Ok true
  | x :: l' => b <- p x ;; if b : bool then all_checked p l' else Ok false
  end.
Definition is_undirected (g : graph) : res bool :=
  all_checked (fun '(i, cons_i) =>
                 all_checked (fun j => cons_j <- unwrap (nth_error g j) ;; Ok (existsb (Nat.eqb i) cons_j)) cons_i)
              (enumerate g).

(** l.50-57: [connect!] *)
Definition push_link (i j : nat) (g : graph) : res graph :=
  old <- unwrap (nth_error g i) ;; set_at i (old ++ [j]) g.
Definition connect (a b : nat) (g : graph) : res graph :=
  assert (negb (a =? b)) (g' <- push_link a b g ;; push_link b a g').
(** l.69-77: the inner loop, with the targets that are left *)
Fixpoint attach (m i : nat) (possible_targets : list nat) (g : graph) (r : rng) : res (graph * rng) :=
  match m with
  | 0 => Ok (g, r)
  | S m' =>
      let '(choice, r') := choose_weighted (fun x => List.length (links g x)) possible_targets r in
      j <- unwrap choice ;;
      g' <- connect i j g ;;
      attach m' i (filter (fun x => negb (x =? j)) possible_targets) g' r'
  end.
(** l.41-82: [new_random_scale_free]; the debug assertions are included *)
Definition new_random_scale_free (n m0 m : nat) (r : rng) : res (graph * rng) :=
  assert ((0 <? m) && (m <=? m0) && (m <=? n))
   (init <- foldM (fun g i => foldM (fun g j => connect i j g) g (range (i + 1) m0)) (repeat [] n) (range 0 m0) ;;
    gr <- foldM (fun '(g, r) i => attach m i (range 0 i) g r) (init, r) (range m0 n) ;;
    u <- is_undirected (fst gr) ;;
    assert u (Ok gr)).

(** ** small world graphs *)
Definition matrix := list (list bool).
(** [matrix[i][j]], for indices in range *)
Definition cell (m : matrix) (i j : nat) : bool := nth j (nth i m []) false.
(** [matrix[i][j] = b] *)
Definition set_cell (i j : nat) (b : bool) (m : matrix) : res matrix :=
  row <- unwrap (nth_error m i) ;; row' <- set_at j b row ;; set_at i row' m.
(** [matrix[i][j] = b; matrix[j][i] = b] *)
Definition set_both (i j : nat) (b : bool) (m : matrix) : res matrix :=
  m' <- set_cell i j b m ;; set_cell j i b m'.
(** [i + 1..=i + k / 2], reduced modulo [n] *)
Definition ring_neighbors (n k i : nat) : list nat := map (fun j => j mod n) (range (i + 1) (i + k / 2 + 1)).
(** l.94-101: step 1 *)
Definition ring_lattice (n k : nat) : res matrix :=
  foldM (fun m i => foldM (fun m j => set_both i j true m) m (ring_neighbors n k i))
        (repeat (repeat false n) n) (range 0 n).
(** l.103-111: the free end nodes of each node *)
Definition free_targets (n : nat) (m : matrix) : list (list nat) :=
  map (fun i => filter (fun j => negb (i =? j) && negb (cell m i j) && negb (cell m j i)) (range 0 n)) (range 0 n).
(** l.116-121: the links of [i] to be rewired *)
Fixpoint links_to_rewire (beta : probability) (m : matrix) (i : nat) (l : list nat) (r : rng) : res (list nat * rng) :=
  match l with
  | [] => Ok ([], r)
  | j :: l' =>
      if cell m i j then
        br <- gen_bool beta r ;;
        rest <- links_to_rewire beta m i l' (snd br) ;;
        Ok ((if fst br then [j] else []) ++ fst rest, snd rest)
      else links_to_rewire beta m i l' r
  end.
(** l.122-135: rewiring of one link *)
Definition modify {A} (i : nat) (h : A -> A) (l : list A) : res (list A) :=
  x <- unwrap (nth_error l i) ;; set_at i (h x) l.
Definition rewire_link (i : nat) (state : matrix * list (list nat) * rng) (j : nat) : res (matrix * list (list nat) * rng) :=
  let '(m, targets, r) := state in
  candidates <- unwrap (nth_error targets i) ;;
  let '(chosen_node, r') := choose candidates r in
  match chosen_node with
  | Some newj =>
      m <- set_both i j false m ;;
      m <- set_both i newj true m ;;
      targets <- modify i (fun l => l ++ [j]) targets ;;
      targets <- modify j (fun l => l ++ [i]) targets ;;
      targets <- modify i (filter (fun x => negb (x =? newj))) targets ;;
      targets <- modify newj (filter (fun x => negb (x =? i))) targets ;;
      Ok (m, targets, r')
  | None => Ok (m, targets, r')
  end.
(** l.115-136: step 2, for node [i] *)
Definition rewire_node (n k : nat) (beta : probability) (state : matrix * list (list nat) * rng) (i : nat)
  : res (matrix * list (list nat) * rng) :=
  let '(m, targets, r) := state in
  jr <- links_to_rewire beta m i (ring_neighbors n k i) r ;;
  foldM (rewire_link i) (m, targets, snd jr) (fst jr).
(** l.138-146 *)
Definition graph_of_matrix (n : nat) (m : matrix) : graph :=
  map (fun i => filter (cell m i) (range 0 n)) (range 0 n).
(** l.85-150: [new_random_small_world]; [with_capacity(n - k)] panics for [k > n] *)
Definition new_random_small_world (n k : nat) (beta : probability) (r : rng) : res (graph * rng) :=
  assert (k mod 2 =? 0)
   (m <- ring_lattice n k ;;
    assert (k <=? n)
     (s <- foldM (rewire_node n k beta) (m, free_targets n m, r) (range 0 n) ;;
      let '(m', _, r') := s in
      let g := graph_of_matrix n m' in
      u <- is_undirected g ;;
      assert u (Ok (g, r')))).

(** l.152-170: [shuffled] *)
Definition shuffled (g : graph) (r : rng) : res (graph * rng) :=
  let n := List.length g in
  let '(old_to_new, r') := shuffle (range 0 n) r in
  new_to_old <- foldM (fun v '(old, new) => set_at new old v) (repeat 0 n) (enumerate old_to_new) ;;
  g' <- mapM (fun oi => row <- unwrap (nth_error g oi) ;; mapM (fun oj => unwrap (nth_error old_to_new oj)) row) new_to_old ;;
  Ok (g', r').

(** l.179-181 *)
Definition graph_number_of_nodes (g : graph) : nat := List.length g.
(** l.182-190: [get_in_degrees] *)
Definition get_in_degrees (g : graph) : res (list nat) :=
  foldM (fun result outlinks => foldM (fun result in_node => modify in_node S result) result outlinks)
        (repeat 0 (List.length g)) g.
(** l.191-193: [get_out_degrees] *)
Definition get_out_degrees (g : graph) : list nat := map (@List.length nat) g.
(** l.194-204: [get_connected_nodes] *)
Definition get_connected_nodes (g : graph) : bset :=
  fold_left (fun result '(i, outlinks) =>
               match outlinks with
               | [] => result
               | _ => union (insert i result) (of_list outlinks)
               end) (enumerate g) bempty.
