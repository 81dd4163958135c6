(** Specification of the simulator and the graph generator as programs, stated without the algorithms of the model. *)
From Coq Require Import ZArith Relation_Operators.
From Verif Require Export Spec_IO Spec_GraphIO Spec_Simulation M_Bins.
Local Open Scope list_scope.

(** the text read from a path; a dash is STDIN *)
Definition text_at (w : inputs) (path text : string) : Prop :=
  (path = "-"%string /\ in_stdin w = Some text) \/ (path <> "-"%string /\ in_files w path = Some text).
(** the graph read from a path (see C56) *)
Definition graph_at (w : inputs) (path : string) (g : graph) : Prop :=
  exists text, text_at w path text /\ from_as_rel_string text = Ok g.

(** the path of the graph that a policy uses *)
Definition graph_path (c : qsc_config) : option string :=
  match c with
  | SuperSafe | Ideal | Random _ => None
  | FameWeightedRandom _ path _ | AllNeighbors path _ | HigherTierNeighbors path _
  | SymmetryEnforcingHigherTierNeighbors path _ | GlobalRank path _ => Some path
  end.
(** the number of nodes before growth: as requested; if nothing is requested, that of the graph *)
Definition initial_nodes (args : simulator_args) (w : inputs) (n : nat) : Prop :=
  (0 < arg_initial_n args \/ 0 < arg_grow_by_n args -> n = arg_initial_n args) /\
  (arg_initial_n args = 0 -> arg_grow_by_n args = 0 ->
   match graph_path (arg_qsc_config args) with
   | None => n = 0
   | Some path => exists g, graph_at w path g /\ n = List.length g
   end).

(** [d] lists the numbers of links to each node *)
Definition in_degrees_of (g : graph) (d : list nat) : Prop :=
  List.length d = List.length g /\ forall j k, nth_error d j = Some k -> in_degree g j k.
(** among [m] nodes, node [i] can choose as many others as it should *)
Definition enough_to_choose (p : random_qsc_params) (m i : nat) : Prop :=
  exists l, List.length l = Nat.min (desired_quorum_set_size p) m - 1 /\ choosable p m [i] l.

(** what a simulation needs so that it can be carried out, if it begins with [n0] nodes and ends with [n] *)
Definition possible (c : qsc_config) (w : inputs) (n0 n : nat) : Prop :=
  match c with
  | SuperSafe | Ideal | Random _ => True
  | FameWeightedRandom size path thr => exists g d, graph_at w path g /\ in_degrees_of g d /\
      forall m i, n0 <= m <= n -> i < m -> enough_to_choose (mk_random_qsc size thr d) m i
  | AllNeighbors path _ | HigherTierNeighbors path _ | SymmetryEnforcingHigherTierNeighbors path _ => exists g, graph_at w path g
  | GlobalRank path _ => exists g, graph_at w path g /\ n <= List.length g
  end.

(** as [randomly_configured]; only nodes with a positive weight are chosen; quorum sets of one node keep the threshold 0 (see C43) *)
Definition randomly_prescribed (p : random_qsc_params) (n i : nat) (q : qset) : Prop :=
  randomly_configured p n i q /\ (forall x, In x (validators q) -> x = i \/ 0 < weight_of p x) /\
  (desired_quorum_set_size p < 2 -> threshold q = 0).

(** what a node includes if it enforces symmetry: itself, its trusted neighbors, and all that a trusted neighbor includes that includes it;
    [k] is the number of reevaluations that suffice *)
Inductive shared (g : graph) (scores : list f64) (n : nat) : nat -> nat -> nat -> Prop :=
| shared_self k i : shared g scores n k i i
| shared_trusted k i x : trusted_neighbor g scores i x -> shared g scores n k i x
| shared_symmetric k i j x : trusted_neighbor g scores i j -> j < n -> shared g scores n k j i -> shared g scores n k j x -> shared g scores n (S k) i x.

(** the quorum set [q] of node [i] among [n] nodes is as the policy says *)
Definition as_prescribed (c : qsc_config) (w : inputs) (n i : nat) (q : qset) : Prop :=
  match c with
  | SuperSafe => q = QS n (seq 0 n) []
  | Ideal => q = QS (n - (n - 1) / 3) (seq 0 n) []
  | Random size => randomly_prescribed (mk_random_qsc size None []) n i q
  | FameWeightedRandom size path thr => exists g d, graph_at w path g /\ in_degrees_of g d /\
      randomly_prescribed (mk_random_qsc size thr d) n i q
  | AllNeighbors path thr => exists g, graph_at w path g /\
      (connected g i -> flat_over (fun x => x = i \/ link g i x) thr q) /\ (~ connected g i -> q = qset_new)
  | HigherTierNeighbors path thr => exists g scores, graph_at w path g /\ get_rank_scores g = Ok scores /\
      (connected g i -> flat_over (fun x => x = i \/ trusted_neighbor g scores i x) thr q) /\ (~ connected g i -> q = qset_new)
  | SymmetryEnforcingHigherTierNeighbors path thr => exists g scores, graph_at w path g /\ get_rank_scores g = Ok scores /\
      (connected g i -> exists P, flat_over P thr q /\ (forall x, shared g scores n (n - 1) i x -> P x) /\
                                  forall x, P x -> exists k, shared g scores n k i x) /\
      (~ connected g i -> q = qset_new)
  | GlobalRank path thr => exists g scores top, graph_at w path g /\ get_rank_scores g = Ok scores /\
      ascending_list_of (fun x => exists s, nth_error scores x = Some s /\ fltb (average scores) s = true) top /\
      ((exists j, link g i j) -> q = QS (calculate_threshold (List.length top) thr) top []) /\ ((forall j, ~ link g i j) -> q = qset_new)
  end.

(** two graphs are equal up to the names of nodes and the order of links *)
Definition same_shape (p : nat -> nat) (g g' : graph) : Prop :=
  List.length g' = List.length g /\
  (forall i, i < List.length g -> p i < List.length g) /\
  (forall i j, i < List.length g -> j < List.length g -> p i = p j -> i = j) /\
  (forall i j, i < List.length g -> j < List.length g -> (link g' (p i) (p j) <-> link g i j)).
(** arguments with which a graph is made and no node of it is isolated *)
Definition proper_graph (a : graph_algorithm) : Prop :=
  match a with
  | BarabasiAlbert n m0 m => 0 < m <= m0 /\ 2 <= m0 <= n
  | WattsStrogatz n k beta => Nat.Even k /\ 2 <= k <= n /\ beta <> None
  end.
(** arguments with which a graph is made *)
Definition accepted (a : graph_algorithm) : Prop :=
  match a with
  | BarabasiAlbert n m0 m => 0 < m <= m0 /\ m0 <= n /\ (m0 = 1 -> n = 1)
  | WattsStrogatz n k beta => Nat.Even k /\ k <= n /\ (beta = None -> k = 0)
  end.
Definition graph_size (a : graph_algorithm) : nat := match a with BarabasiAlbert n _ _ | WattsStrogatz n _ _ => n end.
Definition output_text (o : output) : string := match o with To_file _ text | To_stdout text => text end.

(** arguments and graphs as they can occur: numbers fit into 64 bits *)
Definition sixty_four_bits (c : qsc_config) (w : inputs) : Prop :=
  (forall size path t, c = FameWeightedRandom size path (Some t) -> (Z.of_nat t < 2 ^ 64)%Z) /\
  (forall path g, graph_path c = Some path -> graph_at w path g -> (Z.of_nat (List.length g) < 2 ^ 64)%Z).
(** all mentioned nodes exist *)
Definition no_larger_graph (c : qsc_config) (w : inputs) (n : nat) : Prop :=
  forall path g, graph_path c = Some path -> graph_at w path g -> List.length g <= n.

(** the number of edges of a generated graph (see C47, C48); small worlds with [k = n] are full meshes *)
Definition edge_count (a : graph_algorithm) : nat :=
  match a with
  | BarabasiAlbert n m0 m => m0 * (m0 - 1) / 2 + (n - m0) * m
  | WattsStrogatz n k _ => if Nat.eqb k n then n * (n - 1) / 2 else n * k / 2
  end.
(** where the text goes *)
Definition goes_to (args : generator_args) (o : output) : Prop :=
  match arg_path args with
  | Some path => exists text, o = To_file path text
  | None => exists text, o = To_stdout text
  end.
(** the comment at the beginning of the text *)
Definition head_line (debug_f64 : probability -> string) (a : graph_algorithm) : string :=
  ("# Graph generated using " ++
   match a with
   | BarabasiAlbert n m0 m => "BarabasiAlbert { n: " ++ print_nat n ++ ", m0: " ++ print_nat m0 ++ ", m: " ++ print_nat m ++ " }"
   | WattsStrogatz n k beta => "WattsStrogatz { n: " ++ print_nat n ++ ", k: " ++ print_nat k ++ ", beta: " ++ debug_f64 beta ++ " }"
   end ++ String newline EmptyString)%string.
