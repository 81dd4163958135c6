(** C71, C72: the simulator and the graph generator as programs. *)
From Coq Require Import ZArith.
From Verif Require Import Spec_Bins P_Bins P_Simulator P_Generator.
Local Open Scope list_scope.

(** C71 *)
(** the simulation is carried out exactly if the graph can be read and it, or the weights, suffice for all nodes *)
Theorem C71_no_panic : forall (args : simulator_args) (w : inputs) (r : rng) (n0 : nat),
  initial_nodes args w n0 -> (Z.of_nat (n0 + arg_grow_by_n args) <= 2 ^ 53)%Z ->
  (simulated args w r <> Panic <-> possible (arg_qsc_config args) w n0 (n0 + arg_grow_by_n args)).
Proof. exact simulated_iff. Qed.
Print Assumptions C71_no_panic.

Theorem C71_unreadable : forall (args : simulator_args) (w : inputs) (r : rng) (path : string),
  graph_path (arg_qsc_config args) = Some path -> (forall g, ~ graph_at w path g) -> simulated args w r = Panic.
Proof. exact unreadable. Qed.
Print Assumptions C71_unreadable.

(** all nodes, also those that were there before growth, are configured as if the final number of nodes had been known *)
Theorem C71_simulated : forall (args : simulator_args) (w : inputs) (r : rng) (n0 : nat) (f : fbas),
  initial_nodes args w n0 -> (Z.of_nat (n0 + arg_grow_by_n args) <= 2 ^ 53)%Z -> simulated args w r = Ok f ->
  let n := n0 + arg_grow_by_n args in
  number_of_nodes f = n /\ generic_names f /\ forall i q, node_of f i q -> as_prescribed (arg_qsc_config args) w n i q.
Proof. exact simulated_spec. Qed.
Print Assumptions C71_simulated.

(** missing: equality with the simulated FBAS if the graph has more nodes *)
Theorem C71_printed_partial : forall (args : simulator_args) (w : inputs) (r : rng) (n0 : nat) (j : json),
  initial_nodes args w n0 -> (Z.of_nat (n0 + arg_grow_by_n args) <= 2 ^ 53)%Z -> sixty_four_bits (arg_qsc_config args) w ->
  qsc_simulator args w r = Ok j ->
  exists f f', simulated args w r = Ok f /\ fbas_from_json j = Ok f' /\ number_of_nodes f' = n0 + arg_grow_by_n args /\ generic_names f' /\
  (forall S, quorum f' S <-> quorum f S) /\
  (no_larger_graph (arg_qsc_config args) w (n0 + arg_grow_by_n args) -> renumbering (fun x => x) f f').
Proof. exact printed. Qed.
Print Assumptions C71_printed_partial.

(** two nodes of a graph of three: node 1 trusts the nodes 0, 1, 2; when read again, only 0 and 1, with the same threshold *)
Theorem C71_missing_refuted : exists args w r f j f', simulated args w r = Ok f /\ qsc_simulator args w r = Ok j /\ fbas_from_json j = Ok f' /\
  node_of f 1 (QS 3 [0; 1; 2] []) /\ node_of f' 1 (QS 3 [0; 1] []).
Proof. exact missing_lost. Qed.
Print Assumptions C71_missing_refuted.

Definition qsets_of (x : res fbas) : res (list qset) := res_map (fun f => map node_qset (nodes f)) x.
Example C71_example :
  (** a path of three nodes *)
  qsets_of (simulated (mk_simulator_args 0 0 (AllNeighbors "-" None)) (only_stdin path_text) steps) = Ok [QS 2 [0; 1] []; QS 3 [0; 1; 2] []; QS 2 [1; 2] []] /\
  (** a triangle and a fourth node linked to one of its nodes; there is no fifth *)
  qsets_of (simulated (mk_simulator_args 1 2 (GlobalRank "-" None)) (only_stdin kite_text) steps) = Ok (repeat (QS 3 [0; 1; 2] []) 3) /\
  simulated (mk_simulator_args 1 4 (GlobalRank "-" None)) (only_stdin kite_text) steps = Panic /\
  qsets_of (simulated (mk_simulator_args 0 0 (HigherTierNeighbors "-" None)) (only_stdin kite_text) steps) = Ok (repeat (QS 3 [0; 1; 2] []) 3 ++ [QS 2 [0; 3] []]) /\
  (** in-degrees as weights; thresholds as desired *)
  qsets_of (simulated (mk_simulator_args 2 1 (FameWeightedRandom 2 "-" (Some 1))) (only_stdin path_text) steps) = Ok [QS 1 [0; 1] []; QS 1 [1; 0] []; QS 1 [2; 1] []] /\
  (** a square with one diagonal: the nodes that are not linked learn of each other *)
  qsets_of (simulated (mk_simulator_args 0 0 (HigherTierNeighbors "-" None)) (only_stdin square_text) steps) =
    Ok [QS 3 [0; 1; 2; 3] []; QS 3 [0; 1; 2] []; QS 3 [0; 1; 2; 3] []; QS 3 [0; 2; 3] []] /\
  qsets_of (simulated (mk_simulator_args 0 0 (SymmetryEnforcingHigherTierNeighbors "-" None)) (only_stdin square_text) steps) = Ok (repeat (QS 3 [0; 1; 2; 3] []) 4) /\
  qsets_of (simulated (mk_simulator_args 1 3 SuperSafe) (only_stdin "") steps) = Ok (repeat (QS 4 [0; 1; 2; 3] []) 4) /\
  simulated (mk_simulator_args 1 3 (AllNeighbors "graph" None)) (only_stdin path_text) steps = Panic.
Proof. repeat (apply conj; [vm_compute; reflexivity|]). vm_compute. reflexivity. Qed.

(** C72 *)
(** missing: arguments that lead to isolated nodes *)
Theorem C72_generated_partial : forall (debug_f64 : probability -> string) (args : generator_args) (r : rng),
  (forall b, free_of newline (debug_f64 b)) -> proper_graph (arg_algorithm args) -> (N.of_nat (graph_size (arg_algorithm args)) < 2 ^ 64)%N ->
  exists o g' g r' p, graph_generator debug_f64 args r = Ok o /\ goes_to args o /\
  String.prefix (head_line debug_f64 (arg_algorithm args)) (output_text o) = true /\
  from_as_rel_string (output_text o) = Ok g' /\ simple_graph g' /\ List.length g' = graph_size (arg_algorithm args) /\
  has_edges g' (edge_count (arg_algorithm args)) /\ (forall i, i < List.length g' -> exists j, link g' i j) /\
  apply_graph_gen_alg (arg_algorithm args) r = Ok (g, r') /\ same_shape p g g' /\ (arg_dont_shuffle args = true -> forall i, p i = i) /\
  (arg_dont_shuffle args = false -> map p (range 0 (List.length g)) = fst (shuffle (range 0 (List.length g)) r')).
Proof. exact generator_spec. Qed.
Print Assumptions C72_generated_partial.

Theorem C72_panics : forall (debug_f64 : probability -> string) (a : graph_algorithm) (path : option string) (dont_shuffle : bool) (r : rng),
  match a with BarabasiAlbert n m0 m => 0 < n < m0 | WattsStrogatz n k _ => Nat.Odd k \/ n < k end ->
  graph_generator debug_f64 (mk_generator_args a path dont_shuffle) r = Panic.
Proof. exact improper_panics. Qed.
Print Assumptions C72_panics.

(** three nodes without links: the printed text is read as the graph without nodes *)
Theorem C72_isolated_refuted : exists args r text, graph_generator (fun _ => "0.5"%string) args r = Ok (To_stdout text) /\
  res_map (fun gr => List.length (fst gr)) (apply_graph_gen_alg (arg_algorithm args) r) = Ok 3 /\ from_as_rel_string text = Ok [].
Proof. exact isolated_printed. Qed.
Print Assumptions C72_isolated_refuted.

(** what the generator prints can be given to the simulator, whatever the policy *)
Theorem C72_piped : forall (debug_f64 : probability -> string) (args : generator_args) (r : rng) (o : output),
  (forall b, free_of newline (debug_f64 b)) -> proper_graph (arg_algorithm args) ->
  (Z.of_nat (graph_size (arg_algorithm args)) <= 2 ^ 53)%Z -> graph_generator debug_f64 args r = Ok o ->
  forall c w path r', graph_path c = Some path -> text_at w path (output_text o) ->
  (forall size path t, c = FameWeightedRandom size path (Some t) -> (Z.of_nat t < 2 ^ 64)%Z) ->
  exists j f, qsc_simulator (mk_simulator_args 0 0 c) w r' = Ok j /\ fbas_from_json j = Ok f /\
    number_of_nodes f = graph_size (arg_algorithm args) /\ generic_names f.
Proof. exact piped. Qed.
Print Assumptions C72_piped.

Definition some_beta (b : probability) : string := "0.5".
Definition generated_text : string := ("# Graph generated using BarabasiAlbert { n: 4, m0: 2, m: 1 }" ++ newline_text ++ "0|1|0" ++ newline_text ++ "1|2|0" ++ newline_text ++ "1|3|0" ++ newline_text ++ newline_text)%string.
Example C72_example : (forall b, free_of newline (some_beta b)) /\ proper_graph (BarabasiAlbert 4 2 1) /\ proper_graph (WattsStrogatz 5 2 (Some 0%N)) /\
  graph_generator some_beta (mk_generator_args (BarabasiAlbert 4 2 1) None true) steps = Ok (To_stdout generated_text) /\
  qsets_of (simulated (mk_simulator_args 0 0 (AllNeighbors "-" None)) (only_stdin generated_text) steps) =
    Ok [QS 2 [0; 1] []; QS 3 [0; 1; 2; 3] []; QS 2 [1; 2] []; QS 2 [1; 3] []].
Proof.
  split; [exact free_first|]. split; [cbn; lia|]. split; [cbn; split; [exists 1; auto|split; [lia|discriminate]]|]. split; vm_compute; reflexivity.
Qed.
