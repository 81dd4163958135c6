(** Model of /repo/src/bin/qsc_simulator.rs and /repo/src/bin/graph_generator.rs. Not modelled: how arguments
    are parsed, messages on STDERR (see [M_Messages.v]), the text of a JSON value, the compression of files. No proofs here. *)
From Verif Require Export M_IO M_GraphIO M_Simulation.
Local Open Scope string_scope.
Local Open Scope list_scope.

(** What can be read: STDIN, and the (decompressed) contents of files. *)
Record inputs := mk_inputs { in_stdin : option string; in_files : string -> option string }.

(** ** qsc_simulator.rs *)

(** l.33-77: [QuorumSetConfiguratorConfig] *)
Inductive qsc_config :=
| SuperSafe
| Ideal
| Random (desired_quorum_set_size : nat)
| FameWeightedRandom (desired_quorum_set_size : nat) (graph_data_path : string) (desired_threshold : option nat)
| AllNeighbors (graph_data_path : string) (relative_threshold : option f64)
| HigherTierNeighbors (graph_data_path : string) (relative_threshold : option f64)
| SymmetryEnforcingHigherTierNeighbors (graph_data_path : string) (relative_threshold : option f64)
| GlobalRank (graph_data_path : string) (relative_threshold : option f64).
(** l.15-32: [Cli] *)
Record simulator_args := mk_simulator_args { arg_initial_n : nat; arg_grow_by_n : nat; arg_qsc_config : qsc_config }.

(** l.79-97: [parse_graph_path], /repo/src/io/graph.rs l.15-23: [from_as_rel_file] *)
Definition parse_graph_path (w : inputs) (graph_data_path : string) : res (graph * nat) :=
  contents <- unwrap (if String.eqb graph_data_path "-" then in_stdin w else in_files w graph_data_path) ;;
  g <- from_as_rel_string contents ;;
  Ok (g, graph_number_of_nodes g).

(** l.99-165: [parse_qsc_config] *)
Definition parse_qsc_config (w : inputs) (c : qsc_config) : res (configurator * nat) :=
  match c with
  | SuperSafe => Ok (super_safe_qsc, 0)
  | Ideal => Ok (ideal_qsc, 0)
  | Random desired_quorum_set_size => Ok (random_qsc (random_qsc_simple desired_quorum_set_size), 0)
  | FameWeightedRandom desired_quorum_set_size path desired_threshold =>
      gn <- parse_graph_path w path ;;
      in_degrees <- get_in_degrees (fst gn) ;;
      Ok (random_qsc (mk_random_qsc desired_quorum_set_size desired_threshold in_degrees), snd gn)
  | AllNeighbors path relative_threshold =>
      gn <- parse_graph_path w path ;;
      Ok (all_neighbors_qsc (fst gn) relative_threshold, snd gn)
  | HigherTierNeighbors path relative_threshold =>
      gn <- parse_graph_path w path ;;
      Q <- new_higher_tier_qsc (fst gn) relative_threshold false ;;
      Ok (Q, snd gn)
  | SymmetryEnforcingHigherTierNeighbors path relative_threshold =>
      gn <- parse_graph_path w path ;;
      Q <- new_higher_tier_qsc (fst gn) relative_threshold true ;;
      Ok (Q, snd gn)
  | GlobalRank path relative_threshold =>
      gn <- parse_graph_path w path ;;
      Q <- new_global_rank_qsc (fst gn) relative_threshold ;;
      Ok (Q, snd gn)
  end.

(** l.171-192: [main] up to [finalize] *)
Definition simulated (args : simulator_args) (w : inputs) (r : rng) : res fbas :=
  Qn <- parse_qsc_config w (arg_qsc_config args) ;;
  let '(Q, nodes_in_graph) := Qn in
  let initial_n := if ((0 <? arg_initial_n args) || (0 <? arg_grow_by_n args))%nat%bool then arg_initial_n args else nodes_in_graph in
  f <- new_generic_unconfigured initial_n ;;
  sk <- simulate_global_reevaluation Q initial_n (mk_sim f [] r) ;;
  s <- simulate_growth Q (arg_grow_by_n args) (fst sk) ;;
  Ok (sim_fbas s).
(** l.167-196: [main]; the value of the printed JSON *)
Definition qsc_simulator (args : simulator_args) (w : inputs) (r : rng) : res json := res_map fbas_to_json (simulated args w r).

(** ** graph_generator.rs *)

(** l.29-38: [GraphGenerationAlgorithmConfig]; see [probability] for [beta] *)
Inductive graph_algorithm :=
| BarabasiAlbert (n m0 m : nat)
| WattsStrogatz (n k : nat) (beta : probability).
(** l.9-28: [Cli]; the argument [path] is modelled by what is done with the text *)
Record generator_args := mk_generator_args { arg_algorithm : graph_algorithm; arg_path : option string; arg_dont_shuffle : bool }.

(** l.40-46: [apply_graph_gen_alg] *)
Definition apply_graph_gen_alg (a : graph_algorithm) (r : rng) : res (graph * rng) :=
  match a with
  | BarabasiAlbert n m0 m => new_random_scale_free n m0 m r
  | WattsStrogatz n k beta => new_random_small_world n k beta r
  end.
(** The derived [Debug]; how [beta] is formatted is a parameter. *)
Definition debug_algorithm (debug_f64 : probability -> string) (a : graph_algorithm) : string :=
  match a with
  | BarabasiAlbert n m0 m => "BarabasiAlbert { n: " ++ print_nat n ++ ", m0: " ++ print_nat m0 ++ ", m: " ++ print_nat m ++ " }"
  | WattsStrogatz n k beta => "WattsStrogatz { n: " ++ print_nat n ++ ", k: " ++ print_nat k ++ ", beta: " ++ debug_f64 beta ++ " }"
  end%string.
(** what is written: a file, or a line on STDOUT *)
Inductive output :=
| To_file (path contents : string)
| To_stdout (text : string).
(** l.48-71: [main]; writing a file cannot fail in the model *)
Definition graph_generator (debug_f64 : probability -> string) (args : generator_args) (r : rng) : res output :=
  gr <- apply_graph_gen_alg (arg_algorithm args) r ;;
  g <- (if arg_dont_shuffle args then Ok (fst gr) else res_map fst (shuffled (fst gr) (snd gr))) ;;
  let head_comment := ("Graph generated using " ++ debug_algorithm debug_f64 (arg_algorithm args))%string in
  text <- to_as_rel_string g (Some head_comment) ;;
  Ok (match arg_path args with
      | Some path => To_file path text
      | None => To_stdout (text ++ String newline EmptyString)%string
      end).
