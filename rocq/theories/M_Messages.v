(** Model of the messages that /repo/src/bin/fbas_analyzer.rs, qsc_simulator.rs and graph_generator.rs
    write to the standard error output with [eprintln!]. Not modelled: log messages, what a panic or an error prints;
    for the messages of the bulk programs see M_ReuseMessages. No proofs here. *)
From Coq Require Import Ascii.
From Verif Require Export M_Bins M_CliText.
Local Open Scope string_scope.
Local Open Scope list_scope.

(** what is written to the standard error output, and the result; what was written before a panic remains *)
Definition aloud (A : Type) : Type := list ascii * res A.
Definition silently {A} (x : res A) : aloud A := ([], x).
Definition and_then {A B} (x : aloud A) (k : A -> aloud B) : aloud B :=
  match snd x with
  | Ok a => (fst x ++ fst (k a), snd (k a))
  | Panic => (fst x, Panic)
  end.
Local Notation "x <~ e ;; k" := (and_then e (fun x => k)) (at level 61, e at next level, right associativity).
(** [eprintln!] of a text, and of a text with a number in it *)
Definition say (text : string) : aloud unit := (bytes text ++ new_line_text, Ok tt).
Definition say_number (before : string) (n : nat) (after : string) : aloud unit :=
  (bytes before ++ nat_text n ++ bytes after ++ new_line_text, Ok tt).

(** ** fbas_analyzer.rs *)
Section Cli.
Variable E : ext.
Variable files : path -> option json.
Variable stdin : option json.

(** l.125-135: [load_fbas] *)
Definition load_fbas_aloud (nodes_path : option path) : aloud fbas :=
  _ <~ say (match nodes_path with Some _ => "Reading FBAS JSON from file..." | None => "Reading FBAS JSON from STDIN..." end) ;;
  f <~ silently (cli_load_fbas files stdin nodes_path) ;;
  _ <~ say_number "Loaded FBAS with " (number_of_nodes f) " nodes." ;;
  silently (Ok f).
(** how many groups were loaded *)
Definition say_groupings (before : string) (g : option groupings) (after : string) : aloud unit :=
  match g with Some g => say_number before (number_of_groupings g) after | None => silently (Ok tt) end.
(** l.136-148: [maybe_load_organizations] *)
Definition maybe_load_organizations_aloud (organizations_path : option path) (f : fbas) : aloud (option groupings) :=
  match organizations_path with
  | Some _ =>
      _ <~ say "Will merge nodes by organization; reading organizations JSON from file..." ;;
      g <~ silently (maybe_load_organizations files organizations_path f) ;;
      _ <~ say_groupings "Loaded " g " organizations." ;;
      silently (Ok g)
  | None => silently (Ok None)
  end.
(** l.149-159: [maybe_load_isps] *)
Definition maybe_load_isps_aloud (nodes_path : option path) (f : fbas) : aloud (option groupings) :=
  match nodes_path with
  | Some _ =>
      _ <~ say "Will merge nodes by ISP; reading FBAS JSON from file..." ;;
      g <~ silently (cli_maybe_load_isps files nodes_path f) ;;
      _ <~ say_groupings "Loaded " g " ISPs." ;;
      silently (Ok g)
  | None =>
      _ <~ say "Will not merge. JSON file describing FBAS needed to perform merge." ;;
      silently (Ok None)
  end.
(** l.160-173: [maybe_load_countries] *)
Definition maybe_load_countries_aloud (nodes_path : option path) (f : fbas) : aloud (option groupings) :=
  match nodes_path with
  | Some _ =>
      _ <~ say "Will merge nodes by country; reading FBAS JSON from file..." ;;
      g <~ silently (cli_maybe_load_countries files nodes_path f) ;;
      _ <~ say_groupings "Loaded " g " countries." ;;
      silently (Ok g)
  | None =>
      _ <~ say "Will not merge. JSON file describing FBAS needed to perform merge." ;;
      silently (Ok None)
  end.
(** l.185-201: [extract_groupings_todos] *)
Definition extract_groupings_todos_aloud (args : cli) : aloud (bool * bool * bool) :=
  let organizations := match cli_organizations_path args with Some _ => true | None => false end in
  if cli_ctry_merge args then
    _ <~ (if cli_isp_merge args || organizations then say "Multiple merging options detected; will only merge nodes by country..." else silently (Ok tt)) ;;
    silently (Ok (true, false, false))
  else if cli_isp_merge args then
    _ <~ (if organizations then say "Multiple merging options detected; will only merge nodes by ISP..." else silently (Ok tt)) ;;
    silently (Ok (false, true, false))
  else silently (Ok (false, false, organizations)).
(** l.76-123: [main]; the standard error output, and the items printed to the standard output *)
Definition cli_main_aloud (args : cli) : aloud (list item) :=
  f <~ load_fbas_aloud (cli_nodes_path args) ;;
  todos <~ extract_groupings_todos_aloud args ;;
  let '(ctry, isp, org) := todos in
  g <~ (if ctry then maybe_load_countries_aloud (cli_nodes_path args) f
        else if isp then maybe_load_isps_aloud (cli_nodes_path args) f
        else if org then maybe_load_organizations_aloud (cli_organizations_path args) f
        else silently (Ok None)) ;;
  silently (cli_report E args f g).
End Cli.

(** ** qsc_simulator.rs *)

(** l.79-97: [parse_graph_path] *)
Definition parse_graph_path_aloud (w : inputs) (graph_data_path : string) : aloud (graph * nat) :=
  _ <~ say (if String.eqb graph_data_path "-" then "Reading graph from STDIN..." else "Reading graph from file...") ;;
  gn <~ silently (parse_graph_path w graph_data_path) ;;
  _ <~ say_number "Read graph with " (graph_number_of_nodes (fst gn)) " nodes." ;;
  silently (Ok gn).
(** l.99-165: [parse_qsc_config]; if a graph is read, then before anything else is done *)
Definition parse_qsc_config_aloud (w : inputs) (c : qsc_config) : aloud (configurator * nat) :=
  match c with
  | SuperSafe | Ideal | Random _ => silently (parse_qsc_config w c)
  | FameWeightedRandom _ path _ | AllNeighbors path _ | HigherTierNeighbors path _
  | SymmetryEnforcingHigherTierNeighbors path _ | GlobalRank path _ =>
      _ <~ parse_graph_path_aloud w path ;; silently (parse_qsc_config w c)
  end.
(** l.167-196: [main] *)
Definition qsc_simulator_aloud (args : simulator_args) (w : inputs) (r : rng) : aloud json :=
  Qn <~ parse_qsc_config_aloud w (arg_qsc_config args) ;;
  let '(Q, nodes_in_graph) := Qn in
  let initial_n := if ((0 <? arg_initial_n args) || (0 <? arg_grow_by_n args))%nat%bool then arg_initial_n args else nodes_in_graph in
  f <~ silently (new_generic_unconfigured initial_n) ;;
  _ <~ say "Starting simulation..." ;;
  sk <~ silently (simulate_global_reevaluation Q initial_n (mk_sim f [] r)) ;;
  s <~ silently (simulate_growth Q (arg_grow_by_n args) (fst sk)) ;;
  _ <~ say "Finished simulation, dumping FBAS..." ;;
  silently (Ok (fbas_to_json (sim_fbas s))).

(** ** graph_generator.rs *)

(** l.48-71: [main] *)
Definition graph_generator_aloud (debug_f64 : probability -> string) (args : generator_args) (r : rng) : aloud M_Bins.output :=
  gr <~ silently (apply_graph_gen_alg (arg_algorithm args) r) ;;
  g <~ silently (if arg_dont_shuffle args then Ok (fst gr) else res_map fst (shuffled (fst gr) (snd gr))) ;;
  text <~ silently (to_as_rel_string g (Some ("Graph generated using " ++ debug_algorithm debug_f64 (arg_algorithm args))%string)) ;;
  match arg_path args with
  | Some path => silently (Ok (To_file path text))
  | None =>
      _ <~ say_number "Printing graph with " (graph_number_of_nodes g) " nodes..." ;;
      silently (Ok (To_stdout (text ++ String newline EmptyString)%string))
  end.
