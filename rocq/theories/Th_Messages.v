(** Messages on the standard error output: C87 ([fbas_analyzer]), C88 ([qsc_simulator], [graph_generator]). *)
From Coq Require Import ZArith Ascii.
From Verif Require Import Spec_Messages P_ThBulk P_Generator P_ThMessages.
Local Open Scope string_scope.
Local Open Scope list_scope.
Local Open Scope nat_scope.

(** C87 *)
(** messages do not change the results *)
Theorem C87_results : forall (E : ext) (files : path -> option json) (stdin : option json) (args : cli),
  snd (cli_main_aloud E files stdin args) = cli_main E files stdin args.
Proof. exact cli_results. Qed.
Print Assumptions C87_results.

(** what is said if the nodes can be read, whatever happens then *)
Theorem C87_messages : forall (E : ext) (files : path -> option json) (stdin : option json) (args : cli) (j : json) (f : fbas),
  nodes_document args files stdin j -> fbas_from_json j = Ok f ->
  exists src choice merging groups, announces_source args src /\ if_any (announces_choice args) choice /\ if_any (announces_merging args) merging /\
    if_any (announces_groups args files f) groups /\
    conveys (fst (cli_main_aloud E files stdin args)) (src :: Loaded_nodes (List.length (nodes f)) :: choice ++ merging ++ groups).
Proof. exact cli_messages. Qed.
Print Assumptions C87_messages.

(** if the nodes cannot be read, only where from *)
Theorem C87_unreadable : forall (E : ext) (files : path -> option json) (stdin : option json) (args : cli),
  (forall j f, nodes_document args files stdin j -> fbas_from_json j <> Ok f) ->
  cli_main_aloud E files stdin args = (fst (cli_main_aloud E files stdin args), Panic) /\
  exists src, announces_source args src /\ conveys (fst (cli_main_aloud E files stdin args)) [src].
Proof. exact cli_unreadable. Qed.
Print Assumptions C87_unreadable.

(** the groups whose number is announced are those by which the reported sets are merged (see C66) *)
Theorem C87_groups : forall (files : path -> option json) (args : cli) (f : fbas) (o : option groupings), groups_to_merge args files f o ->
  forall m, announces_groups args files f m <-> exists k G, preferred args k /\ o = Some G /\ m = Loaded_groups k (List.length (g_groupings G)).
Proof. exact groups_announced. Qed.
Print Assumptions C87_groups.

(** nodes are from STDIN: a message says that they are merged only by country, the next that they are not merged; the organizations in the given file are not used *)
Theorem C87_choice_refuted : exists files stdin args items f G, snd (cli_main_aloud std_ext files stdin args) = Ok items /\
  conveys (fst (cli_main_aloud std_ext files stdin args)) [Reading_nodes false; Loaded_nodes 3; Several Countries; Will_not_merge] /\
  described args files f Organizations G /\ groups_to_merge args files f None.
Proof. exact choice_refuted. Qed.
Print Assumptions C87_choice_refuted.

Definition in_file (orgs : option path) (isps countries : bool) : cli :=
  mk_cli (Some "data/x_nodes.json") false false false false false true false false true orgs isps countries.
Example C87_example :
  nodes_document (in_file (Some "data/x_organizations.json") true false) three_files None three_json /\ fbas_from_json three_json = Ok three /\
  string_of_list_ascii (fst (cli_main_aloud std_ext three_files None (in_file (Some "data/x_organizations.json") false false))) =
    ("Reading FBAS JSON from file..." ++ newline_text ++ "Loaded FBAS with 3 nodes." ++ newline_text ++
    "Will merge nodes by organization; reading organizations JSON from file..." ++ newline_text ++ "Loaded 1 organizations." ++ newline_text)%string /\
  string_of_list_ascii (fst (cli_main_aloud std_ext three_files None (in_file (Some "data/x_organizations.json") true false))) =
    ("Reading FBAS JSON from file..." ++ newline_text ++ "Loaded FBAS with 3 nodes." ++ newline_text ++
    "Multiple merging options detected; will only merge nodes by ISP..." ++ newline_text ++
    "Will merge nodes by ISP; reading FBAS JSON from file..." ++ newline_text ++ "Loaded 1 ISPs." ++ newline_text)%string /\
  (forall j f, nodes_document (in_file None false false) (fun _ => None) None j -> fbas_from_json j <> Ok f).
Proof. repeat (split; [vm_compute; reflexivity|]). intros j f H. discriminate H. Qed.

(** C88 *)
Theorem C88_results : forall (args : simulator_args) (w : inputs) (r : rng), snd (qsc_simulator_aloud args w r) = qsc_simulator args w r.
Proof. exact simulator_results. Qed.
Print Assumptions C88_results.

(** the end of the simulation is announced exactly if it is reached, its start exactly if no graph is needed or the graph can be read *)
Theorem C88_simulator : forall (args : simulator_args) (w : inputs) (r : rng),
  exists src gr start finish, if_any (announces_graph_source (arg_qsc_config args)) src /\ if_any (announces_graph (arg_qsc_config args) w) gr /\
    if_any (fun m => m = Starting /\ forall path, graph_path (arg_qsc_config args) = Some path -> exists g, graph_at w path g) start /\
    if_any (fun m => m = Finished /\ exists j, qsc_simulator args w r = Ok j) finish /\
    conveys (fst (qsc_simulator_aloud args w r)) (src ++ gr ++ start ++ finish).
Proof. exact simulator_messages. Qed.
Print Assumptions C88_simulator.

Theorem C88_generator_results : forall (debug_f64 : probability -> string) (args : generator_args) (r : rng),
  snd (graph_generator_aloud debug_f64 args r) = graph_generator debug_f64 args r.
Proof. exact generator_results. Qed.
Print Assumptions C88_generator_results.

(** the number of nodes is announced exactly if the graph is printed *)
Theorem C88_generator : forall (debug_f64 : probability -> string) (args : generator_args) (r : rng),
  exists ms, conveys (fst (graph_generator_aloud debug_f64 args r)) ms /\
    if_any (fun m => m = Printing (graph_size (arg_algorithm args)) /\ exists text, graph_generator debug_f64 args r = Ok (To_stdout text)) ms.
Proof. exact generator_messages. Qed.
Print Assumptions C88_generator.

(** missing: graphs with isolated nodes *)
Theorem C88_printed_partial : forall (debug_f64 : probability -> string) (args : generator_args) (r : rng) (text : string),
  (forall b, free_of newline (debug_f64 b)) -> proper_graph (arg_algorithm args) -> (N.of_nat (graph_size (arg_algorithm args)) < 2 ^ 64)%N ->
  graph_generator debug_f64 args r = Ok (To_stdout text) ->
  exists g, from_as_rel_string text = Ok g /\ conveys (fst (graph_generator_aloud debug_f64 args r)) [Printing (List.length g)].
Proof. exact printed_number. Qed.
Print Assumptions C88_printed_partial.

(** three nodes without links are announced, but the text is that of a graph without nodes *)
Theorem C88_isolated_refuted : exists args r text, graph_generator (fun _ => "0.5"%string) args r = Ok (To_stdout text) /\
  conveys (fst (graph_generator_aloud (fun _ => "0.5"%string) args r)) [Printing 3] /\ from_as_rel_string text = Ok [].
Proof. exact isolated_number. Qed.
Print Assumptions C88_isolated_refuted.

Example C88_example :
  string_of_list_ascii (fst (qsc_simulator_aloud (mk_simulator_args 0 0 (AllNeighbors "-" None)) (only_stdin path_text) steps)) =
    ("Reading graph from STDIN..." ++ newline_text ++ "Read graph with 3 nodes." ++ newline_text ++ "Starting simulation..." ++ newline_text ++
    "Finished simulation, dumping FBAS..." ++ newline_text)%string /\
  string_of_list_ascii (fst (qsc_simulator_aloud (mk_simulator_args 1 3 (AllNeighbors "graph" None)) (only_stdin path_text) steps)) =
    ("Reading graph from file..." ++ newline_text)%string /\
  string_of_list_ascii (fst (qsc_simulator_aloud (mk_simulator_args 1 4 (GlobalRank "-" None)) (only_stdin kite_text) steps)) =
    ("Reading graph from STDIN..." ++ newline_text ++ "Read graph with 4 nodes." ++ newline_text ++ "Starting simulation..." ++ newline_text)%string /\
  (forall b : probability, free_of newline "0.5") /\ proper_graph (BarabasiAlbert 4 2 1) /\
  string_of_list_ascii (fst (graph_generator_aloud (fun _ => "0.5") (mk_generator_args (BarabasiAlbert 4 2 1) None true) steps)) =
    ("Printing graph with 4 nodes..." ++ newline_text)%string.
Proof.
  split; [vm_compute; reflexivity|]. split; [vm_compute; reflexivity|]. split; [vm_compute; reflexivity|]. split; [exact free_first|].
  split; [cbn; lia|vm_compute; reflexivity].
Qed.
