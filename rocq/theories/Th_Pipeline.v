(** The programs in a row: graph_generator, qsc_simulator, fbas_analyzer: C84. *)
From Coq Require Import ZArith Ascii.
From Flocq Require Import IEEE754.BinarySingleNaN.
From Verif Require Import P_Pipeline Spec_Pipeline P_FloatText P_Generator P_ThCliAny.
Local Open Scope string_scope.
Local Open Scope list_scope.
Local Open Scope nat_scope.

(** the text printed by the simulator is read as the simulated FBAS *)
Theorem C84_text : forall (args : simulator_args) (w : inputs) (r : rng) (n0 : nat) (s : list ascii) (minus_zero : bool),
  initial_nodes args w n0 -> (Z.of_nat (n0 + arg_grow_by_n args) <= 2 ^ 53)%Z -> sixty_four_bits (arg_qsc_config args) w ->
  simulator_text args w r = Ok s ->
  exists f f', simulated args w r = Ok f /\ fbas_from_text minus_zero s = Ok f' /\ number_of_nodes f' = n0 + arg_grow_by_n args /\ generic_names f' /\
  (forall S, quorum f' S <-> quorum f S) /\
  (no_larger_graph (arg_qsc_config args) w (n0 + arg_grow_by_n args) -> renumbering (fun x => x) f f').
Proof. exact text_printed. Qed.
Print Assumptions C84_text.

(** with a policy that can be satisfied, what is simulated has a quorum *)
Theorem C84_quorum : forall (args : simulator_args) (w : inputs) (r : rng) (n0 : nat) (f : fbas),
  initial_nodes args w n0 -> let n := n0 + arg_grow_by_n args in 0 < n -> (Z.of_nat n <= 2 ^ 53)%Z ->
  satisfiable_policy (arg_qsc_config args) w n -> all_connected (arg_qsc_config args) w n -> no_larger_graph (arg_qsc_config args) w n ->
  simulated args w r = Ok f -> has_a_quorum f.
Proof. exact simulated_quorum. Qed.
Print Assumptions C84_quorum.

(** for [GlobalRankQsc], exactly: there is a quorum iff so many of the nodes that are ranked above the average exist and have links as the
    threshold says (at least one) *)
Theorem C84_ranked : forall (args : simulator_args) (w : inputs) (r : rng) (n0 : nat) (f : fbas) (path : string) (thr : option f64) (g : graph) (scores : list f64) (top : list nat),
  initial_nodes args w n0 -> let n := n0 + arg_grow_by_n args in (Z.of_nat n <= 2 ^ 53)%Z ->
  arg_qsc_config args = GlobalRank path thr -> graph_at w path g -> get_rank_scores g = Ok scores -> ascending_list_of (above_average scores) top ->
  simulated args w r = Ok f ->
  (has_a_quorum f <-> exists l, NoDup l /\ (forall x, In x l -> x < n /\ above_average scores x /\ exists j, link g x j) /\
                       1 <= calculate_threshold (List.length top) thr <= List.length l).
Proof. exact ranked_quorum. Qed.
Print Assumptions C84_ranked.

Theorem C84_ranked_share : forall (args : simulator_args) (w : inputs) (r : rng) (n0 : nat) (f : fbas) (path : string) (thr : option f64) (g : graph) (scores : list f64),
  initial_nodes args w n0 -> let n := n0 + arg_grow_by_n args in (Z.of_nat n <= 2 ^ 53)%Z ->
  arg_qsc_config args = GlobalRank path thr -> graph_at w path g -> get_rank_scores g = Ok scores -> simulated args w r = Ok f ->
  a_share thr -> List.length g <= n -> (forall x, above_average scores x -> exists j, link g x j) ->
  (has_a_quorum f <-> exists x, above_average scores x).
Proof. exact ranked_quorum_shares. Qed.
Print Assumptions C84_ranked_share.

(** the hub of a star is not ranked above the average: the ranks swing back and forth and end where they have begun *)
Theorem C84_star_refuted : exists g scores, (forall i, 0 < i < List.length g -> link g 0 i /\ forall j, link g i j -> j = 0) /\ 2 < List.length g /\
  get_rank_scores g = Ok scores /\ forall x, ~ above_average scores x.
Proof.
  exact (match star_average with ex_intro _ scores (conj Hs Ha) => ex_intro _ star_graph (ex_intro _ scores (conj star_links (conj star_size (conj Hs Ha)))) end).
Qed.
Print Assumptions C84_star_refuted.

Example C84_ranked_example : exists g scores, graph_at (only_stdin kite_text) "-" g /\ get_rank_scores g = Ok scores /\
  ascending_list_of (above_average scores) [0; 1; 2] /\ initial_nodes (mk_simulator_args 1 2 (GlobalRank "-" None)) (only_stdin kite_text) 1 /\
  exists f, simulated (mk_simulator_args 1 2 (GlobalRank "-" None)) (only_stdin kite_text) steps = Ok f /\ has_a_quorum f.
Proof.
  destruct kite_ranks as (g & scores & Hg & Hs & Ha). exists g, scores. split; [exact Hg|]. split; [exact Hs|]. split; [exact Ha|].
  assert (Hi : initial_nodes (mk_simulator_args 1 2 (GlobalRank "-" None)) (only_stdin kite_text) 1) by (split; [reflexivity|discriminate]).
  split; [exact Hi|]. assert (Es : exists f, simulated (mk_simulator_args 1 2 (GlobalRank "-" None)) (only_stdin kite_text) steps = Ok f) by (eexists; vm_compute; reflexivity).
  destruct Es as (f & Es). exists f. split; [exact Es|]. exists (of_list [0; 1; 2]). apply is_quorum_iff.
  assert (E : res_map (fun f => is_quorum f (of_list [0; 1; 2])) (simulated (mk_simulator_args 1 2 (GlobalRank "-" None)) (only_stdin kite_text) steps) = Ok true) by (vm_compute; reflexivity).
  rewrite Es in E. cbn in E. injection E as E. exact E.
Qed.

(** C82 for texts *)
Theorem C84_report : forall (float_text : f64 -> list ascii) (duration_text : string -> list ascii) (E : ext) (minus_zero : bool)
  (files : path -> option (list ascii)) (stdin : option (list ascii)) (args : cli) (s : list ascii) (f : fbas) (o : option groupings),
  ext_ok E -> float_format minus_zero float_text ->
  nodes_text args files stdin s -> fbas_from_text minus_zero s = Ok f ->
  text_groups_to_merge minus_zero args files f o -> (forall G, o = Some G -> disjoint_groups (g_groupings G)) ->
  (uses_alternative args -> has_a_quorum f) ->
  exists out items, cli_output float_text duration_text E minus_zero files stdin args = Ok out /\
    prints minus_zero float_text duration_text items out /\ any_report args f o (results items).
Proof. exact any_printed_report. Qed.
Print Assumptions C84_report.

(** the three programs, each reading what the one before it has printed *)
Theorem C84_in_a_row : forall (debug_f64 : probability -> string) (gargs : generator_args) (r : rng) (o : M_Bins.output) (c : qsc_config) (w : inputs) (graph_file : string) (r' : rng)
  (E : ext) (minus_zero : bool) (duration_text : string -> list ascii) (files : path -> option (list ascii)) (args : cli),
  (forall b, free_of newline (debug_f64 b)) -> proper_graph (arg_algorithm gargs) ->
  (Z.of_nat (graph_size (arg_algorithm gargs)) <= 2 ^ 53)%Z -> graph_generator debug_f64 gargs r = Ok o ->
  graph_path c = Some graph_file -> text_at w graph_file (Spec_Bins.output_text o) -> (forall size path t, c = FameWeightedRandom size path (Some t) -> (Z.of_nat t < 2 ^ 64)%Z) ->
  ext_ok E -> cli_nodes_path args = None -> cli_organizations_path args = None ->
  exists s f, simulator_text (mk_simulator_args 0 0 c) w r' = Ok s /\ fbas_from_text minus_zero s = Ok f /\
    number_of_nodes f = graph_size (arg_algorithm gargs) /\ generic_names f /\
    (satisfiable_policy c w (graph_size (arg_algorithm gargs)) -> has_a_quorum f) /\
    ((uses_alternative args -> has_a_quorum f) ->
     exists out items, cli_output json_float_text duration_text E minus_zero files (Some s) args = Ok out /\
       prints minus_zero json_float_text duration_text items out /\ any_report args f None (results items)) /\
    (cli_output json_float_text duration_text E minus_zero files (Some s) args = Panic <-> uses_alternative args /\ ~ has_a_quorum f).
Proof. exact in_a_row. Qed.
Print Assumptions C84_in_a_row.

(** ranked by [GlobalRankQsc], the nodes of a ring are all average: no node trusts any, there is no quorum, and the alternative check panics *)
Theorem C84_ring_refuted : exists s, simulator_text (mk_simulator_args 0 0 (GlobalRank "-" None)) (only_stdin ring_text) steps = Ok s /\
  forall duration_text minus_zero, cli_output json_float_text duration_text std_ext minus_zero no_files (Some s) (piped_options true) = Panic.
Proof. exact ranked_ring. Qed.
Print Assumptions C84_ring_refuted.

Definition piped_output : res string :=
  s <- simulator_text (mk_simulator_args 0 0 (AllNeighbors "-" None)) (only_stdin ring_text) steps ;;
  out <- cli_output json_float_text some_duration std_ext false no_files (Some s) (piped_options true) ;;
  Ok (string_of_list_ascii out).
Example C84_example : graph_generator (fun _ => "0.5") ring_args steps = Ok (To_stdout ring_text) /\
  satisfiable_policy (AllNeighbors "-" None) (only_stdin ring_text) 3 /\ text_at (only_stdin ring_text) "-" ring_text /\ proper_graph (arg_algorithm ring_args) /\
  uses_alternative (piped_options true) /\
  piped_output = Ok
"nodes_total: 3
symmetric_clusters: [{""threshold"":3,""validators"":[0,1,2]}]
symmetric_clusters_analysis_duration: 0.25s
minimal_quorums: [1,3,[3,3,3.0],[0,0,0,1]]
minimal_quorums_analysis_duration: 0.25s
has_quorum_intersection: true
has_quorum_intersection_analysis_duration: 0.25s
minimal_blocking_sets: [3,3,[1,1,1.0],[0,3]]
minimal_blocking_sets_analysis_duration: 0.25s
minimal_splitting_sets: [0,0,[0,0,0.0],[0]]
minimal_splitting_sets_analysis_duration: 0.25s
top_tier: [0,1,2]
".
Proof.
  split; [exact ring_printed|]. split; [intros x H; discriminate|]. split; [left; split; reflexivity|].
  split; [cbn; split; [exists 1; auto|]; split; [lia|discriminate]|]. split; [split; reflexivity|]. vm_compute. reflexivity.
Qed.
