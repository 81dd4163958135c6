(** Lemmas for [Th_Messages.v]. *)
From Coq Require Import ZArith Ascii.
From Verif Require Import Spec_Messages P_CliText P_ThBulk P_Bins P_Generator P_Messages.
Local Open Scope list_scope.
Local Open Scope nat_scope.

Lemma cli_results E files stdin args : snd (cli_main_aloud E files stdin args) = cli_main E files stdin args.
Proof. apply cli_aloud. Qed.
Lemma cli_messages E files stdin args j f : nodes_document args files stdin j -> fbas_from_json j = Ok f ->
  exists src choice merging groups, announces_source args src /\ if_any (announces_choice args) choice /\ if_any (announces_merging args) merging /\
    if_any (announces_groups args files f) groups /\
    conveys (fst (cli_main_aloud E files stdin args)) (src :: Loaded_nodes (List.length (nodes f)) :: choice ++ merging ++ groups).
Proof.
  intros Hj Hf. destruct (cli_told E files stdin args f) as (src & c & m & g & H1 & H2 & H3 & H4 & H5 & _); [apply document_load; eauto|].
  exists src, c, m, g. auto.
Qed.
Lemma cli_unreadable E files stdin args : (forall j f, nodes_document args files stdin j -> fbas_from_json j <> Ok f) ->
  cli_main_aloud E files stdin args = (fst (cli_main_aloud E files stdin args), Panic) /\
  exists src, announces_source args src /\ conveys (fst (cli_main_aloud E files stdin args)) [src].
Proof.
  intro Hn. destruct (cli_load_fbas files stdin (cli_nodes_path args)) as [f|] eqn:Hf.
  { apply document_load in Hf. destruct Hf as (j & Hj & H). exfalso. exact (Hn j f Hj H). }
  destruct (cli_untold E files stdin args Hf) as [H1 H2]. split.
  - rewrite (surjective_pairing (cli_main_aloud E files stdin args)) at 1. f_equal. rewrite H2. unfold cli_main. now rewrite Hf.
  - exists (source args). split; [apply source_ok|exact H1].
Qed.
Lemma groups_announced files args f o : groups_to_merge args files f o ->
  forall m, announces_groups args files f m <-> exists k G, preferred args k /\ o = Some G /\ m = Loaded_groups k (List.length (g_groupings G)).
Proof. apply announced_merged. Qed.
Definition from_stdin : cli := mk_cli None false false false false false true false false true (Some "data/x_organizations.json"%string) false true.
Lemma choice_refuted : exists files stdin args items f G, snd (cli_main_aloud std_ext files stdin args) = Ok items /\
  conveys (fst (cli_main_aloud std_ext files stdin args)) [Reading_nodes false; Loaded_nodes 3; Several Countries; Will_not_merge] /\
  described args files f Organizations G /\ groups_to_merge args files f None.
Proof.
  destruct three_orgs as (jo & G & Hjo & HG & _).
  exists three_files, (Some three_json), from_stdin. eexists. exists three, G. split; [vm_compute; reflexivity|]. split; [|split].
  - apply (conveys_cons (fst (say "Reading FBAS JSON from STDIN...")) (Reading_nodes false) _ _ (said_line _)).
    apply (conveys_cons (fst (say_number "Loaded FBAS with " 3 " nodes.")) (Loaded_nodes 3) _ _ (said_number _ _ _)).
    apply (conveys_cons (fst (say "Multiple merging options detected; will only merge nodes by country...")) (Several Countries) _ _ (said_line _)).
    apply conveys_one. apply said_line.
  - exists "data/x_organizations.json"%string, jo. auto.
  - reflexivity.
Qed.

Lemma simulator_messages args w r :
  exists src gr start finish, if_any (announces_graph_source (arg_qsc_config args)) src /\ if_any (announces_graph (arg_qsc_config args) w) gr /\
    if_any (fun m => m = Starting /\ forall path, graph_path (arg_qsc_config args) = Some path -> exists g, graph_at w path g) start /\
    if_any (fun m => m = Finished /\ exists j, qsc_simulator args w r = Ok j) finish /\
    conveys (fst (qsc_simulator_aloud args w r)) (src ++ gr ++ start ++ finish).
Proof.
  destruct (simulator_told args w r) as (src & gr & Hs & Hg & H1 & H2 & H3). exists src, gr.
  destruct (parse_qsc_config w (arg_qsc_config args)) as [Qn|] eqn:Hq.
  - assert (Hr : readable_graph args w) by (apply parsed_iff; eauto). exists [Starting]. destruct (qsc_simulator args w r) as [j|] eqn:Hj.
    + exists [Finished]. split; [auto|]. split; [auto|]. split; [left; eauto|]. split; [left; eauto|]. exact (proj1 (H1 Hr j eq_refl)).
    + exists []. split; [auto|]. split; [auto|]. split; [left; eauto|]. split; [right; split; auto; intros m (_ & j & H); discriminate|]. exact (proj1 (H2 Hr eq_refl)).
  - assert (Hr : ~ readable_graph args w) by (intro H; apply parsed_iff in H; destruct H; congruence). exists [], [].
    split; [auto|]. split; [auto|]. split; [right; split; auto; intros m (_ & H); exact (Hr H)|].
    split; [right; split; auto; intros m (_ & j & H); unfold qsc_simulator, simulated in H; rewrite Hq in H; discriminate|]. rewrite app_nil_r. exact (proj1 (H3 Hr)).
Qed.
Lemma simulator_results args w r : snd (qsc_simulator_aloud args w r) = qsc_simulator args w r.
Proof.
  destruct (simulator_told args w r) as (src & gr & Hs & Hg & H1 & H2 & H3). destruct (parse_qsc_config w (arg_qsc_config args)) as [Qn|] eqn:Hq.
  - assert (Hr : readable_graph args w) by (apply parsed_iff; eauto). destruct (qsc_simulator args w r) as [j|] eqn:Hj.
    + exact (proj2 (H1 Hr j eq_refl)).
    + exact (proj2 (H2 Hr eq_refl)).
  - assert (Hr : ~ readable_graph args w) by (intro H; apply parsed_iff in H; destruct H; congruence).
    rewrite (proj2 (H3 Hr)). unfold qsc_simulator, simulated. now rewrite Hq.
Qed.
Lemma generator_results debug_f64 args r : snd (graph_generator_aloud debug_f64 args r) = graph_generator debug_f64 args r.
Proof. apply generator_aloud. Qed.
Lemma generator_messages debug_f64 args r : exists ms, conveys (fst (graph_generator_aloud debug_f64 args r)) ms /\
  if_any (fun m => m = Printing (graph_size (arg_algorithm args)) /\ exists text, graph_generator debug_f64 args r = Ok (To_stdout text)) ms.
Proof. apply generator_told. Qed.
Lemma printed_number (debug_f64 : probability -> string) args r text :
  (forall b, free_of newline (debug_f64 b)) -> proper_graph (arg_algorithm args) -> (N.of_nat (graph_size (arg_algorithm args)) < 2 ^ 64)%N ->
  graph_generator debug_f64 args r = Ok (To_stdout text) ->
  exists g, from_as_rel_string text = Ok g /\ conveys (fst (graph_generator_aloud debug_f64 args r)) [Printing (List.length g)].
Proof.
  intros Hd Hp Hn Hg. destruct (generator_spec debug_f64 args r Hd Hp Hn) as (o & g' & g & r' & p & Ho & _ & _ & Ht & _ & Hl & _).
  assert (o = To_stdout text) by congruence. subst o. exists g'. split; [exact Ht|]. rewrite Hl.
  destruct (generator_told debug_f64 args r) as (ms & Hc & [(m & [-> _] & ->)|[H _]]); [exact Hc|]. exfalso. eapply H. eauto.
Qed.
Lemma isolated_number : exists args r text, graph_generator (fun _ => "0.5"%string) args r = Ok (To_stdout text) /\
  conveys (fst (graph_generator_aloud (fun _ => "0.5"%string) args r)) [Printing 3] /\ from_as_rel_string text = Ok [].
Proof.
  exists (mk_generator_args (WattsStrogatz 3 0 (Some 0%N)) None true), steps. eexists. split; [vm_compute; reflexivity|]. split; [|vm_compute; reflexivity].
  destruct (generator_told (fun _ => "0.5"%string) (mk_generator_args (WattsStrogatz 3 0 (Some 0%N)) None true) steps) as (ms & Hc & [(m & [-> _] & ->)|[H _]]); [exact Hc|].
  exfalso. eapply (H _). split; [reflexivity|]. eexists. vm_compute. reflexivity.
Qed.
