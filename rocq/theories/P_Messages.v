(** Messages on the standard error output. *)
From Coq Require Import ZArith Ascii.
From Verif Require Import Spec_Messages P_CliCount P_Cli P_CliText P_Shuffle P_Bins P_Simulator P_Generator.
Local Open Scope list_scope.
Local Open Scope nat_scope.

(** ** texts *)
Lemma conveys_nil : conveys [] [].
Proof. exists []. auto. Qed.
Lemma conveys_app t ms t' ms' : conveys t ms -> conveys t' ms' -> conveys (t ++ t') (ms ++ ms').
Proof. intros (l & H & ->) (l' & H' & ->). exists (l ++ l'). split; [now apply Forall2_app|]. now rewrite concat_app. Qed.
Lemma conveys_one t m : message_line m t -> conveys t [m].
Proof. intro H. exists [t]. split; [auto|]. cbn. now rewrite app_nil_r. Qed.
Lemma conveys_cons t m t' ms : message_line m t -> conveys t' ms -> conveys (t ++ t') (m :: ms).
Proof. intros H H'. apply (conveys_app _ [m]); auto. now apply conveys_one. Qed.
Lemma said_line s : line_of s (fst (say s)).
Proof. reflexivity. Qed.
Lemma said_number s n s' : numbered_line s n s' (fst (say_number s n s')).
Proof. exists (nat_text n). split; [apply nat_text_decimal|reflexivity]. Qed.
Lemma then_ok {A B} (x : aloud A) (k : A -> aloud B) a : snd x = Ok a -> and_then x k = (fst x ++ fst (k a), snd (k a)).
Proof. intro H. unfold and_then. now rewrite H. Qed.
Lemma quiet_then {A B} (x : res A) (k : A -> aloud B) : and_then (silently x) k = match x with Ok a => k a | Panic => ([], Panic) end.
Proof. unfold and_then, silently. cbn [fst snd]. destruct x; auto. cbn. now destruct (k a). Qed.
Lemma say_then {B} s (k : unit -> aloud B) : and_then (say s) k = (fst (say s) ++ fst (k tt), snd (k tt)).
Proof. reflexivity. Qed.
Lemma number_then {B} s n s' (k : unit -> aloud B) : and_then (say_number s n s') k = (fst (say_number s n s') ++ fst (k tt), snd (k tt)).
Proof. reflexivity. Qed.

Definition told {A} (x : aloud A) (ms : list message) (r : res A) : Prop := conveys (fst x) ms /\ snd x = r.
Lemma told_then {A B} (x : aloud A) (k : A -> aloud B) ms a ms' r : told x ms (Ok a) -> told (k a) ms' r -> told (and_then x k) (ms ++ ms') r.
Proof. intros [H E] [H' E']. rewrite (then_ok x k a E). split; cbn [fst snd]; auto. now apply conveys_app. Qed.
Lemma told_panic {A B} (x : aloud A) (k : A -> aloud B) ms : told x ms Panic -> told (and_then x k) ms Panic.
Proof. intros [H E]. unfold and_then. rewrite E. split; auto. Qed.
Lemma told_quiet {A} (r : res A) : told (silently r) [] r.
Proof. split; [apply conveys_nil|reflexivity]. Qed.
Lemma told_say m s : message_line m = line_of s -> told (say s) [m] (Ok tt).
Proof. intro H. split; [|reflexivity]. apply conveys_one. rewrite H. apply said_line. Qed.
Lemma told_number m s n s' : message_line m = numbered_line s n s' -> told (say_number s n s') [m] (Ok tt).
Proof. intro H. split; [|reflexivity]. apply conveys_one. rewrite H. apply said_number. Qed.

(** ** fbas_analyzer *)
Section Cli.
Variable E : ext.
Variable files : path -> option json.
Variable stdin : option json.
Variable args : cli.

Definition source : message := Reading_nodes (match cli_nodes_path args with Some _ => true | None => false end).
Lemma source_ok : announces_source args source.
Proof. unfold source, announces_source. destruct (cli_nodes_path args); eauto. Qed.
Lemma loaded f : cli_load_fbas files stdin (cli_nodes_path args) = Ok f ->
  told (load_fbas_aloud files stdin (cli_nodes_path args)) [source; Loaded_nodes (List.length (nodes f))] (Ok f).
Proof.
  intro H. unfold load_fbas_aloud. apply (told_then _ _ [source] tt [Loaded_nodes (List.length (nodes f))]).
  - apply told_say. unfold source. destruct (cli_nodes_path args); reflexivity.
  - rewrite H. apply (told_then _ _ [] f [Loaded_nodes (List.length (nodes f))]); [apply told_quiet|].
    apply (told_then _ _ [Loaded_nodes (List.length (nodes f))] tt []); [now apply told_number|apply told_quiet].
Qed.
Lemma not_loaded : cli_load_fbas files stdin (cli_nodes_path args) = Panic ->
  told (load_fbas_aloud files stdin (cli_nodes_path args)) [source] Panic.
Proof.
  intro H. unfold load_fbas_aloud. apply (told_then _ _ [source] tt []).
  - apply told_say. unfold source. destruct (cli_nodes_path args); reflexivity.
  - rewrite H. apply told_panic, told_quiet.
Qed.

Lemma choice_told : exists ms, if_any (announces_choice args) ms /\ told (extract_groupings_todos_aloud args) ms (Ok (extract_groupings_todos args)).
Proof.
  unfold extract_groupings_todos_aloud, extract_groupings_todos, if_any, announces_choice, preferred.
  destruct (cli_ctry_merge args) eqn:Ec; [|destruct (cli_isp_merge args) eqn:Ei].
  - destruct (cli_isp_merge args || match cli_organizations_path args with Some _ => true | None => false end) eqn:Eo.
    + exists [Several Countries]. split.
      * left. exists (Several Countries). split; auto. apply orb_true_iff in Eo. exists Countries.
        destruct Eo as [Eo|Eo]; [exists Isps|exists Organizations]; (split; [auto|]); (split; [split; [exact Ec|intros [] []]|]); (split; [cbn|discriminate]); auto.
        destruct (cli_organizations_path args) as [p|]; [eauto|discriminate].
      * rewrite <- (app_nil_r [Several Countries]). eapply told_then; [now apply told_say|apply told_quiet].
    + exists []. split.
      * right. split; auto. apply orb_false_iff in Eo. destruct Eo as [Eo1 Eo2]. intros m (k & k' & _ & [Hk Hb] & Hk' & Hn).
        destruct k; [|exact (Hb Countries I Ec)|exact (Hb Countries I Ec)]. destruct k'; [congruence| |]; cbn in Hk'; [congruence|].
        destruct Hk' as [p Hp]. rewrite Hp in Eo2. discriminate.
      * apply (told_then _ _ [] tt []); apply told_quiet.
  - destruct (cli_organizations_path args) as [p|] eqn:Eo.
    + exists [Several Isps]. split.
      * left. exists (Several Isps). split; auto. exists Isps, Organizations. split; auto. split; [split; [exact Ei|]|].
        -- intros [] Hb; try destruct Hb. cbn. congruence.
        -- split; [cbn; eauto|discriminate].
      * rewrite <- (app_nil_r [Several Isps]). eapply told_then; [now apply told_say|apply told_quiet].
    + exists []. split.
      * right. split; auto. intros m (k & k' & _ & [Hk Hb] & Hk' & Hn). destruct k; cbn in Hk; [congruence| |]; destruct k'; cbn in Hk'; try congruence.
        -- destruct Hk' as [p Hp]. congruence.
        -- destruct Hk as [p Hp]. congruence.
      * apply (told_then _ _ [] tt []); apply told_quiet.
  - exists []. split.
    + right. split; auto. intros m (k & k' & _ & [Hk Hb] & Hk' & Hn). destruct k, k'; cbn in Hk, Hk'; congruence.
    + destruct (cli_organizations_path args); apply told_quiet.
Qed.

(** nodes are merged as announced *)
Lemma preferred_one k k' : preferred args k -> preferred args k' -> k = k'.
Proof. intros [H1 H2] [H1' H2']. destruct k, k'; auto; exfalso; first [exact (H2' Countries I H1)|exact (H2' Isps I H1)|exact (H2 Countries I H1')|exact (H2 Isps I H1')]. Qed.
Lemma some_preferred : (exists k, preferred args k) \/ (cli_ctry_merge args = false /\ cli_isp_merge args = false /\ cli_organizations_path args = None).
Proof.
  unfold preferred. destruct (cli_ctry_merge args) eqn:Ec; [left; exists Countries; split; [exact Ec|intros [] []]|].
  destruct (cli_isp_merge args) eqn:Ei; [left; exists Isps; split; [exact Ei|intros [] Hb; try destruct Hb; cbn; congruence]|].
  destruct (cli_organizations_path args) as [p|] eqn:Eo; [|auto].
  left. exists Organizations. split; [cbn; eauto|]. intros [] Hb; try destruct Hb; cbn; congruence.
Qed.
Lemma todos_of k : preferred args k -> extract_groupings_todos args = match k with Countries => (true, false, false) | Isps => (false, true, false) | Organizations => (false, false, true) end.
Proof.
  intros [H Hb]. unfold extract_groupings_todos. destruct k; cbn in H.
  - now rewrite H.
  - rewrite H. pose proof (Hb Countries I) as Hc. cbn in Hc. destruct (cli_ctry_merge args); [congruence|auto].
  - destruct H as [p Hp]. rewrite Hp. pose proof (Hb Countries I) as Hc. pose proof (Hb Isps I) as Hi. cbn in Hc, Hi.
    destruct (cli_ctry_merge args), (cli_isp_merge args); try congruence; auto.
Qed.
Definition groupings_told (f : fbas) (todos : bool * bool * bool) : aloud (option groupings) :=
  let '(ctry, isp, org) := todos in
  if ctry then maybe_load_countries_aloud files (cli_nodes_path args) f
  else if isp then maybe_load_isps_aloud files (cli_nodes_path args) f
  else if org then maybe_load_organizations_aloud files (cli_organizations_path args) f
  else silently (Ok None).
Lemma main_eq : cli_main_aloud E files stdin args =
  and_then (load_fbas_aloud files stdin (cli_nodes_path args)) (fun f =>
  and_then (extract_groupings_todos_aloud args) (fun todos =>
  and_then (groupings_told f todos) (fun g => silently (cli_report E args f g)))).
Proof.
  unfold cli_main_aloud, groupings_told, and_then. destruct (snd (load_fbas_aloud _ _ _)); auto.
  destruct (snd (extract_groupings_todos_aloud args)) as [[[c i] o]|]; auto.
Qed.
(** a stage that announces what it reads *)
Lemma stage s (load : res groupings) before after m m' : message_line m = line_of s -> (forall G, load = Ok G -> message_line (m' G) = numbered_line before (List.length (g_groupings G)) after) ->
  told (and_then (say s) (fun _ => and_then (silently (res_map Some load)) (fun g => and_then (say_groupings before g after) (fun _ => silently (Ok g)))))
    (m :: match load with Ok G => [m' G] | Panic => [] end) (res_map Some load).
Proof.
  intros Hm Hm'. apply (told_then _ _ [m] tt); [now apply told_say|]. destruct load as [G|]; cbn [res_map].
  - apply (told_then _ _ [] (Some G) [m' G]); [apply told_quiet|]. cbn [say_groupings]. apply (told_then _ _ [m' G] tt []); [|apply told_quiet].
    apply told_number. now apply Hm'.
  - apply told_panic, told_quiet.
Qed.
Definition group_messages (k : kind) (load : res groupings) : list message :=
  match load with Ok G => [Loaded_groups k (List.length (g_groupings G))] | Panic => [] end.
Lemma groups_told f : exists merging groups, if_any (announces_merging args) merging /\ if_any (announces_groups args files f) groups /\
  told (groupings_told f (extract_groupings_todos args)) (merging ++ groups) (cli_groupings files args f).
Proof.
  unfold cli_groupings. destruct some_preferred as [(k & Hk)|(Ec & Ei & Eo)].
  2:{ exists [], []. assert (Hn : forall k, ~ preferred args k).
      { intros k [H _]. destruct k; cbn in H; try congruence. destruct H as [p H]. congruence. }
      split; [right; split; auto; intros m (k & H & _); exact (Hn k H)|]. split; [right; split; auto; intros m (k & G & _ & H & _); exact (Hn k H)|].
      unfold extract_groupings_todos. rewrite Ec, Ei, Eo. apply told_quiet. }
  rewrite (todos_of k Hk).
  assert (Hyes : file_given args k -> if_any (announces_merging args) [Will_merge k]).
  { intro Hf. left. exists (Will_merge k). split; auto. exists k. auto. }
  assert (Hno : ~ file_given args k -> if_any (announces_merging args) [Will_not_merge]).
  { intro Hf. left. exists Will_not_merge. split; auto. exists k. auto. }
  assert (Hg : forall load, (forall G, load = Ok G <-> described args files f k G) -> if_any (announces_groups args files f) (group_messages k load)).
  { intros load Hl. unfold group_messages. destruct load as [G|].
    - left. eexists. split; [|reflexivity]. exists k, G. split; auto. split; auto. now apply Hl.
    - right. split; auto. intros m (k' & G & _ & Hk' & HG). rewrite <- (preferred_one _ _ Hk Hk') in HG. apply Hl in HG. discriminate. }
  destruct k; cbn [groupings_told].
  - unfold maybe_load_countries_aloud, cli_maybe_load_countries. destruct (cli_nodes_path args) as [p|] eqn:Ep.
    + set (load := bind (read_file files p) (fun j => countries_from_json j f)).
      exists [Will_merge Countries], (group_messages Countries load). split; [apply Hyes; cbn; eauto|]. split.
      * apply Hg. intro G. cbn [described]. unfold load, read_file. split.
        -- intro H. apply bind_inv in H. destruct H as (j & Hj & H). exists p, j. split; auto. split; auto. destruct (files p); cbn in Hj; congruence.
        -- intros (p' & j & Ep' & Hj & H). assert (p' = p) by congruence. subst p'. rewrite Hj. exact H.
      * assert (El : bind (read_file files p) (fun j => res_map Some (countries_from_json j f)) = res_map Some load).
        { unfold load. destruct (read_file files p); auto. }
        rewrite El. cbn [app]. unfold group_messages. apply (stage _ load _ _ _ (fun G => Loaded_groups Countries (List.length (g_groupings G)))); auto.
    + exists [Will_not_merge], []. split; [apply Hno; intros [p H]; congruence|]. split.
      * apply (Hg Panic). intro G. split; [discriminate|]. intros (p & j & H & _). congruence.
      * apply (told_then _ _ [Will_not_merge] tt []); [now apply told_say|apply told_quiet].
  - unfold maybe_load_isps_aloud, cli_maybe_load_isps. destruct (cli_nodes_path args) as [p|] eqn:Ep.
    + set (load := bind (read_file files p) (fun j => isps_from_json j f)).
      exists [Will_merge Isps], (group_messages Isps load). split; [apply Hyes; cbn; eauto|]. split.
      * apply Hg. intro G. cbn [described]. unfold load, read_file. split.
        -- intro H. apply bind_inv in H. destruct H as (j & Hj & H). exists p, j. split; auto. split; auto. destruct (files p); cbn in Hj; congruence.
        -- intros (p' & j & Ep' & Hj & H). assert (p' = p) by congruence. subst p'. rewrite Hj. exact H.
      * assert (El : bind (read_file files p) (fun j => res_map Some (isps_from_json j f)) = res_map Some load).
        { unfold load. destruct (read_file files p); auto. }
        rewrite El. cbn [app]. unfold group_messages. apply (stage _ load _ _ _ (fun G => Loaded_groups Isps (List.length (g_groupings G)))); auto.
    + exists [Will_not_merge], []. split; [apply Hno; intros [p H]; congruence|]. split.
      * apply (Hg Panic). intro G. split; [discriminate|]. intros (p & j & H & _). congruence.
      * apply (told_then _ _ [Will_not_merge] tt []); [now apply told_say|apply told_quiet].
  - unfold maybe_load_organizations_aloud, maybe_load_organizations. destruct Hk as [[p Ep] Hb]. rewrite Ep.
    set (load := bind (read_file files p) (fun j => groupings_from_json j f)).
    exists [Will_merge Organizations], (group_messages Organizations load). split; [apply Hyes; cbn; eauto|]. split.
    + apply Hg. intro G. cbn [described]. unfold load, read_file. split.
      * intro H. apply bind_inv in H. destruct H as (j & Hj & H). exists p, j. split; auto. split; auto. destruct (files p); cbn in Hj; congruence.
      * intros (p' & j & Ep' & Hj & H). assert (p' = p) by congruence. subst p'. rewrite Hj. exact H.
    + assert (El : bind (read_file files p) (fun j => res_map Some (groupings_from_json j f)) = res_map Some load).
      { unfold load. destruct (read_file files p); auto. }
      rewrite El. cbn [app]. unfold group_messages. apply (stage _ load _ _ _ (fun G => Loaded_groups Organizations (List.length (g_groupings G)))); auto.
Qed.

Lemma document_load f : cli_load_fbas files stdin (cli_nodes_path args) = Ok f <-> exists j, nodes_document args files stdin j /\ fbas_from_json j = Ok f.
Proof.
  unfold nodes_document, cli_load_fbas, load_fbas, read_file. split.
  - destruct (cli_nodes_path args); intro H; apply bind_inv in H; destruct H as (j & Hj & H); exists j; split; auto; [destruct (files p)|destruct stdin]; cbn in Hj; congruence.
  - intros (j & Hj & H). destruct (cli_nodes_path args); rewrite Hj; exact H.
Qed.
Lemma cli_told f : cli_load_fbas files stdin (cli_nodes_path args) = Ok f ->
  exists src choice merging groups, announces_source args src /\ if_any (announces_choice args) choice /\ if_any (announces_merging args) merging /\
  if_any (announces_groups args files f) groups /\
  told (cli_main_aloud E files stdin args) (src :: Loaded_nodes (List.length (nodes f)) :: choice ++ merging ++ groups) (cli_main E files stdin args).
Proof.
  intro Hf. destruct choice_told as (choice & Hc & Tc). destruct (groups_told f) as (merging & groups & Hm & Hg & Tg).
  exists source, choice, merging, groups. split; [apply source_ok|]. split; auto. split; auto. split; auto.
  rewrite main_eq. unfold cli_main. rewrite Hf. cbn [bind]. apply (told_then _ _ [source; Loaded_nodes (List.length (nodes f))] f); [now apply loaded|].
  eapply told_then; [exact Tc|]. destruct (cli_groupings files args f) as [g|]; cbn [bind].
  - rewrite <- (app_nil_r (merging ++ groups)). eapply told_then; [exact Tg|apply told_quiet].
  - now apply told_panic.
Qed.
Lemma cli_untold : cli_load_fbas files stdin (cli_nodes_path args) = Panic -> told (cli_main_aloud E files stdin args) [source] (cli_main E files stdin args).
Proof. intro Hf. rewrite main_eq. unfold cli_main. rewrite Hf. now apply told_panic, not_loaded. Qed.
Lemma cli_aloud : snd (cli_main_aloud E files stdin args) = cli_main E files stdin args.
Proof.
  destruct (cli_load_fbas files stdin (cli_nodes_path args)) as [f|] eqn:Hf; [|apply cli_untold; auto].
  destruct (cli_told f Hf) as (? & ? & ? & ? & _ & _ & _ & _ & _ & H). exact H.
Qed.
(** the announced groups are those by which nodes are merged *)
Lemma announced_merged f o : groups_to_merge args files f o -> forall m, announces_groups args files f m <-> exists k G, preferred args k /\ o = Some G /\ m = Loaded_groups k (List.length (g_groupings G)).
Proof.
  intros Ho m. assert (H : forall k, preferred args k -> forall G, described args files f k G <-> o = Some G).
  { intros k Hk G. pose proof (todos_of k Hk) as Ht. unfold extract_groupings_todos in Ht. unfold groups_to_merge in Ho.
    destruct (cli_ctry_merge args), (cli_isp_merge args), (cli_organizations_path args) as [p|] eqn:Ep, (cli_nodes_path args) as [p'|] eqn:Ep', k; try discriminate; cbn [described];
      rewrite ?Ep, ?Ep'; try (destruct Ho as (j & G' & Hj & HG & ->)); try subst o;
      (split; [intros (p0 & j0 & E0 & Hj0 & HG0); first [discriminate E0|assert (j0 = j) by congruence; subst; congruence]
              |intro EG; first [discriminate EG|injection EG as ->; do 2 eexists; split; [reflexivity|]; eauto]]). }
  unfold announces_groups. split.
  - intros (k & G & -> & Hk & HG). exists k, G. split; auto. split; auto. now apply (H k Hk).
  - intros (k & G & Hk & -> & ->). exists k, G. split; auto. split; auto. now apply (H k Hk).
Qed.
End Cli.

(** ** qsc_simulator *)
Section Simulator.
Variables (args : simulator_args) (w : inputs) (r : rng).
Definition readable_graph : Prop := forall path, graph_path (arg_qsc_config args) = Some path -> exists g, graph_at w path g.
Lemma graph_told : exists src gr, if_any (announces_graph_source (arg_qsc_config args)) src /\ if_any (announces_graph (arg_qsc_config args) w) gr /\
  told (parse_qsc_config_aloud w (arg_qsc_config args)) (src ++ gr) (parse_qsc_config w (arg_qsc_config args)).
Proof.
  unfold announces_graph_source, announces_graph. destruct (graph_path (arg_qsc_config args)) as [path|] eqn:Hp.
  2:{ exists [], []. split; [right; split; auto; intros m (p & H & _); discriminate|]. split; [right; split; auto; intros m (p & g & H & _); discriminate|].
      destruct (arg_qsc_config args); cbn in Hp; try discriminate; apply told_quiet. }
  set (src := Reading_graph (negb (String.eqb path "-"))).
  assert (Hs : if_any (fun m => exists p, Some path = Some p /\ ((m = Reading_graph false /\ p = "-"%string) \/ (m = Reading_graph true /\ p <> "-"%string))) [src]).
  { left. exists src. split; auto. exists path. split; auto. unfold src. destruct (String.eqb_spec path "-"); cbn; auto. }
  assert (Eq : parse_qsc_config_aloud w (arg_qsc_config args) = and_then (parse_graph_path_aloud w path) (fun _ => silently (parse_qsc_config w (arg_qsc_config args)))).
  { destruct (arg_qsc_config args); cbn in Hp; try discriminate; injection Hp as ->; reflexivity. }
  assert (Hline : told (say (if String.eqb path "-" then "Reading graph from STDIN..." else "Reading graph from file...")) [src] (Ok tt)).
  { apply told_say. unfold src. destruct (String.eqb path "-"); reflexivity. }
  destruct (parse_graph_path w path) as [[g n]|] eqn:Hg.
  - pose proof (proj1 (parse_graph_iff w path g n) Hg) as [Hat ->].
    exists [src], [Read_graph (List.length g)]. split; [exact Hs|]. split.
    + left. eexists. split; [|reflexivity]. exists path, g. auto.
    + rewrite Eq. rewrite <- (app_nil_r ([src] ++ _)). eapply (told_then _ _ _ (g, List.length g)); [|apply told_quiet].
      unfold parse_graph_path_aloud. eapply told_then; [exact Hline|]. rewrite Hg.
      apply (told_then _ _ [] (g, List.length g) [Read_graph (List.length g)]); [apply told_quiet|].
      apply (told_then _ _ [Read_graph (List.length g)] tt []); [now apply told_number|apply told_quiet].
  - assert (Hn : forall g, ~ graph_at w path g).
    { intros g H. pose proof (proj2 (parse_graph_iff w path g (List.length g)) (conj H eq_refl)). congruence. }
    exists [src], []. split; [exact Hs|]. split.
    + right. split; auto. intros m (p & g & Hp' & H & _). injection Hp' as <-. exact (Hn g H).
    + rewrite Eq, (parse_panic w _ path Hp Hn). apply told_panic. unfold parse_graph_path_aloud. eapply told_then; [exact Hline|]. rewrite Hg. apply told_panic, told_quiet.
Qed.
Lemma parsed_iff : (exists Qn, parse_qsc_config w (arg_qsc_config args) = Ok Qn) <-> readable_graph.
Proof.
  split.
  - intros (Qn & H) path Hp. destruct (parse_graph_path w path) as [[g n]|] eqn:Hg.
    + exists g. now apply (parse_graph_iff w path g n).
    + rewrite (parse_panic w _ path Hp) in H; [discriminate|]. intros g Hat.
      pose proof (proj2 (parse_graph_iff w path g (List.length g)) (conj Hat eq_refl)). congruence.
  - intro H. destruct (parse_ok w (arg_qsc_config args) H) as (Q & n & E & _). eauto.
Qed.
Lemma simulator_told : exists src gr, if_any (announces_graph_source (arg_qsc_config args)) src /\ if_any (announces_graph (arg_qsc_config args) w) gr /\
  (readable_graph -> forall j, qsc_simulator args w r = Ok j -> told (qsc_simulator_aloud args w r) (src ++ gr ++ [Starting; Finished]) (Ok j)) /\
  (readable_graph -> qsc_simulator args w r = Panic -> told (qsc_simulator_aloud args w r) (src ++ gr ++ [Starting]) Panic) /\
  (~ readable_graph -> told (qsc_simulator_aloud args w r) (src ++ gr) Panic).
Proof.
  destruct graph_told as (src & gr & Hs & Hg & Ht). exists src, gr. split; auto. split; auto.
  unfold qsc_simulator, simulated, qsc_simulator_aloud.
  destruct (parse_qsc_config w (arg_qsc_config args)) as [[Q n]|] eqn:Hq.
  2:{ assert (Hn : ~ readable_graph) by (intro H; apply parsed_iff in H; destruct H as [Qn H]; congruence).
      split; [intro H; contradiction|]. split; [intro H; contradiction|]. intros _. now apply told_panic. }
  assert (Hy : readable_graph) by (apply parsed_iff; eauto). cbn [bind].
  set (initial_n := if ((0 <? arg_initial_n args) || (0 <? arg_grow_by_n args))%nat%bool then arg_initial_n args else n). destruct (unconfigured initial_n) as (f & Hf & _). rewrite Hf. cbn [bind].
  assert (Tf : forall (B : Type) (k : fbas -> aloud B) (ms : list message) (b : res B), told (k f) ms b -> told (and_then (silently (Ok f)) k) ms b).
  { intros B k ms b H. apply (told_then _ _ [] f); [apply told_quiet|exact H]. }
  rewrite !app_assoc.
  destruct (simulate_global_reevaluation Q initial_n (mk_sim f [] r)) as [sk|] eqn:Hsk; cbn [bind]; [destruct (simulate_growth Q (arg_grow_by_n args) (fst sk)) as [s|] eqn:Hgr; cbn [bind res_map]|cbn [res_map]].
  - split; [|split; [discriminate|contradiction]]. intros _ j Hj. injection Hj as <-.
    eapply told_then; [exact Ht|]. cbv zeta iota. fold initial_n. rewrite Hf. apply Tf. apply (told_then _ _ [Starting] tt [Finished]); [now apply told_say|].
    rewrite Hsk. apply (told_then _ _ [] sk); [apply told_quiet|]. rewrite Hgr. apply (told_then _ _ [] s); [apply told_quiet|].
    apply (told_then _ _ [Finished] tt []); [now apply told_say|apply told_quiet].
  - split; [discriminate|]. split; [|contradiction]. intros _ _.
    eapply told_then; [exact Ht|]. cbv zeta iota. fold initial_n. rewrite Hf. apply Tf. apply (told_then _ _ [Starting] tt []); [now apply told_say|].
    rewrite Hsk. apply (told_then _ _ [] sk); [apply told_quiet|]. rewrite Hgr. apply told_panic, told_quiet.
  - split; [discriminate|]. split; [|contradiction]. intros _ _.
    eapply told_then; [exact Ht|]. cbv zeta iota. fold initial_n. rewrite Hf. apply Tf. apply (told_then _ _ [Starting] tt []); [now apply told_say|].
    rewrite Hsk. apply told_panic, told_quiet.
Qed.
End Simulator.

(** ** graph_generator *)
Section Generator.
Variables (debug_f64 : probability -> string) (args : generator_args) (r : rng).
Lemma generator_aloud : snd (graph_generator_aloud debug_f64 args r) = graph_generator debug_f64 args r.
Proof.
  unfold graph_generator_aloud, graph_generator. rewrite quiet_then. destruct (apply_graph_gen_alg _ _) as [gr|]; auto. cbn [bind].
  rewrite quiet_then. destruct (if arg_dont_shuffle args then _ else _) as [g|]; auto. cbn [bind].
  rewrite quiet_then. destruct (to_as_rel_string _ _) as [t|]; auto. cbn [bind]. destruct (arg_path args); auto.
Qed.
Lemma generator_told : exists ms, conveys (fst (graph_generator_aloud debug_f64 args r)) ms /\
  if_any (fun m => m = Printing (graph_size (arg_algorithm args)) /\ exists text, graph_generator debug_f64 args r = Ok (To_stdout text)) ms.
Proof.
  destruct (graph_generator debug_f64 args r) as [o|] eqn:Ho.
  - assert (Ha : exists g r', apply_graph_gen_alg (arg_algorithm args) r = Ok (g, r') /\ wf_graph g /\ List.length g = graph_size (arg_algorithm args)).
    { destruct (apply_graph_gen_alg (arg_algorithm args) r) as [[g r']|] eqn:Eg; [|rewrite (generator_panics _ _ _ Eg) in Ho; discriminate].
      assert (Hac : accepted (arg_algorithm args)).
      { assert (D : accepted (arg_algorithm args) \/ ~ accepted (arg_algorithm args)).
        { destruct (arg_algorithm args) as [n m0 m|n k beta]; cbn [accepted].
          - lia.
          - destruct (Nat.Even_or_Odd k) as [He|Hodd]; [|right; intros [He _]; destruct He, Hodd; lia].
            destruct (le_lt_dec k n); [|right; lia]. destruct beta; [left; split; auto; split; auto; discriminate|].
            destruct (Nat.eq_dec k 0) as [Hk|Hk]; [left; auto|right; intros (_ & _ & H); exact (Hk (H eq_refl))]. }
        destruct D as [D|D]; auto. exfalso. apply (generator_panics_exactly debug_f64 args r) in D. congruence. }
      destruct (accepted_made _ r Hac) as (g0 & r0 & E0 & Hs & Hl & _). assert (g0 = g /\ r0 = r') as [-> ->] by (split; congruence).
      exists g, r'. split; auto. split; [apply Hs|auto]. }
    destruct Ha as (g & r' & Eg & Hw & Hl).
    unfold graph_generator_aloud. unfold graph_generator in Ho. rewrite quiet_then, Eg, quiet_then. rewrite Eg in Ho. cbn [bind fst snd] in *.
    assert (Hg1 : forall g1, (if arg_dont_shuffle args then Ok g else res_map fst (shuffled g r')) = Ok g1 -> List.length g1 = List.length g).
    { intro g1. destruct (arg_dont_shuffle args); [congruence|]. destruct (shuffled_iso g r' Hw) as (g2 & r2 & p & E2 & Hiso & _). rewrite E2. cbn.
      intro H. injection H as <-. exact (proj1 Hiso). }
    destruct (if arg_dont_shuffle args then _ else _) as [g1|]; cbn [bind] in Ho; [|discriminate]. specialize (Hg1 g1 eq_refl). rewrite quiet_then.
    destruct (to_as_rel_string _ _) as [t|]; cbn [bind] in Ho; [|discriminate]. injection Ho as <-. destruct (arg_path args).
    + exists []. split; [apply conveys_nil|]. right. split; auto. intros m (_ & t' & H). discriminate.
    + eexists. split.
      * rewrite number_then. cbn [fst silently]. rewrite app_nil_r. apply (conveys_one _ (Printing (graph_size (arg_algorithm args)))).
        rewrite <- Hl, <- Hg1. apply said_number.
      * left. eexists. split; [split; [reflexivity|eauto]|reflexivity].
  - exists []. split; [|right; split; auto; intros m (_ & t & H); discriminate].
    unfold graph_generator_aloud. unfold graph_generator in Ho. rewrite quiet_then. destruct (apply_graph_gen_alg _ _) as [gr|]; cbn [bind] in Ho; [|apply conveys_nil].
    rewrite quiet_then. destruct (if arg_dont_shuffle args then _ else _) as [g|]; cbn [bind] in Ho; [|apply conveys_nil].
    rewrite quiet_then. destruct (to_as_rel_string _ _) as [t|]; cbn [bind] in Ho; [discriminate|apply conveys_nil].
Qed.
End Generator.
