(** Statements of [Th_CliAny.v]. *)
From Coq Require Import ZArith Reals Ascii.
From Verif Require Export P_CliAny P_ThCli.
Local Open Scope string_scope.
Local Open Scope list_scope.
Local Open Scope nat_scope.

Lemma any_reported E files stdin args j l f o : ext_ok E -> nodes_document args files stdin j -> raw_fbas_of_json j = Ok l -> fbas_from_json j = Ok f ->
  groups_to_merge args files f o -> (forall G, o = Some G -> disjoint_groups (g_groupings G)) -> (uses_alternative args -> has_a_quorum f) ->
  exists items, cli_main E files stdin args = Ok items /\ any_report args f o (results items) /\ settled_lines E f o args items.
Proof.
  intros HE Hj Hl Hf Ho Hd Ha. assert (Ef : f = fbas_from_raw l) by (unfold fbas_from_json in Hf; rewrite Hl in Hf; cbn in Hf; congruence).
  assert (Hwf : wf_fbas f) by (rewrite Ef; apply from_raw_wf).
  apply any_run; auto.
  - eapply groups_usable; eauto.
  - eapply load_document; eauto.
  - now apply load_groups.
Qed.
Lemma any_full_report E files stdin args j l f o : ext_ok E -> nodes_document args files stdin j -> raw_fbas_of_json j = Ok l -> fbas_from_json j = Ok f ->
  groups_to_merge args files f o -> (forall G, o = Some G -> disjoint_groups (g_groupings G)) -> (uses_alternative args -> has_a_quorum f) ->
  exists items, cli_main E files stdin args = Ok items /\ any_report args f o (results items).
Proof. intros HE Hj Hl Hf Ho Hd Ha. destruct (any_reported E files stdin args j l f o) as (items & H1 & H2 & _); auto. exists items. auto. Qed.

(** ** the only panic *)
Lemma alternative_panic E f a K : ext_ok E -> winv f a K -> ~ has_a_quorum f -> perform E a AlternativeCheck = Panic.
Proof.
  intros HE Hw Hn. cbn [perform]. unfold alternative_check. rewrite (w_sh f a K Hw).
  rewrite (find_nonintersecting_quorums_panic E HE (shrunken_fbas K f) (shrunken_wf K f)); auto.
  intros Q HQ. apply Hn. exists (up (elements K) Q). apply (shrunken_quorum K f); auto. now apply (shrunken_quorum_range K f).
Qed.
Lemma run_panics E files stdin args f g : ext_ok E -> wf_fbas f -> usable f g ->
  cli_load_fbas files stdin (cli_nodes_path args) = Ok f -> cli_groupings files args f = Ok g ->
  uses_alternative args -> ~ has_a_quorum f -> cli_main E files stdin args = Panic.
Proof.
  intros HE Hwf Hg Lf Lg [Hd Ha] Hn. unfold cli_main, cli_report. rewrite Lf. cbn [bind]. rewrite Lg. cbn [bind].
  destruct (state_new E HE f Hwf) as (a0 & Ea & Hs0). rewrite Ea. cbn [bind].
  destruct (extract_main_todos args) as [[q b] s]. cbn [fst snd].
  unfold wants_check in Hd. unfold out_init. change (mk_out _ _ _ _ _) with (out f g args).
  destruct (report_overview E g (out f g args) a0) as [[l1 a1]|] eqn:E1; cbn [bind]; [|reflexivity]. apply overview_unchanged in E1. subst a1.
  destruct (report_symmetric_clusters E g (out f g args) a0) as [[l2 a2]|] eqn:E2; cbn [bind]; [|reflexivity]. apply clusters_unchanged in E2. subst a2.
  assert (exists l3 a3, when q (report_minimal_quorums E g (out f g args)) a0 = Ok (l3, a3) /\ exists K, winv f a3 K) as (l3 & a3 & -> & K & HK).
  { unfold when. destruct q; [|exists [], a0; split; auto; apply (st_weak f True a0 Hs0)].
    destruct (any_quorums E HE f Hwf g Hg args a0 Hs0) as (l & a & -> & H1 & _). exists l, a. split; auto. apply (st_weak f True a H1). }
  cbn [bind]. rewrite Hd, Ha. cbn [negb when]. unfold report_quorum_intersection. now rewrite (alternative_panic E f a3 K HE HK Hn).
Qed.
Lemma panics_exactly E files stdin args j l f o : ext_ok E -> nodes_document args files stdin j -> raw_fbas_of_json j = Ok l -> fbas_from_json j = Ok f ->
  groups_to_merge args files f o -> (forall G, o = Some G -> disjoint_groups (g_groupings G)) ->
  (cli_main E files stdin args = Panic <-> uses_alternative args /\ ~ has_a_quorum f).
Proof.
  intros HE Hj Hl Hf Ho Hd. assert (Ef : f = fbas_from_raw l) by (unfold fbas_from_json in Hf; rewrite Hl in Hf; cbn in Hf; congruence).
  assert (Hwf : wf_fbas f) by (rewrite Ef; apply from_raw_wf). split.
  - intro Hp. assert (Hn : ~ (uses_alternative args -> has_a_quorum f)).
    { intro Ha. destruct (any_full_report E files stdin args j l f o) as (items & Ei & _); auto. congruence. }
    destruct (quorum_decidable f) as [H|H]; [exfalso; auto|]. split; auto.
    unfold uses_alternative in *. destruct (cli_alternative_check args), (cli_dont_check args) eqn:Ec; unfold wants_check in *;
      try (split; auto; fail); exfalso; apply Hn; intros [H1 H2]; congruence.
  - intros [Ha Hn]. eapply run_panics; eauto.
    + eapply groups_usable; eauto.
    + eapply load_document; eauto.
    + now apply load_groups.
Qed.

(** ** settled values *)
Lemma settled_same E files stdin args args' j l f o items items' : ext_ok E -> same_input_and_form args args' ->
  nodes_document args files stdin j -> raw_fbas_of_json j = Ok l -> fbas_from_json j = Ok f ->
  groups_to_merge args files f o -> (forall G, o = Some G -> disjoint_groups (g_groupings G)) ->
  cli_main E files stdin args = Ok items -> cli_main E files stdin args' = Ok items' ->
  forall name v v', settled args f o name -> settled args' f o name -> In (Line name v) items -> In (Line name v') items' -> v = v'.
Proof.
  intros HE Hsame Hj Hl Hf Ho Hd Em Em' name v v' Hn Hn' Hv Hv'.
  assert (Hj' : nodes_document args' files stdin j) by (destruct Hsame as (H1 & _); unfold nodes_document in *; now rewrite <- H1).
  assert (Ho' : groups_to_merge args' files f o).
  { destruct Hsame as (H1 & H2 & H3 & H4 & _). unfold groups_to_merge in *. now rewrite <- H1, <- H2, <- H3, <- H4. }
  assert (Ef : f = fbas_from_raw l) by (unfold fbas_from_json in Hf; rewrite Hl in Hf; cbn in Hf; congruence).
  assert (Hwf : wf_fbas f) by (rewrite Ef; apply from_raw_wf).
  assert (Hq : forall args items, nodes_document args files stdin j -> groups_to_merge args files f o -> cli_main E files stdin args = Ok items -> uses_alternative args -> has_a_quorum f).
  { intros b i H1 H2 H3 Hu. destruct (quorum_decidable f) as [H|H]; auto. exfalso.
    assert (cli_main E files stdin b = Panic) by (apply (panics_exactly E files stdin b j l f o); auto). congruence. }
  destruct (any_reported E files stdin args j l f o) as (i & Ei & _ & Hi); eauto. assert (i = items) by congruence. subst i.
  destruct (any_reported E files stdin args' j l f o) as (i & Ei' & _ & Hi'); eauto. assert (i = items') by congruence. subst i.
  apply (determined_fun E f o (groups_usable args files j l f o Hl Hf Ho Hd) args' name); auto.
  - apply Hn.
  - intro Hno. destruct (String.eqb_spec name "minimal_quorums") as [->|Hne]; auto. left. now apply Hn.
  - apply (determined_args E f o args); auto.
Qed.

(** ** examples *)
Definition everything : cli := options true true true false false false false true None false false.
Definition unordered : cli := options false true true true false false false true None false false.
Definition hollow_raw : list raw_node := match raw_fbas_of_json hollow_json with Ok l => l | Panic => [] end.
Definition hollow_fbas : fbas := fbas_from_raw hollow_raw.
Lemma hollow_read : raw_fbas_of_json hollow_json = Ok hollow_raw /\ fbas_from_json hollow_json = Ok hollow_fbas.
Proof. split; vm_compute; reflexivity. Qed.
Lemma hollow_quorum : has_a_quorum hollow_fbas.
Proof. apply (has_quorum hollow_fbas (of_list [0])); vm_compute; reflexivity. Qed.
Lemma hollow_insane : ~ sane_clusters hollow_fbas.
Proof.
  intro H. assert (Hwf : wf_fbas hollow_fbas) by apply from_raw_wf.
  destruct (mbs_after std_ext hollow_fbas [] std_ext_ok Hwf) as (ans & r & l & Ea & Eu & _ & Hl); [constructor|auto|].
  cbn [app] in Ea. vm_compute in Ea. destruct ans as [|x [|]]; [|discriminate|discriminate]. injection Ea as <-. vm_compute in Eu. injection Eu as <-.
  destruct (minimal_below (blocking hollow_fbas) (blocking_dec hollow_fbas) (all_nodes hollow_fbas)) as (m & _ & Hm).
  - intros Q HQ. destruct (proj1 HQ) as (x & Hx). exists x. split; auto. now apply (quorum_nodes hollow_fbas Q).
  - assert (In m []) as []. apply Hl. split; [exact hollow_quorum|exact Hm].
Qed.
(** one node that can never be satisfied *)
Definition lonely_json : json := JArr [JObj [("publicKey", JStr "a"); ("quorumSet", JObj [("threshold", JInt 1); ("validators", JArr [])])]].
Definition lonely_files (p : path) : option json := if String.eqb p "data/x_nodes.json" then Some lonely_json else None.
Definition lonely : fbas := match fbas_from_json lonely_json with Ok f => f | Panic => mk_fbas [] [] end.
Lemma lonely_no_quorum : ~ has_a_quorum lonely.
Proof.
  intros (Q & HQ). revert HQ. apply (clusters_none std_ext std_ext_ok lonely).
  - apply (from_raw_wf (match raw_fbas_of_json lonely_json with Ok l => l | Panic => [] end)).
  - vm_compute. reflexivity.
Qed.
