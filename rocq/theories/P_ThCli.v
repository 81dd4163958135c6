(** Statements of [Th_Cli.v]. *)
From Coq Require Import ZArith Reals Ascii.
From Verif Require Export P_Cli P_ThBulk.
Local Open Scope string_scope.
Local Open Scope list_scope.
Local Open Scope nat_scope.

Lemma groups_found args files stdin j l f : nodes_document args files stdin j -> raw_fbas_of_json j = Ok l -> fbas_from_json j = Ok f -> unique_keys l ->
  (forall n s, In n l -> raw_isp n = Some s \/ country n = Some s -> ~ uncleanable s) ->
  (forall p, cli_organizations_path args = Some p -> exists jo G, files p = Some jo /\ groupings_from_json jo f = Ok G /\ disjoint_groups (g_groupings G)) ->
  exists o, groups_to_merge args files f o /\ forall G, o = Some G -> disjoint_groups (g_groupings G).
Proof.
  intros Hj Hl Hf Hu Hc Ho. assert (Ef : f = fbas_from_raw l) by (unfold fbas_from_json in Hf; rewrite Hl in Hf; cbn in Hf; congruence).
  destruct (proj2 (groupings_of_labels_total raw_isp l)) as (gi & Ei); [intros n s H1 H2; apply (Hc n); auto|].
  destruct (proj2 (groupings_of_labels_total country l)) as (gc & Ec); [intros n s H1 H2; apply (Hc n); auto|].
  destruct (labels_members raw_isp l gi Hu Ei) as (I & EI & _). destruct (labels_members country l gc Hu Ec) as (C & EC & _).
  destruct (labels_groups raw_isp l gi Hu Ei) as (_ & _ & Di). destruct (labels_groups country l gc Hu Ec) as (_ & _ & Dc).
  assert (JI : isps_from_json j f = Ok I) by (unfold isps_from_json, isps_from_raw_nodes; rewrite Hl; cbn [bind]; rewrite Ei; cbn [bind]; now rewrite Ef).
  assert (JC : countries_from_json j f = Ok C) by (unfold countries_from_json, countries_from_raw_nodes; rewrite Hl; cbn [bind]; rewrite Ec; cbn [bind]; now rewrite Ef).
  assert (Hgi : g_groupings I = map (grouping_from_raw (key_map l)) gi) by apply (groupings_new_fields _ _ _ EI).
  assert (Hgc : g_groupings C = map (grouping_from_raw (key_map l)) gc) by apply (groupings_new_fields _ _ _ EC).
  unfold groups_to_merge, nodes_document in *.
  destruct (cli_ctry_merge args).
  - destruct (cli_nodes_path args) as [p|]; [|exists None; split; auto; discriminate].
    exists (Some C). split; [exists j, C; auto|]. intros G [= <-]. now rewrite Hgc.
  - destruct (cli_isp_merge args).
    + destruct (cli_nodes_path args) as [p|]; [|exists None; split; auto; discriminate].
      exists (Some I). split; [exists j, I; auto|]. intros G [= <-]. now rewrite Hgi.
    + destruct (cli_organizations_path args) as [p|]; [|exists None; split; auto; discriminate].
      destruct (Ho p eq_refl) as (jo & G & H1 & H2 & H3). exists (Some G). split; [exists jo, G; auto|]. intros G' [= <-]. auto.
Qed.
Lemma full_report E files stdin args j l f o : ext_ok E -> nodes_document args files stdin j -> raw_fbas_of_json j = Ok l -> fbas_from_json j = Ok f ->
  groups_to_merge args files f o -> (forall G, o = Some G -> disjoint_groups (g_groupings G)) ->
  (uses_alternative args -> has_a_quorum f) -> (wants_blocking args -> has_a_quorum f /\ sane_clusters f) ->
  (wants_splitting args -> has_a_quorum f /\ splittable_clusters f) ->
  exists items, cli_main E files stdin args = Ok items /\ report args f o (results items).
Proof.
  intros HE Hj Hl Hf Ho Hd Ha Hb Hs. destruct (reported E files stdin args j l f o) as (items & H1 & H2 & _); auto. exists items. auto.
Qed.
Lemma results_only_silent E files stdin args items : cli_results_only args = true -> cli_main E files stdin args = Ok items -> results items = items.
Proof.
  intros Hr H. assert (Ha : with_results_only args = args) by (destruct args; cbn in *; subst; reflexivity).
  assert (H' := results_only_run E files stdin args). rewrite Ha, H in H'. cbn in H'. congruence.
Qed.

(** ** comments *)
Lemma comment_counts E files stdin args j l f o : ext_ok E -> nodes_document args files stdin j -> raw_fbas_of_json j = Ok l -> fbas_from_json j = Ok f ->
  groups_to_merge args files f o -> (forall G, o = Some G -> disjoint_groups (g_groupings G)) ->
  (uses_alternative args -> has_a_quorum f) -> (wants_blocking args -> has_a_quorum f /\ sane_clusters f) ->
  (wants_splitting args -> has_a_quorum f /\ splittable_clusters f) -> cli_results_only args = false ->
  exists items, cli_main E files stdin args = Ok items /\
  (wants_quorums args -> exists sets, lists_weakly (minimal_quorum f) sets /\ (distinct_clusters f -> lists (minimal_quorum f) sets) /\
     counts "minimal_quorums" (List.length sets) " minimal quorums." items) /\
  (wants_blocking args -> exists sets, lists (minimal_blocking f) sets /\
     counts "minimal_blocking_sets" (List.length sets) (" minimal blocking sets (minimal indispensable sets for global liveness). " ++
       "Control over any of these sets is sufficient to compromise the liveness of all nodes and to censor future transactions.")%string items) /\
  (wants_splitting args -> exists sets, lists (minimal_splitting f) sets /\
     counts "minimal_splitting_sets" (List.length sets) (" minimal splitting sets (minimal indispensable sets for safety). " ++
       "Control over any of these sets is sufficient to compromise safety by undermining the quorum intersection of at least two quorums.")%string items) /\
  (wants_quorums args \/ wants_blocking args \/ wants_splitting args ->
     exists v R pre post, shows_set args f (group_list o) R v /\
       items = pre ++ [Line "top_tier" v; Message [inl (line_break ++ "There is a total of ")%string; inr (len R); inl (" distinct nodes involved in all of these sets (this is the ""top tier"")." ++ line_break)%string]] ++ post) /\
  (wants_check args ->
     (quorum_intersection f /\ In (Message [inl (line_break ++ "All quorums intersect 👍" ++ line_break)%string]) items) \/
     (~ quorum_intersection f /\ exists more, In (Message [inl (line_break ++ "Some quorums don't intersect 👎" ++ more)%string]) items)).
Proof.
  intros HE Hj Hl Hf Ho Hd Ha Hb Hs Hr. destruct (reported E files stdin args j l f o) as (items & H1 & _ & _ & C1 & C2 & C3 & C4 & C5); auto.
  assert (Hc : forall t, out_comment (out f o args) t = [Message t]) by (intro t; unfold out_comment, out; cbn; now rewrite Hr).
  exists items. split; auto. split; [|split; [|split; [|split]]].
  - intro Hw. destruct (C1 Hw) as (pre & post & v & n & sets & Ei & [Q1 Q2] & ->). exists sets. split; auto. split; auto.
    rewrite Hc in Ei. exists pre, post, v. exact Ei.
  - intro Hw. destruct (C2 Hw) as (pre & post & v & n & sets & Ei & Q1 & ->). exists sets. split; auto. rewrite Hc in Ei. exists pre, post, v. exact Ei.
  - intro Hw. destruct (C3 Hw) as (pre & post & v & n & sets & Ei & Q1 & ->). exists sets. split; auto. rewrite Hc in Ei. exists pre, post, v. exact Ei.
  - intro Hw. destruct (C4 Hw) as (pre & post & v & R & Ei & Hv). exists v, R, pre, post. split; auto. rewrite Hc in Ei. exact Ei.
  - intro Hw. destruct (C5 Hw) as (pre & post & b & Ei & Hqi). rewrite Hc in Ei. destruct b.
    + left. split; [tauto|]. rewrite Ei. apply in_app_iff. right. left. reflexivity.
    + right. split; [intro H; apply Hqi in H; discriminate|]. eexists. rewrite Ei. apply in_app_iff. right. left. unfold verdict. reflexivity.
Qed.

(** ** examples *)
Definition options (q b s alternative dont describe pretty only : bool) (orgs : option path) (isps countries : bool) : cli :=
  mk_cli (Some "data/x_nodes.json") q b s false alternative dont describe pretty only orgs isps countries.
Definition with_orgs : cli := options true true true false false false true true (Some "data/x_organizations.json") false false.
Definition talkative : cli := options true false false false false false false false (Some "data/x_organizations.json") false false.

(** one node that needs itself or an empty inner quorum set *)
Definition hollow_json : json :=
  JArr [JObj [("publicKey", JStr "a");
              ("quorumSet", JObj [("threshold", JInt 1); ("validators", JArr [JStr "a"]);
                                  ("innerQuorumSets", JArr [JObj [("threshold", JInt 1); ("validators", JArr [])]])])]].
Definition hollow_files (p : path) : option json := if String.eqb p "data/x_nodes.json" then Some hollow_json else None.
Lemma options_matter : exists files args args' items items' v v', same_input_and_form args args' /\
  cli_main std_ext files None args = Ok items /\ cli_main std_ext files None args' = Ok items' /\
  In (Line "top_tier" v) items /\ In (Line "top_tier" v') items' /\ v <> v'.
Proof.
  exists hollow_files, (options true false false false true false false true None false false), (options false true false false true false false true None false false).
  eexists. eexists. exists (VIds [0]), (VIds []). split; [repeat split|]. split; [vm_compute; reflexivity|]. split; [vm_compute; reflexivity|].
  split; [cbn; tauto|]. split; [cbn; tauto|discriminate].
Qed.
Lemma wrong_count : exists files args items n l, cli_main std_ext files None args = Ok items /\
  counts "minimal_quorums" n " minimal quorums." items /\ In (Line "minimal_quorums" (VIdLists l)) items /\
  (forall l', In (Line "minimal_quorums" l') items -> l' = VIdLists l) /\ n <> List.length l.
Proof.
  exists three_files, talkative. eexists. exists 3, [[1]]. split; [vm_compute; reflexivity|]. split.
  - exists (firstn 8 (match cli_main std_ext three_files None talkative with Ok i => i | Panic => [] end)),
           (skipn 11 (match cli_main std_ext three_files None talkative with Ok i => i | Panic => [] end)), (VIdLists [[1]]). vm_compute. reflexivity.
  - split; [cbn; tauto|]. split; [|discriminate]. intros l' H. cbn in H. repeat (destruct H as [H|H]; [inversion H; auto; fail|]). contradiction.
Qed.
