(** Proofs about the rows of the bulk analyzer. *)
From Coq Require Import ZArith Reals Ascii Permutation.
From Verif Require Export P_BulkInputs P_ThIO P_ThFloat.
Local Open Scope string_scope.
Local Open Scope list_scope.
Local Open Scope nat_scope.

Lemma minmaxmean_spec r l : ascending_table r -> vr_unwrap r = Ok l ->
  let '(mn, mx, mean) := vr_minmaxmean r in sizes l mn mx mean.
Proof.
  intros Ht Hu. destruct (describe_spec r l Ht Hu) as (d & mn & mx & mean & h & Ed & _ & H1 & H2 & _ & _ & _ & H3 & H4).
  unfold vr_describe in Ed. destruct (vr_histogram r) as [h'|]; cbn [bind] in Ed; [|discriminate].
  assert (Em : vr_minmaxmean r = (mn, mx, mean)) by congruence. rewrite Em. split; auto. split; auto. split; auto.
  intros Hne Hb1 Hb2. destruct (H4 Hne Hb1 Hb2) as (H5 & H6 & _). auto.
Qed.

Section Rows.
Context (E : ext) (HE : ext_ok E) (f : fbas) (Hwf : wf_fbas f).
Context (Hq : has_a_quorum f) (Hsane : sane_clusters f) (Hsplit : splittable_clusters f).
Notation inv := (inv f).

Lemma inv_table a K c r a' : inv a K -> perform E a c = Ok (AVec r, a') -> ascending_table r.
Proof.
  intros Hi Hp. destruct (perform_table E a c (AVec r) a') as [_ H]; auto.
  - exists K. apply (inv_sm f a K Hi).
  - destruct (H r eq_refl) as (K' & HK). unfold ascending_table. rewrite HK. apply elements_sorted.
Qed.
Lemma ask_mq a K : inv a K -> exists r l a' K', ask_sets E MinimalQuorums a = Ok (r, a') /\ inv a' K' /\ ascending_table r /\ vr_unwrap r = Ok l /\
  lists (minimal_quorum f) l.
Proof.
  intro Hi. destruct (perform_step E HE f Hwf a K MinimalQuorums Hi I) as (ans & a' & K' & Ep & Hi' & (r & l & -> & Hu & _ & Hl)).
  exists r, l, a', K'. unfold ask_sets. rewrite Ep. cbn. split; auto. split; auto. split; [exact (inv_table _ _ _ _ _ Hi Ep)|]. split; auto.
  apply Hl. intros K0 q H1 H2. apply (Hsane K0 q H1 H2).
Qed.
Lemma ask_mbs a K : inv a K -> exists r l a' K', ask_sets E MinimalBlockingSets a = Ok (r, a') /\ inv a' K' /\ ascending_table r /\ vr_unwrap r = Ok l /\
  lists (minimal_blocking f) l.
Proof.
  intro Hi. destruct (perform_step E HE f Hwf a K MinimalBlockingSets Hi Hsane) as (ans & a' & K' & Ep & Hi' & (r & l & -> & Hu & Hl1 & Hl2)).
  exists r, l, a', K'. unfold ask_sets. rewrite Ep. cbn. split; auto. split; auto. split; [exact (inv_table _ _ _ _ _ Hi Ep)|]. split; auto. split; auto.
  intro S. rewrite Hl2. unfold reported_blocking. tauto.
Qed.
Lemma ask_mss a K : inv a K -> exists r l a' K', ask_sets E MinimalSplittingSets a = Ok (r, a') /\ inv a' K' /\ ascending_table r /\ vr_unwrap r = Ok l /\
  lists (minimal_splitting f) l.
Proof.
  intro Hi. destruct (perform_step E HE f Hwf a K MinimalSplittingSets Hi Hsplit) as (ans & a' & K' & Ep & Hi' & (r & l & -> & Hu & Hl1 & Hl2)).
  exists r, l, a', K'. unfold ask_sets. rewrite Ep. cbn. split; auto. split; auto. split; [exact (inv_table _ _ _ _ _ Hi Ep)|]. split; auto. split; auto.
  intro S. rewrite Hl2. unfold reported_splitting. tauto.
Qed.
Lemma ask_tt a K : inv a K -> exists s a' K', ask_set E TopTier a = Ok (s, a') /\ inv a' K' /\ forall x, mem x s = true <-> in_top_tier f x.
Proof.
  intro Hi. destruct (perform_step E HE f Hwf a K TopTier Hi I) as (ans & a' & K' & Ep & Hi' & (s & -> & Hs)).
  exists s, a', K'. unfold ask_set. rewrite Ep. cbn. auto.
Qed.
Lemma ask_hqi a K : inv a K -> exists b a' K', ask_bool E HasQuorumIntersection a = Ok (b, a') /\ inv a' K' /\ (b = true <-> quorum_intersection f).
Proof.
  intro Hi. destruct (perform_step E HE f Hwf a K HasQuorumIntersection Hi I) as (ans & a' & K' & Ep & Hi' & (s & -> & Hs)).
  exists s, a', K'. unfold ask_bool. rewrite Ep. cbn. auto.
Qed.

Lemma merged_table r G r' : vr_merged_by_group r G = Ok r' -> vr_unshrink_table r' = None.
Proof.
  intro E1. unfold vr_merged_by_group, vr_unshrink in E1. destruct (vr_unshrink_table r) as [t|]; cbn [bind node_sets vr_unshrink_table] in E1.
  - destruct (unshrink_sets_with t (node_sets r)) as [u|]; cbn [bind node_sets vr_unshrink_table] in E1; [|discriminate]. destruct (merge_node_sets G u); cbn [bind node_sets vr_unshrink_table] in E1; inversion E1; auto.
  - destruct (merge_node_sets G (node_sets r)); cbn [bind node_sets vr_unshrink_table] in E1; inversion E1; auto.
Qed.
Lemma merge_fix_ok gs G (P : bset -> Prop) r l : groupings_new gs f = Ok G -> groups_of f gs -> disjoint_groups gs ->
  (forall a b, incl_set a b -> P a -> P b) -> (forall S, P S \/ ~ P S) -> vr_unwrap r = Ok l -> (forall S, In S l <-> minimal P S) ->
  (forall s x, In s l -> mem x s = true -> x < number_of_nodes f) ->
  exists l' mn mx mean, merge_fix r G = Ok (mn, mx, mean) /\ lists (minimal (by_groups f gs P)) l' /\ sizes l' mn mx mean.
Proof.
  intros HG Hg Hd Hm Hdec Hu Hl Hr. destruct (merged_result_minimal f gs Hg Hd P r l Hm Hdec Hu Hl Hr) as (G' & r' & l' & EG & E1 & E2 & Hs & Hl').
  assert (G' = G) by congruence. subst G'. unfold merge_fix. rewrite E1. cbn [bind].
  assert (Ht : ascending_table (vr_minimal_sets r')).
  { unfold ascending_table, vr_minimal_sets. cbn. rewrite (merged_table _ _ _ E1). auto. }
  assert (H := minmaxmean_spec _ l' Ht E2). destruct (vr_minmaxmean (vr_minimal_sets r')) as [[mn mx] mean].
  exists l', mn, mx, mean. split; auto. split; auto. split; auto.
Qed.
Lemma merge_sets_ok a K gs G : inv a K -> groupings_new gs f = Ok G -> groups_of f gs -> disjoint_groups gs ->
  exists r a' K', maybe_merge_sets E a (Some G) = Ok (r, a') /\ inv a' K' /\ group_results f gs r.
Proof.
  intros Hi HG Hg Hd. unfold maybe_merge_sets.
  destruct (ask_tt a K Hi) as (T & a1 & K1 & -> & Hi1 & HT). cbn [bind].
  destruct (groupings_new_ok f gs Hg Hd) as (G' & EG & Hids). assert (G' = G) by congruence. subst G'.
  destruct (merge_node_set_spec f gs G Hids Hd T) as (R & ER & HR).
  { intros x Hx. apply HT in Hx. destruct Hx as (Q & [HQ _] & Hx). apply (quorum_in_range f Q); auto. }
  unfold sr_merged_by_group. rewrite ER. cbn [bind].
  destruct (ask_mq a1 K1 Hi1) as (rq & lq & a2 & K2 & -> & Hi2 & _ & Uq & _ & Hlq). cbn [bind].
  destruct (merge_fix_ok gs G (includes_quorum f) rq lq HG Hg Hd) as (mq & mn1 & mx1 & me1 & -> & Lq & Sq); auto using includes_quorum_dec.
  { apply includes_quorum_mono. }
  { intro S. rewrite Hlq. symmetry. apply includes_quorum_minimal. }
  { intros S x HS. apply (quorum_in_range f S). apply Hlq in HS. apply HS. }
  cbn [bind]. destruct (ask_mbs a2 K2 Hi2) as (rb & lb & a3 & K3 & -> & Hi3 & _ & Ub & _ & Hlb). cbn [bind].
  destruct (merge_fix_ok gs G (blocking f) rb lb HG Hg Hd) as (mb & mn2 & mx2 & me2 & -> & Lb & Sb); auto using blocking_dec.
  { apply blocking_mono. }
  { intros S x HS. apply minimal_blocking_in_range. now apply Hlb. }
  cbn [bind]. destruct (ask_mss a3 K3 Hi3) as (rs & ls & a4 & K4 & -> & Hi4 & _ & Us & _ & Hls). cbn [bind].
  destruct (merge_fix_ok gs G (splitting f) rs ls HG Hg Hd) as (ms & mn3 & mx3 & me3 & -> & Ls & Ss); auto.
  { apply splitting_mono. }
  { intro S. now apply splitting_dec. }
  { intros S x HS. apply minimal_splitting_in_range. now apply Hls. }
  cbn [bind]. eexists. exists a4, K4. split; [reflexivity|]. split; auto. split; [exists T, R; auto|].
  split; [exists mq, mn1, mx1, me1; auto 7|]. split; [exists mb, mn2, mx2, me2; auto 7|]. exists ms, mn3, mx3, me3; auto 7.
Qed.
Definition maybe_results (o : option groupings) (r : analysis_results) : Prop :=
  match o with Some G => group_results f (g_groupings G) r | None => r = no_results end.
Definition usable (o : option groupings) : Prop :=
  forall G, o = Some G -> groupings_new (g_groupings G) f = Ok G /\ groups_of f (g_groupings G) /\ disjoint_groups (g_groupings G).
Lemma maybe_merge_ok a K o : inv a K -> usable o ->
  exists r a' K', maybe_merge_sets E a o = Ok (r, a') /\ inv a' K' /\ maybe_results o r.
Proof.
  intros Hi Ho. destruct o as [G|].
  - destruct (Ho G eq_refl) as (H1 & H2 & H3). now apply (merge_sets_ok a K).
  - exists no_results, a, K. cbn. auto.
Qed.

Lemma row_ok digest files clock input orgs isps countries :
  load_fbas files (nodes_path input) = Ok f -> maybe_load_organizations files (organizations_path input) f = Ok orgs ->
  maybe_load_isps files (nodes_path input) f = Ok isps -> maybe_load_countries files (nodes_path input) f = Ok countries ->
  usable orgs -> usable isps -> usable countries ->
  exists row s, bulk_analyze E digest files clock input = Ok row /\ out_label row = in_label input /\ node_results f row /\
    maybe_results orgs (out_orgs row) /\ maybe_results isps (out_isps row) /\ maybe_results countries (out_ctries row) /\
    to_standard_form E f = Ok s /\ out_standard_form_hash row = digest (fbas_to_json s) /\ out_durations row = clock input.
Proof.
  intros Lf Lo Li Lc Uo Ui Uc. unfold bulk_analyze. rewrite Lf. cbn [bind]. rewrite Lo, Li, Lc. cbn [bind].
  destruct (inv_new E HE f Hwf) as (a0 & -> & Hi0). cbn [bind].
  destruct (ask_mq a0 _ Hi0) as (rq & lq & a1 & K1 & -> & Hi1 & Tq & Uq & Hlq). cbn [bind].
  assert (Sq := minmaxmean_spec rq lq Tq Uq). destruct (vr_minmaxmean rq) as [[mn1 mx1] me1].
  destruct (ask_hqi a1 K1 Hi1) as (b & a2 & K2 & -> & Hi2 & Hb). cbn [bind].
  destruct (ask_tt a2 K2 Hi2) as (T & a3 & K3 & -> & Hi3 & HT). cbn [bind].
  destruct (ask_mbs a3 K3 Hi3) as (rb & lb & a4 & K4 & -> & Hi4 & Tb & Ub & Hlb). cbn [bind].
  assert (Sb := minmaxmean_spec rb lb Tb Ub). destruct (vr_minmaxmean rb) as [[mn2 mx2] me2].
  destruct (ask_mss a4 K4 Hi4) as (rs & ls & a5 & K5 & -> & Hi5 & Ts & Us & Hls). cbn [bind].
  assert (Ss := minmaxmean_spec rs ls Ts Us). destruct (vr_minmaxmean rs) as [[mn3 mx3] me3].
  destruct (maybe_merge_ok a5 K5 orgs Hi5 Uo) as (ro & a6 & K6 & -> & Hi6 & Ro). cbn [bind].
  destruct (maybe_merge_ok a6 K6 isps Hi6 Ui) as (ri & a7 & K7 & -> & Hi7 & Ri). cbn [bind].
  destruct (maybe_merge_ok a7 K7 countries Hi7 Uc) as (rc & a8 & K8 & -> & Hi8 & Rc). cbn [bind].
  rewrite to_standard_form_eq. cbn [bind]. eexists. eexists. split; [reflexivity|]. split; [reflexivity|]. split.
  - split; auto. split; [exists T; auto|]. split; [exists lq; auto|]. split; [exists lb; auto|exists ls; auto].
  - split; auto.
Qed.
End Rows.

(** the groups read from files *)
Lemma read_groups_of l l' G : groupings_from_raw l' (fbas_from_raw l) = Ok G -> groups_of (fbas_from_raw l) (g_groupings G).
Proof.
  intro H. apply read_groups in H. intros g x Hg Hx. apply In_nth_error in Hg. destruct Hg as (i & Hi).
  assert (exists r, In r l' /\ known_ids (fun pk i => get_node_id (fbas_from_raw l) pk = Some i) (rg_validators r) (g_validators g)) as (r & _ & Hk).
  { clear -H Hi. revert i Hi. induction H as [|r g0 l' gs [_ H1] HF IH]; intros [|i] Hi; try discriminate.
    - inversion Hi; subst. exists r. split; auto. left; auto.
    - destruct (IH i Hi) as (r' & Hr & Hk). exists r'. split; auto. right; auto. }
  unfold member in Hx. clear -Hk Hx. induction Hk as [|pk i vs ids Hn Hk IH|pk vs ids Hn Hk IH]; [contradiction| |auto].
  destruct Hx as [<-|Hx]; auto. apply get_node_id_from_raw in Hn. destruct Hn as [Hn _]. unfold number_of_nodes, fbas_from_raw. cbn. rewrite map_length.
  apply nth_error_Some. destruct (nth_error l i); [discriminate|cbn in Hn; discriminate].
Qed.
Lemma from_raw_new l f G : groupings_from_raw l f = Ok G -> groupings_new (g_groupings G) f = Ok G.
Proof. intro H. unfold groupings_from_raw in H. rewrite (proj1 (groupings_new_fields _ _ _ H)). exact H. Qed.

Lemma analyzed_row E digest files clock input j l f : ext_ok E ->
  files (nodes_path input) = Some j -> raw_fbas_of_json j = Ok l -> fbas_from_json j = Ok f -> unique_keys l ->
  (forall n s, In n l -> raw_isp n = Some s \/ country n = Some s -> ~ uncleanable s) ->
  has_a_quorum f -> sane_clusters f -> splittable_clusters f ->
  (forall p, organizations_path input = Some p -> exists jo G, files p = Some jo /\ groupings_from_json jo f = Ok G /\ disjoint_groups (g_groupings G)) ->
  exists row I C s, bulk_analyze E digest files clock input = Ok row /\ out_label row = in_label input /\ node_results f row /\
    match organizations_path input with
    | Some p => exists jo G, files p = Some jo /\ groupings_from_json jo f = Ok G /\ group_results f (g_groupings G) (out_orgs row)
    | None => out_orgs row = no_results
    end /\
    isps_from_json j f = Ok I /\ (g_groupings I = [] -> out_isps row = no_results) /\ (g_groupings I <> [] -> group_results f (g_groupings I) (out_isps row)) /\
    countries_from_json j f = Ok C /\ (g_groupings C = [] -> out_ctries row = no_results) /\ (g_groupings C <> [] -> group_results f (g_groupings C) (out_ctries row)) /\
    to_standard_form E f = Ok s /\ out_standard_form_hash row = digest (fbas_to_json s) /\ out_durations row = clock input.
Proof.
  intros HE Hj Hl Hf Hu Hc Hq Hs1 Hs2 Ho. assert (Ef : f = fbas_from_raw l) by (unfold fbas_from_json in Hf; rewrite Hl in Hf; cbn in Hf; congruence).
  assert (Hwf : wf_fbas f) by (rewrite Ef; apply from_raw_wf).
  destruct (proj2 (groupings_of_labels_total raw_isp l)) as (gi & Ei); [intros n s H1 H2; apply (Hc n); auto|].
  destruct (proj2 (groupings_of_labels_total country l)) as (gc & Ec); [intros n s H1 H2; apply (Hc n); auto|].
  destruct (labels_members raw_isp l gi Hu Ei) as (I & EI & _). destruct (labels_members country l gc Hu Ec) as (C & EC & _).
  destruct (labels_groups raw_isp l gi Hu Ei) as (_ & _ & Di). destruct (labels_groups country l gc Hu Ec) as (_ & _ & Dc).
  assert (JI : isps_from_json j f = Ok I) by (unfold isps_from_json, isps_from_raw_nodes; rewrite Hl; cbn [bind]; rewrite Ei; cbn [bind]; now rewrite Ef).
  assert (JC : countries_from_json j f = Ok C) by (unfold countries_from_json, countries_from_raw_nodes; rewrite Hl; cbn [bind]; rewrite Ec; cbn [bind]; now rewrite Ef).
  assert (Hgi : g_groupings I = map (grouping_from_raw (key_map l)) gi) by apply (groupings_new_fields _ _ _ EI).
  assert (Hgc : g_groupings C = map (grouping_from_raw (key_map l)) gc) by apply (groupings_new_fields _ _ _ EC).
  assert (UI : usable f (unless_empty I)).
  { intros G EG. unfold unless_empty in EG. destruct (_ =? _) in EG; [discriminate|]. inversion EG; subst G. rewrite Ef.
    split; [now apply (from_raw_new gi)|]. split; [now apply (read_groups_of l gi)|]. now rewrite Hgi. }
  assert (UC : usable f (unless_empty C)).
  { intros G EG. unfold unless_empty in EG. destruct (_ =? _) in EG; [discriminate|]. inversion EG; subst G. rewrite Ef.
    split; [now apply (from_raw_new gc)|]. split; [now apply (read_groups_of l gc)|]. now rewrite Hgc. }
  assert (LO : exists o, maybe_load_organizations files (organizations_path input) f = Ok o /\ usable f o /\
    match organizations_path input with Some p => exists jo G, o = Some G /\ files p = Some jo /\ groupings_from_json jo f = Ok G | None => o = None end).
  { destruct (organizations_path input) as [p|].
    - destruct (Ho p eq_refl) as (jo & G & H1 & H2 & H3). exists (Some G). cbn. unfold read_file. rewrite H1. cbn. rewrite H2. cbn. split; auto. split.
      + intros G' [= <-]. unfold groupings_from_json in H2. destruct (raw_groupings_of_json jo) as [lo|]; cbn [bind] in H2; [|discriminate].
        split; [now apply (from_raw_new lo)|]. split; auto. rewrite Ef in *. now apply (read_groups_of l lo).
      + exists jo, G. auto.
    - exists None. split; auto. split; auto. intros G; discriminate. }
  destruct LO as (o & LO & UO & MO).
  destruct (row_ok E HE f Hwf Hq Hs1 Hs2 digest files clock input o (unless_empty I) (unless_empty C)) as (row & s & Er & H1 & H2 & H3 & H4 & H5 & H6 & H7 & H8); auto.
  { unfold load_fbas, read_file. rewrite Hj. auto. }
  { unfold maybe_load_isps, read_file. rewrite Hj. cbn. rewrite JI. auto. }
  { unfold maybe_load_countries, read_file. rewrite Hj. cbn. rewrite JC. auto. }
  exists row, I, C, s. split; auto. split; auto. split; auto. split.
  { destruct (organizations_path input) as [p|]; [|subst o; auto]. destruct MO as (jo & G & -> & M1 & M2). exists jo, G. auto. }
  unfold unless_empty, number_of_groupings in H4, H5.
  split; auto. split; [intros E0; rewrite E0 in H4; exact H4|]. split.
  { intro Hne. destruct (List.length (g_groupings I) =? 0) eqn:E0; [|exact H4]. apply Nat.eqb_eq, length_zero_iff_nil in E0. congruence. }
  split; auto. split; [intros E0; rewrite E0 in H5; exact H5|]. split; auto.
  intro Hne. destruct (List.length (g_groupings C) =? 0) eqn:E0; [|exact H5]. apply Nat.eqb_eq, length_zero_iff_nil in E0. congruence.
Qed.
