(** Proofs about the rows of the bulk analyzer for any FBAS. *)
From Coq Require Import ZArith Reals Ascii Permutation.
From Verif Require Export P_CliAny Spec_BulkAny.
Local Open Scope string_scope.
Local Open Scope list_scope.
Local Open Scope nat_scope.

Section Rows.
Context (E : ext) (HE : ext_ok E) (f : fbas) (Hwf : wf_fbas f).
(** the minimal quorums are known *)
Definition settled_state (a : analysis) : Prop := state f True a /\ safe f a.

Lemma bulk_step a c : settled_state a -> c <> AlternativeCheck -> exists x a', perform E a c = Ok (x, a') /\ settled_state a' /\ regular f c x /\
  (c = MinimalBlockingSets -> blocks_answer f x) /\ (allowed f c -> correct_answer E f c x) /\ (c = MinimalSplittingSets -> splits_answer f x).
Proof.
  intros [Hs Hsafe] Hc. destruct (st_perform E HE f Hwf True a c Hs) as (x & a' & Ep & Hs' & Hr & Hb & Hh); [contradiction|].
  destruct (Hh I (fun _ => Hsafe)) as (H1 & H2 & H3 & _). exists x, a'. split; auto. split; [split; [revert Hs'; apply state_weaken; auto|auto]|]. auto.
Qed.
Lemma bulk_mq a : state f True a -> exists r l a', ask_sets E MinimalQuorums a = Ok (r, a') /\ settled_state a' /\ ascending_table r /\ vr_unwrap r = Ok l /\
  (forall s, In s l -> in_nodes f s) /\ lists_weakly (minimal_quorum f) l /\ (distinct_clusters f -> lists (minimal_quorum f) l).
Proof.
  intro Hs. destruct (st_perform E HE f Hwf True a MinimalQuorums Hs) as (x & a' & Ep & Hs' & (r & l & -> & Ht & Hu & Hr) & _ & Hh); [discriminate|].
  destruct (Hh I) as (H1 & _ & _ & H4); [discriminate|]. destruct (H1 I) as (r1 & l1 & E1 & E2 & H5 & H6). injection E1 as <-. assert (l1 = l) by congruence. subst l1.
  exists r, l, a'. unfold ask_sets. rewrite Ep. cbn. split; auto. split; [split; [|apply H4; exact I]; revert Hs'; apply state_weaken; intros _; split; [auto|discriminate]|]. auto 7.
Qed.
Lemma bulk_mbs a : settled_state a -> exists r l a', ask_sets E MinimalBlockingSets a = Ok (r, a') /\ settled_state a' /\ ascending_table r /\ vr_unwrap r = Ok l /\
  (forall s, In s l -> in_nodes f s) /\ (forall B, In B l -> blocking f B) /\ (sane_clusters f -> lists (reported_blocking f) l).
Proof.
  intro Hs. destruct (bulk_step a MinimalBlockingSets Hs) as (x & a' & Ep & Hs' & (r & l & -> & Ht & Hu & Hr) & Hb & Hc & _); [discriminate|].
  exists r, l, a'. unfold ask_sets. rewrite Ep. cbn. split; auto. split; auto. split; auto. split; auto. split; auto. split.
  - destruct (Hb eq_refl) as (r1 & l1 & E1 & E2 & H1). injection E1 as <-. assert (l1 = l) by congruence. subst l1. auto.
  - intro H. destruct (Hc H) as (r1 & l1 & E1 & E2 & H1). injection E1 as <-. assert (l1 = l) by congruence. subst l1. auto.
Qed.
Lemma bulk_mss a : settled_state a -> exists r l a', ask_sets E MinimalSplittingSets a = Ok (r, a') /\ settled_state a' /\ ascending_table r /\ vr_unwrap r = Ok l /\
  (forall s, In s l -> in_nodes f s) /\ (has_a_quorum f -> sane_clusters f -> forall S, In S l -> splitting f S) /\ (splittable_clusters f -> lists (reported_splitting f) l).
Proof.
  intro Hs. destruct (bulk_step a MinimalSplittingSets Hs) as (x & a' & Ep & Hs' & (r & l & -> & Ht & Hu & Hr) & _ & Hc & Hb); [discriminate|].
  exists r, l, a'. unfold ask_sets. rewrite Ep. cbn. split; auto. split; auto. split; auto. split; auto. split; auto. split.
  - intros H1 H2. destruct (Hb eq_refl H2 H1) as (r1 & l1 & E1 & E2 & H3). injection E1 as <-. assert (l1 = l) by congruence. subst l1. auto.
  - intro H. destruct (Hc H) as (r1 & l1 & E1 & E2 & H1). injection E1 as <-. assert (l1 = l) by congruence. subst l1. auto.
Qed.
Lemma bulk_tt a : settled_state a -> exists s a', ask_set E TopTier a = Ok (s, a') /\ settled_state a' /\ in_nodes f s /\ forall x, mem x s = true <-> in_top_tier f x.
Proof.
  intro Hs. destruct (bulk_step a TopTier Hs) as (x & a' & Ep & Hs' & (T & -> & Hr) & _ & Hc & _); [discriminate|].
  exists T, a'. unfold ask_set. rewrite Ep. cbn. split; auto. split; auto. split; auto. destruct (Hc I) as (T' & ET & HT). injection ET as <-. auto.
Qed.
Lemma bulk_hqi a : settled_state a -> exists b a', ask_bool E HasQuorumIntersection a = Ok (b, a') /\ settled_state a' /\ (b = true <-> quorum_intersection f).
Proof.
  intro Hs. destruct (bulk_step a HasQuorumIntersection Hs) as (x & a' & Ep & Hs' & _ & _ & Hc & _); [discriminate|].
  destruct (Hc I) as (b & -> & Hb). exists b, a'. unfold ask_bool. rewrite Ep. cbn. auto.
Qed.

Lemma merge_fix_any G r l : groupings_new (g_groupings G) f = Ok G -> groups_of f (g_groupings G) -> disjoint_groups (g_groupings G) ->
  vr_unwrap r = Ok l -> (forall s, In s l -> in_nodes f s) ->
  exists lst mn mx mean, merge_fix r G = Ok (mn, mx, mean) /\ sizes lst mn mx mean /\
    forall P : bset -> Prop, (forall a b, incl_set a b -> P a -> P b) ->
      ((forall S, P S \/ ~ P S) -> (forall S, In S l <-> minimal P S) -> lists (minimal (by_groups f (g_groupings G) P)) lst) /\
      ((forall S, In S l -> P S) -> forall R, In R lst -> by_groups f (g_groupings G) P R).
Proof.
  intros HG H2 H3 Hu Hr. destruct (merge_any f G r l HG H2 H3 Hu Hr) as (r' & lst & E1 & Ht & E2 & _ & HP). unfold merge_fix. rewrite E1. cbn [bind].
  assert (H := minmaxmean_spec _ lst Ht E2). destruct (vr_minmaxmean (vr_minimal_sets r')) as [[mn mx] mean]. exists lst, mn, mx, mean. auto.
Qed.
Lemma merge_sets_any a G : settled_state a -> groupings_new (g_groupings G) f = Ok G -> groups_of f (g_groupings G) -> disjoint_groups (g_groupings G) ->
  exists r a', maybe_merge_sets E a (Some G) = Ok (r, a') /\ settled_state a' /\ any_group_results f (g_groupings G) r.
Proof.
  intros Hi HG Hg Hd. unfold maybe_merge_sets.
  destruct (bulk_tt a Hi) as (T & a1 & -> & Hi1 & HTr & HT). cbn [bind].
  destruct (groupings_new_ok f (g_groupings G) Hg Hd) as (G' & EG & Hids). assert (G' = G) by congruence. subst G'.
  destruct (merge_node_set_spec f (g_groupings G) G Hids Hd T HTr) as (R & ER & HR).
  unfold sr_merged_by_group. rewrite ER. cbn [bind].
  destruct (bulk_mq a1 (proj1 Hi1)) as (rq & lq & a2 & -> & Hi2 & _ & Uq & Rq & Lq & _). cbn [bind].
  destruct (merge_fix_any G rq lq HG Hg Hd Uq Rq) as (mq & mn1 & mx1 & me1 & -> & Sq & Pq). cbn [bind].
  destruct (bulk_mbs a2 Hi2) as (rb & lb & a3 & -> & Hi3 & _ & Ub & Rb & Lb & Xb). cbn [bind].
  destruct (merge_fix_any G rb lb HG Hg Hd Ub Rb) as (mb & mn2 & mx2 & me2 & -> & Sb & Pb). cbn [bind].
  destruct (bulk_mss a3 Hi3) as (rs & ls & a4 & -> & Hi4 & _ & Us & Rs & Ls & Xs). cbn [bind].
  destruct (merge_fix_any G rs ls HG Hg Hd Us Rs) as (ms & mn3 & mx3 & me3 & -> & Ss & Ps). cbn [bind].
  eexists. exists a4. split; [reflexivity|]. split; auto. split; [exists T, R; auto|]. split; [|split].
  - exists mq, mn1, mx1, me1. split; [|auto]. apply (Pq (includes_quorum f)); auto using includes_quorum_dec; [apply includes_quorum_mono|].
    intro S. rewrite (proj2 Lq). symmetry. apply includes_quorum_minimal.
  - exists mb, mn2, mx2, me2. split; [|split; [|auto]].
    + apply (Pb (blocking f)); auto. apply blocking_mono.
    + intros Hq Hsane. apply (Pb (blocking f)); auto using blocking_dec; [apply blocking_mono|].
      intro S. rewrite (proj2 (Xb Hsane)). unfold reported_blocking, minimal_blocking. tauto.
  - exists ms, mn3, mx3, me3. split; [|split; [|auto]].
    + intros Hq Hsane. apply (Ps (splitting f)); auto. apply splitting_mono.
    + intros Hq Hsp. apply (Ps (splitting f)); auto; [apply splitting_mono|intro S; now apply splitting_dec|].
      intro S. rewrite (proj2 (Xs Hsp)). unfold reported_splitting, minimal_splitting. tauto.
Qed.
Definition any_maybe_results (o : option groupings) (r : analysis_results) : Prop :=
  match o with Some G => any_group_results f (g_groupings G) r | None => r = no_results end.
Lemma maybe_merge_any a o : settled_state a -> usable f o ->
  exists r a', maybe_merge_sets E a o = Ok (r, a') /\ settled_state a' /\ any_maybe_results o r.
Proof.
  intros Hi Ho. destruct o as [G|].
  - destruct (Ho G eq_refl) as (H1 & H2 & H3). now apply merge_sets_any.
  - exists no_results, a. cbn. auto.
Qed.

Lemma row_any digest files clock input orgs isps countries :
  load_fbas files (nodes_path input) = Ok f -> maybe_load_organizations files (organizations_path input) f = Ok orgs ->
  maybe_load_isps files (nodes_path input) f = Ok isps -> maybe_load_countries files (nodes_path input) f = Ok countries ->
  usable f orgs -> usable f isps -> usable f countries ->
  exists row s, bulk_analyze E digest files clock input = Ok row /\ out_label row = in_label input /\ any_node_results f row /\
    any_maybe_results orgs (out_orgs row) /\ any_maybe_results isps (out_isps row) /\ any_maybe_results countries (out_ctries row) /\
    to_standard_form E f = Ok s /\ out_standard_form_hash row = digest (fbas_to_json s) /\ out_durations row = clock input.
Proof.
  intros Lf Lo Li Lc Uo Ui Uc. unfold bulk_analyze. rewrite Lf. cbn [bind]. rewrite Lo, Li, Lc. cbn [bind].
  destruct (state_new E HE f Hwf) as (a0 & -> & Hi0). cbn [bind].
  destruct (bulk_mq a0 Hi0) as (rq & lq & a1 & -> & Hi1 & Tq & Uq & _ & Hlq & Xq). cbn [bind].
  assert (Sq := minmaxmean_spec rq lq Tq Uq). destruct (vr_minmaxmean rq) as [[mn1 mx1] me1].
  destruct (bulk_hqi a1 Hi1) as (b & a2 & -> & Hi2 & Hb). cbn [bind].
  destruct (bulk_tt a2 Hi2) as (T & a3 & -> & Hi3 & _ & HT). cbn [bind].
  destruct (bulk_mbs a3 Hi3) as (rb & lb & a4 & -> & Hi4 & Tb & Ub & _ & Hlb & Xb). cbn [bind].
  assert (Sb := minmaxmean_spec rb lb Tb Ub). destruct (vr_minmaxmean rb) as [[mn2 mx2] me2].
  destruct (bulk_mss a4 Hi4) as (rs & ls & a5 & -> & Hi5 & Ts & Us & _ & Hls & Xs). cbn [bind].
  assert (Ss := minmaxmean_spec rs ls Ts Us). destruct (vr_minmaxmean rs) as [[mn3 mx3] me3].
  destruct (maybe_merge_any a5 orgs Hi5 Uo) as (ro & a6 & -> & Hi6 & Ro). cbn [bind].
  destruct (maybe_merge_any a6 isps Hi6 Ui) as (ri & a7 & -> & Hi7 & Ri). cbn [bind].
  destruct (maybe_merge_any a7 countries Hi7 Uc) as (rc & a8 & -> & Hi8 & Rc). cbn [bind].
  rewrite to_standard_form_eq. cbn [bind]. eexists. eexists. split; [reflexivity|]. split; [reflexivity|]. split.
  - split; auto. split; [exists T; auto|]. split; [exists lq; auto|]. split; [exists lb; auto|exists ls; auto].
  - split; auto.
Qed.
End Rows.

Lemma any_analyzed_row E digest files clock input j l f : ext_ok E ->
  files (nodes_path input) = Some j -> raw_fbas_of_json j = Ok l -> fbas_from_json j = Ok f -> unique_keys l ->
  (forall n s, In n l -> raw_isp n = Some s \/ country n = Some s -> ~ uncleanable s) ->
  (forall p, organizations_path input = Some p -> exists jo G, files p = Some jo /\ groupings_from_json jo f = Ok G /\ disjoint_groups (g_groupings G)) ->
  exists row I C s, bulk_analyze E digest files clock input = Ok row /\ out_label row = in_label input /\ any_node_results f row /\
    match organizations_path input with
    | Some p => exists jo G, files p = Some jo /\ groupings_from_json jo f = Ok G /\ any_group_results f (g_groupings G) (out_orgs row)
    | None => out_orgs row = no_results
    end /\
    isps_from_json j f = Ok I /\ (g_groupings I = [] -> out_isps row = no_results) /\ (g_groupings I <> [] -> any_group_results f (g_groupings I) (out_isps row)) /\
    countries_from_json j f = Ok C /\ (g_groupings C = [] -> out_ctries row = no_results) /\ (g_groupings C <> [] -> any_group_results f (g_groupings C) (out_ctries row)) /\
    to_standard_form E f = Ok s /\ out_standard_form_hash row = digest (fbas_to_json s) /\ out_durations row = clock input.
Proof.
  intros HE Hj Hl Hf Hu Hc Ho. assert (Ef : f = fbas_from_raw l) by (unfold fbas_from_json in Hf; rewrite Hl in Hf; cbn in Hf; congruence).
  assert (Hwf : wf_fbas f) by (rewrite Ef; apply from_raw_wf).
  destruct (proj2 (groupings_of_labels_total raw_isp l)) as (gi & Ei); [intros n s H1 H2; apply (Hc n); auto|].
  destruct (proj2 (groupings_of_labels_total country l)) as (gc & Ec); [intros n s H1 H2; apply (Hc n); auto|].
  destruct (labels_members raw_isp l gi Hu Ei) as (I & EI & _). destruct (labels_members country l gc Hu Ec) as (C & EC & _).
  destruct (labels_groups raw_isp l gi Hu Ei) as (_ & _ & Di). destruct (labels_groups country l gc Hu Ec) as (_ & _ & Dc).
  assert (JI : isps_from_json j f = Ok I) by (unfold isps_from_json, isps_from_raw_nodes; rewrite Hl; cbn [bind]; rewrite Ei; cbn [bind]; now rewrite Ef).
  assert (JC : countries_from_json j f = Ok C) by (unfold countries_from_json, countries_from_raw_nodes; rewrite Hl; cbn [bind]; rewrite Ec; cbn [bind]; now rewrite Ef).
  assert (Hgi : g_groupings I = map (grouping_from_raw (key_map l)) gi) by apply (groupings_new_fields _ _ _ EI).
  assert (Hgc : g_groupings C = map (grouping_from_raw (key_map l)) gc) by apply (groupings_new_fields _ _ _ EC).
  assert (UI : usable f (unless_empty I)).
  { intros G EG. unfold unless_empty in EG. destruct (_ =? _) in EG; [discriminate|]. inversion EG; subst G. rewrite Ef.
    split; [now apply (from_raw_new gi)|]. split; [now apply (read_groups_of l gi)|]. now rewrite Hgi. }
  assert (UC : usable f (unless_empty C)).
  { intros G EG. unfold unless_empty in EG. destruct (_ =? _) in EG; [discriminate|]. inversion EG; subst G. rewrite Ef.
    split; [now apply (from_raw_new gc)|]. split; [now apply (read_groups_of l gc)|]. now rewrite Hgc. }
  assert (LO : exists o, maybe_load_organizations files (organizations_path input) f = Ok o /\ usable f o /\
    match organizations_path input with Some p => exists jo G, o = Some G /\ files p = Some jo /\ groupings_from_json jo f = Ok G | None => o = None end).
  { destruct (organizations_path input) as [p|].
    - destruct (Ho p eq_refl) as (jo & G & H1 & H2 & H3). exists (Some G). cbn. unfold read_file. rewrite H1. cbn. rewrite H2. cbn. split; auto. split.
      + intros G' [= <-]. unfold groupings_from_json in H2. destruct (raw_groupings_of_json jo) as [lo|]; cbn [bind] in H2; [|discriminate].
        split; [now apply (from_raw_new lo)|]. split; auto. rewrite Ef in *. now apply (read_groups_of l lo).
      + exists jo, G. auto.
    - exists None. split; auto. split; auto. intros G; discriminate. }
  destruct LO as (o & LO & UO & MO).
  destruct (row_any E HE f Hwf digest files clock input o (unless_empty I) (unless_empty C)) as (row & s & Er & H1 & H2 & H3 & H4 & H5 & H6 & H7 & H8); auto.
  { unfold load_fbas, read_file. rewrite Hj. auto. }
  { unfold maybe_load_isps, read_file. rewrite Hj. cbn. rewrite JI. auto. }
  { unfold maybe_load_countries, read_file. rewrite Hj. cbn. rewrite JC. auto. }
  exists row, I, C, s. split; auto. split; auto. split; auto. split.
  { destruct (organizations_path input) as [p|]; [|subst o; auto]. destruct MO as (jo & G & -> & M1 & M2). exists jo, G. auto. }
  unfold unless_empty, number_of_groupings in H4, H5.
  split; auto. split; [intros E0; rewrite E0 in H4; exact H4|]. split.
  { intro Hne. destruct (List.length (g_groupings I) =? 0) eqn:E0; [|exact H4]. apply Nat.eqb_eq, length_zero_iff_nil in E0. congruence. }
  split; auto. split; [intros E0; rewrite E0 in H5; exact H5|]. split; auto.
  intro Hne. destruct (List.length (g_groupings C) =? 0) eqn:E0; [|exact H5]. apply Nat.eqb_eq, length_zero_iff_nil in E0. congruence.
Qed.
