(** Proofs about the command line tool. *)
From Coq Require Import ZArith Reals Ascii.
From Verif Require Export P_BulkRows Spec_Cli.
Local Open Scope string_scope.
Local Open Scope list_scope.
Local Open Scope nat_scope.

Lemma results_app a b : results (a ++ b) = results a ++ results b.
Proof. apply filter_app. Qed.
Lemma results_comment o t : results (out_comment o t) = [].
Proof. unfold out_comment. destruct (o_results_only o); reflexivity. Qed.
Lemma results_newline o : results (out_comment_newline o) = [].
Proof. apply results_comment. Qed.

(** the printed value of a result *)
Definition out_value (o : output) (r : result) : res value :=
  if o_describe o then into_describe r else if o_pretty o then into_pretty r (o_fbas o) (o_groupings o) else into_id r.
Lemma out_result_value o name r : out_result o name r = res_map (fun v => [Line name v]) (out_value o r).
Proof. unfold out_result, out_result_uncondensed, out_value. destruct (o_describe o), (o_pretty o); reflexivity. Qed.
Lemma timed_result_value o name r : out_timed_result o name r = res_map (fun v => [Line name v; Duration name]) (out_value o r).
Proof. unfold out_timed_result. rewrite out_result_value. destruct (out_value o r); reflexivity. Qed.

(** The printed value depends only on the listed sets. *)
Definition plain (l : list bset) : result := RSets (mk_vec_result l None).
Lemma describe_plain r l : ascending_table r -> vr_unwrap r = Ok l -> vr_describe r = vr_describe (mk_vec_result l None).
Proof.
  intros Ht Hu. destruct (unwrap_sizes r l Ht Hu) as [Hs Hd].
  assert (El : List.length (node_sets r) = List.length l) by (rewrite <- (map_length len (node_sets r)), Hs; apply map_length).
  unfold vr_describe, vr_minmaxmean, vr_histogram, vr_min, vr_max. cbn [node_sets]. rewrite Hs, El, Hd.
  assert (vr_mean r = vr_mean (mk_vec_result l None)) as ->; [|reflexivity].
  unfold vr_mean. cbn [node_sets]. rewrite Hs, El. destruct (node_sets r), l; try discriminate; reflexivity.
Qed.
Lemma unshrink_plain r l : vr_unwrap r = Ok l -> vr_unshrink r = Ok (mk_vec_result l None).
Proof.
  unfold vr_unwrap, vr_unshrink. destruct (vr_unshrink_table r) as [t|] eqn:Et; cbn.
  - destruct (unshrink_sets_with t (node_sets r)); cbn; congruence.
  - intros [= <-]. destruct r as [s t]. cbn in *. congruence.
Qed.
Lemma pretty_plain r l f g : vr_unwrap r = Ok l -> vr_into_pretty_vec_vec r f g = vr_into_pretty_vec_vec (mk_vec_result l None) f g.
Proof.
  intro Hu. apply vr_unwrap_inv in Hu. unfold vr_into_pretty_vec_vec. cbn [vr_unshrink_table node_sets].
  destruct (vr_unshrink_table r) as [t|]; [|now subst].
  induction Hu as [|s s' sets l Es Hu IH]; cbn [mapM]; auto. rewrite Es. cbn [bind]. rewrite IH. reflexivity.
Qed.
Lemma value_plain o r l : ascending_table r -> vr_unwrap r = Ok l -> out_value o (RSets r) = out_value o (plain l).
Proof.
  intros Ht Hu. unfold out_value, plain, into_describe, into_pretty, into_id. destruct (o_describe o); [now rewrite (describe_plain r l)|].
  destruct (o_pretty o); [now rewrite (pretty_plain r l)|].
  unfold vr_into_vec_vec. rewrite (unshrink_plain r l Hu). reflexivity.
Qed.

Section Cli.
Context (E : ext) (HE : ext_ok E) (f : fbas) (Hwf : wf_fbas f) (g : option groupings) (Hg : usable f g) (args : cli).
Notation inv := (inv f).
Definition out : output := mk_out (cli_results_only args) (cli_pretty args) (cli_describe args) f g.
Notation gs := (Spec_Cli.group_list g).

Lemma names : names_ok f g.
Proof.
  destruct g as [G|]; cbn; auto. destruct (Hg G eq_refl) as (H1 & H2 & H3). destruct (groupings_new_ok f (g_groupings G) H2 H3) as (G' & EG & HG).
  assert (G' = G) by congruence. subst. auto.
Qed.
Definition in_range_sets (l : list bset) : Prop := forall s x, In s l -> mem x s = true -> x < number_of_nodes f.
Lemma ids_of_elements s : ids_of s (elements s).
Proof. split; [apply elements_sorted|intro; apply elements_spec]. Qed.

Lemma sets_shown l : in_range_sets l -> exists v, out_value out (plain l) = Ok v /\ shows_sets args f gs l v.
Proof.
  intro Hr. unfold out_value, shows_sets, plain. cbn [out o_describe o_pretty o_fbas o_groupings]. destruct (cli_describe args).
  - destruct (describe_spec (mk_vec_result l None) l I eq_refl) as (d & mn & mx & mean & h & Ed & Hd & H1 & H2 & H3 & H4 & _ & H5 & H6).
    unfold into_describe. rewrite Ed. cbn. eexists. split; [reflexivity|]. exists d, mn, mx, mean, h. split; auto. split; auto. split; auto.
    split; auto. split; auto. split; auto. intros N1 N2 N3. destruct (H6 N1 N2 N3) as (K1 & K2 & _). auto.
  - destruct (cli_pretty args).
    + destruct (pretty_vec_vec_ok f g (mk_vec_result l None) l names eq_refl Hr) as (ll & El & HF). unfold into_pretty. rewrite El. cbn. eauto.
    + cbn. eexists. split; [reflexivity|]. exists (map elements l). split; auto. clear. induction l; cbn; constructor; auto using ids_of_elements.
Qed.
Lemma set_shown s : (forall x, mem x s = true -> x < number_of_nodes f) ->
  exists v, out_result_uncondensed out "top_tier" (RSet s) = Ok [Line "top_tier" v] /\ shows_set args f gs s v.
Proof.
  intro Hr. unfold out_result_uncondensed, shows_set. cbn [out o_pretty o_fbas o_groupings]. destruct (cli_pretty args).
  - destruct (pretty_set_ok f g s names Hr) as (ns & En & Hs). unfold into_pretty. rewrite En. cbn. eexists. split; [reflexivity|]. exists ns. auto.
  - cbn. eexists. split; [reflexivity|]. exists (elements s). split; auto using ids_of_elements.
Qed.

Definition qout : output := mk_out (cli_results_only args) (cli_pretty args) false f g.
Lemma cluster_range q : satisfiable_cluster f q -> ids_known f q.
Proof.
  intros [[_ H] _] x Hx. apply H in Hx as (n & Hn & _). unfold number_of_nodes. apply nth_error_Some. congruence.
Qed.

(** ** every line, up to the number of repetitions *)
Definition sets_value (P : bset -> Prop) (v : value) : Prop := exists l, lists P l /\ out_value out (plain l) = Ok v.
Definition wanted (P : bset -> Prop) : bset -> Prop :=
  match g with Some G => minimal (by_groups f (g_groupings G) P) | None => minimal P end.
Inductive determined : string -> value -> Prop :=
| d_total : determined "nodes_total" (VNat (number_of_nodes f))
| d_merged G R : g = Some G -> (forall r, mem r R = true <-> exists x, x < number_of_nodes f /\ represents (g_groupings G) r x) ->
    determined "nodes_total_merged" (VNat (len R))
| d_clusters l l' v : find_symmetric_clusters E f = Ok l -> match g with Some G => merge_quorum_sets G l = Ok l' | None => l' = l end ->
    out_value qout (RQsets l') = Ok v -> determined "symmetric_clusters" v
| d_quorums v : (g <> None \/ distinct_clusters f -> sets_value (wanted (includes_quorum f)) v) -> determined "minimal_quorums" v
| d_intersection b : (b = true <-> quorum_intersection f) -> determined "has_quorum_intersection" (VBool b)
| d_nonintersecting v : determined "nonintersecting_quorums" v
| d_blocking v : sets_value (wanted (blocking f)) v -> determined "minimal_blocking_sets" v
| d_splitting v : sets_value (wanted (splitting f)) v -> determined "minimal_splitting_sets" v
| d_top_tier T R v : (forall x, mem x T = true <-> in_top_tier f x) -> match g with Some G => group_image (g_groupings G) T R | None => R = T end ->
    out_result_uncondensed out "top_tier" (RSet R) = Ok [Line "top_tier" v] -> determined "top_tier" v.
Definition all_determined (l : list item) : Prop := forall n v, In (Line n v) l -> determined n v.

Lemma determined_fun n v v' : n <> "nonintersecting_quorums" -> (g = None -> distinct_clusters f \/ n <> "minimal_quorums") ->
  determined n v -> determined n v' -> v = v'.
Proof.
  intros Hn Hd H H'.
  assert (Hsets : forall P, sets_value P v -> sets_value P v' -> v = v').
  { intros P (l & Hl & E1) (l' & Hl' & E2). rewrite (lists_unique P l l') in E1 by auto. congruence. }
  inversion H as [|G R HG HR|l l' w H1 H2 H3|w H1|b H1|w|w H1|w H1|T R w H1 H2 H3]; subst;
    inversion H' as [|G' R' HG' HR'|m m' w' H1' H2' H3'|w' H1'|b' H1'|w'|w' H1'|w' H1'|T' R' w' H1' H2' H3']; subst; auto.
  - assert (G' = G) by congruence. subst. f_equal. f_equal. apply bset_ext. intro x. apply eq_true_iff_eq. rewrite HR, HR'. tauto.
  - assert (m = l) by congruence. subst. assert (m' = l') as -> by (destruct g; congruence). congruence.
  - assert (Hc : g <> None \/ distinct_clusters f) by (destruct g; [left; discriminate|right; destruct (Hd eq_refl); [auto|congruence]]). eauto.
  - f_equal. apply eq_true_iff_eq. tauto.
  - congruence.
  - eauto.
  - eauto.
  - assert (T' = T) as -> by (apply bset_ext; intro x; apply eq_true_iff_eq; rewrite H1, H1'; tauto).
    assert (R' = R) as ->.
    { destruct g as [G|]; [|congruence]. apply bset_ext. intro x. apply eq_true_iff_eq. unfold group_image in H2, H2'. rewrite H2, H2'. tauto. }
    congruence.
Qed.

(** ** the parts of the report *)
Lemma sets_part c name before after P (Q : list bset -> Prop) :
  (forall a K, inv a K -> exists r l a' K', ask_sets E c a = Ok (r, a') /\ inv a' K' /\ ascending_table r /\ vr_unwrap r = Ok l /\
     (forall S, In S l <-> minimal P S) /\ Q l) ->
  (forall a b, incl_set a b -> P a -> P b) -> (forall S, P S \/ ~ P S) -> (forall S x, minimal P S -> mem x S = true -> x < number_of_nodes f) ->
  forall a K, inv a K -> exists a' K' v lst n, report_sets E c name before after g out a =
      Ok ([Line name v; Duration name] ++ out_comment out [inl before; inr n; inl after], a') /\ inv a' K' /\
    out_value out (plain lst) = Ok v /\ shows_sets args f gs lst v /\
    match g with Some G => lists (minimal (by_groups f (g_groupings G) P)) lst | None => Q lst end /\
    exists l, Q l /\ n = List.length l.
Proof.
  intros Hask Hm Hdec Hrange a K Hi. unfold report_sets. destruct (Hask a K Hi) as (r & l & a1 & K1 & -> & Hi1 & Ht & Hu & Hl & HQ). cbn [bind].
  assert (Hr : in_range_sets l) by (intros s x Hs; apply Hrange; now apply Hl).
  assert (exists r' lst, merge_if g r = Ok r' /\ ascending_table r' /\ vr_unwrap r' = Ok lst /\ in_range_sets lst /\
    match g with Some G => lists (minimal (by_groups f (g_groupings G) P)) lst | None => Q lst end) as (r' & lst & -> & Ht' & Hu' & Hr' & HP).
  { unfold merge_if. destruct g as [G|]; [|exists r, l; auto]. destruct (Hg G eq_refl) as (HG & H2 & H3).
    destruct (merged_result_minimal f (g_groupings G) H2 H3 P r l Hm Hdec Hu Hl Hr) as (G' & r' & l' & EG & E1 & E2 & Hs & Hl').
    assert (G' = G) by congruence. subst G'. rewrite E1. cbn [bind]. exists (vr_minimal_sets r'), l'. split; auto. split.
    - unfold ascending_table, vr_minimal_sets. cbn. rewrite (merged_table _ _ _ E1). auto.
    - split; auto. split; [|split; auto]. intros s x Hs' Hx. apply Hl' in Hs'. destruct (merged_result f (g_groupings G) H2 H3 G r l HG Hu Hr) as (r2 & l2 & E3 & E4 & HF).
      assert (r2 = r') by congruence. subst r2. apply Hl' in Hs'. clear -E4 E2 HF Hs' Hx E1 Hr H2.
      assert (El : node_sets r' = l2) by (apply vr_unwrap_inv in E4; rewrite (merged_table _ _ _ E1) in E4; auto).
      assert (El' : l' = remove_non_minimal_node_sets l2).
      { apply vr_unwrap_inv in E2. unfold vr_minimal_sets in E2. cbn in E2. rewrite (merged_table _ _ _ E1), El in E2. auto. }
      subst l'. assert (In s l2) as Hs by (apply remove_non_minimal_exact in Hs'; apply Hs').
      destruct (Forall2_in_r _ _ _ _ HF Hs) as (s0 & Hs0 & Himg). apply Himg in Hx as (y & Hy & Hm). eapply represents_range; eauto. }
  cbn [bind]. rewrite timed_result_value, (value_plain out r' lst Ht' Hu').
  destruct (sets_shown lst Hr') as (v & Ev & Hv). rewrite Ev. cbn [res_map bind].
  destruct (Hask a1 K1 Hi1) as (r2 & l2 & a2 & K2 & -> & Hi2 & Ht2 & Hu2 & Hl2 & HQ2). cbn [bind].
  exists a2, K2, v, lst, (vr_len r2). split; auto. split; auto. split; auto. split; auto. split; auto.
  exists l2. split; auto. destruct (unwrap_sizes r2 l2 Ht2 Hu2) as [Hs _]. unfold vr_len. rewrite <- (map_length len (node_sets r2)), Hs. apply map_length.
Qed.

(** what a part of the run does *)
Definition does (P : part) (run : analysis -> res (list item * analysis)) : Prop :=
  forall a K, inv a K -> exists l a' K', run a = Ok (l, a') /\ inv a' K' /\ P (results l) /\ all_determined l.
(** ... and with a comment *)
Definition does_more (P : part) (C : list item -> Prop) (run : analysis -> res (list item * analysis)) : Prop :=
  forall a K, inv a K -> exists l a' K', run a = Ok (l, a') /\ inv a' K' /\ P (results l) /\ all_determined l /\ C l.
Lemma determined_nil : all_determined [].
Proof. intros n v []. Qed.
Lemma determined_comment o t : all_determined (out_comment o t).
Proof. unfold out_comment. intros n v H. destruct (o_results_only o); [destruct H|destruct H as [H|[]]; discriminate]. Qed.
Lemma determined_app a b : all_determined a -> all_determined b -> all_determined (a ++ b).
Proof. intros Ha Hb n v H. apply in_app_iff in H as [H|H]; auto. Qed.
Lemma determined_line n v : determined n v -> all_determined [Line n v].
Proof. intros H n' v' [[= <- <-]|[]]. auto. Qed.
Lemma determined_timed n v : determined n v -> all_determined [Line n v; Duration n].
Proof. intros H n' v' [[= <- <-]|[H'|[]]]; [auto|discriminate]. Qed.
Lemma when_does (c : bool) (C : Prop) P run : (c = true <-> C) -> (C -> does P run) -> does (only_if C P) (when c run).
Proof.
  intros Hc Hd a K Hi. unfold when. destruct c.
  - destruct (Hd (proj1 Hc eq_refl) a K Hi) as (l & a' & K' & H1 & H2 & H3 & H4). exists l, a', K'. split; auto. split; auto. split; auto. left. tauto.
  - exists [], a, K. split; auto. split; auto. split; [|apply determined_nil]. right. split; auto. intro H. apply Hc in H. discriminate.
Qed.
Lemma when_does_more (c : bool) (W : Prop) P C run : (c = true <-> W) -> (W -> does_more P C run) -> does_more (only_if W P) (fun l => W -> C l) (when c run).
Proof.
  intros Hc Hd a K Hi. unfold when. destruct c.
  - destruct (Hd (proj1 Hc eq_refl) a K Hi) as (l & a' & K' & H1 & H2 & H3 & H4 & H5). exists l, a', K'. split; auto. split; auto. split; auto. left. tauto.
  - assert (~ W) by (intro H; apply Hc in H; discriminate).
    exists [], a, K. split; auto. split; auto. split; [right; auto|]. split; [apply determined_nil|tauto].
Qed.
Definition counted (name before after : string) (Q : list bset -> Prop) (l : list item) : Prop :=
  exists v n sets, l = [Line name v; Duration name] ++ out_comment out [inl before; inr n; inl after] /\ Q sets /\ n = List.length sets.

Lemma overview_part : does (overview f g) (report_overview E g out).
Proof.
  intros a K Hi. unfold report_overview. destruct (perform_step E HE f Hwf a K AllNodes Hi I) as (ans & a' & K' & Ep & Hi' & (s & -> & Hs)).
  unfold ask_set. rewrite Ep. cbn [bind fst snd].
  assert (En : len s = number_of_nodes f).
  { assert (s = all_nodes f) as -> by (apply bset_ext; intro x; apply eq_true_iff_eq; rewrite Hs; symmetry; apply mem_all_nodes). apply len_below. }
  rewrite out_result_value. unfold out_value at 1. cbn [into_describe into_pretty into_id].
  replace (if o_describe out then _ else _) with (Ok (VNat (len s))) by (destruct (o_describe out), (o_pretty out); reflexivity).
  cbn [res_map bind]. destruct g as [G|] eqn:EG.
  - destruct (Hg G eq_refl) as (HG & H2 & H3). destruct (groupings_new_ok f (g_groupings G) H2 H3) as (G' & EG' & HGok).
    assert (G' = G) by congruence. subst G'. destruct (merge_node_set_spec f (g_groupings G) G HGok H3 s) as (R & ER & HR); [intros x Hx; now apply Hs|].
    unfold sr_merged_by_group. rewrite ER. cbn [bind]. rewrite out_result_value. unfold out_value. cbn [into_describe into_pretty into_id].
    replace (if o_describe out then _ else _) with (Ok (VNat (len R))) by (destruct (o_describe out), (o_pretty out); reflexivity).
    cbn [res_map bind]. eexists. exists a', K'. split; [reflexivity|]. split; auto. 
    assert (HR' : forall r, mem r R = true <-> exists x, x < number_of_nodes f /\ represents (g_groupings G) r x).
    { intro r. rewrite (HR r). split; intros (x & H & H'); exists x; [rewrite Hs in H'|rewrite Hs]; tauto. }
    split.
    + rewrite !results_app, results_comment. cbn. exists [Line "nodes_total" (VNat (len s))], [Line "nodes_total_merged" (VNat (len R))].
      split; auto. split; [eexists; split; [reflexivity|]; congruence|]. eexists. split; [reflexivity|]. exists R. auto.
    + apply determined_app; [apply determined_line; rewrite En; constructor|]. apply determined_app; [|apply determined_comment].
      apply determined_line. eapply d_merged; [exact EG|exact HR'].
  - eexists. exists a', K'. split; [reflexivity|]. split; auto. split.
    + exists [Line "nodes_total" (VNat (len s))], []. split; auto. split; [eexists; split; [reflexivity|]; congruence|]. reflexivity.
    + apply determined_app; [apply determined_line; rewrite En; constructor|apply determined_nil].
Qed.

Lemma clusters_part : does (timed_line "symmetric_clusters" (clusters_shown args f g)) (report_symmetric_clusters E g out).
Proof.
  intros a K Hi. unfold report_symmetric_clusters. destruct (perform_step E HE f Hwf a K SymmetricClusters Hi I) as (ans & a' & K' & Ep & Hi' & (l & -> & Ef & Hn & Hl)).
  rewrite Ep. cbn [bind fst snd].
  assert (Hids : forall q, In q l -> ids_known f q) by (intros q Hq; apply cluster_range; now apply Hl).
  assert (exists l' v, match g with Some G => merge_quorum_sets G l | None => Ok l end = Ok l' /\ out_value qout (RQsets l') = Ok v /\
    shows_qsets args f gs l' v /\ match g with Some G => Forall2 (fun q q' => merge_quorum_set G q = Ok q') l l' | None => l' = l end) as (l' & v & El & Ev & Hv & Hm).
  { assert (Hnm := names). clear -Hg Hids Hnm. unfold qout. destruct g as [G|].
    - destruct (Hg G eq_refl) as (HG & H2 & H3). destruct Hnm as (HGok & _).
      assert (exists l', merge_quorum_sets G l = Ok l' /\ Forall2 (fun q q' => merge_quorum_set G q = Ok q' /\
         exists p, into_pretty_quorum_set q' f (Some G) = Ok p /\ shown_qset f (g_groupings G) q' p) l l') as (l' & El & HF).
      { unfold merge_quorum_sets. apply mapM_exists. intros q Hq. destruct (merge_quorum_set_total f _ G HGok H3 q (Hids q Hq)) as (q' & Eq).
        exists q'. split; auto. split; auto. assert (Hq' : ids_known f q').
        { intros x Hx. destruct (merge_mentions f _ G HGok H3 q q' x (Hids q Hq) Eq Hx) as (y & Hy & Hrep). apply (represents_range f (g_groupings G) H2 x y); auto. now apply (Hids q Hq). }
        destruct (into_pretty_quorum_set_ok f G q' HGok H2 H3 Hq') as (q2 & p & E2 & Ep & Hp). exists p. split; auto.
        rewrite (merged_form_fix G q' (merge_merged_form f _ G HGok H2 H3 q q' (Hids q Hq) Eq)) in E2. inversion E2; subst. auto. }
      exists l'. unfold out_value, shows_qsets. cbn [qout o_describe o_pretty o_fbas o_groupings]. destruct (cli_pretty args).
      + destruct (mapM_exists (fun q => into_pretty_quorum_set q f (Some G)) (shown_qset f (g_groupings G)) l') as (pl & Epl & HF').
        { intros q' Hq'. destruct (Forall2_in_r _ _ _ _ HF Hq') as (q & _ & _ & p & Hp). exists p. auto. }
        exists (VPrettyQsets pl). split; auto. split; [cbn; now rewrite Epl|]. split; [exists pl; auto|]. eapply Forall2_impl; [|exact HF]. intros q q' [H _]. auto.
      + exists (VQsets l'). split; auto. split; auto. split; auto. eapply Forall2_impl; [|exact HF]. intros q q' [H _]. auto.
    - exists l. unfold out_value, shows_qsets. cbn [qout o_describe o_pretty o_fbas o_groupings]. destruct (cli_pretty args).
      + destruct (mapM_exists (fun q => into_pretty_quorum_set q f None) (shown_qset f []) l) as (pl & Epl & HF').
        { intros q Hq. apply pretty_none_ok; auto. apply (Hids q Hq). }
        exists (VPrettyQsets pl). split; auto. split; [cbn; now rewrite Epl|]. split; [exists pl; auto|]. auto.
      + exists (VQsets l). auto. }
  rewrite El. cbn [bind]. rewrite timed_result_value. change (mk_out _ _ false _ _) with qout. rewrite Ev. cbn [res_map bind].
  eexists. exists a', K'. split; [reflexivity|]. split; auto. split.
  - rewrite results_app, results_newline, app_nil_r. exists v. split; auto. exists l, l'. auto.
  - apply determined_app; [|apply determined_comment]. apply determined_timed. eapply d_clusters; eauto. destruct g; [auto|congruence].
Qed.

Definition verdict (b : bool) : string :=
  (line_break ++ if b then "All quorums intersect 👍" ++ line_break
                else "Some quorums don't intersect 👎 Safety severely threatened for some nodes!" ++ line_break ++
                     "(Also, the remaining results here might not make much sense.)" ++ line_break)%string.
Lemma intersection_part : (cli_alternative_check args = true -> has_a_quorum f) ->
  does_more (intersection args f g) (fun l => exists pre b, l = pre ++ out_comment out [inl (verdict b)] /\ (b = true <-> quorum_intersection f))
    (report_quorum_intersection E (cli_alternative_check args) out).
Proof.
  intros Ha a K Hi. unfold report_quorum_intersection, intersection. assert (Hbool : forall b, out_value out (RBool b) = Ok (VBool b)).
  { intro b. unfold out_value. destruct (o_describe out), (o_pretty out); reflexivity. }
  destruct (cli_alternative_check args).
  - destruct (perform_step E HE f Hwf a K AlternativeCheck Hi (Ha eq_refl)) as (ans & a' & K' & Ep & Hi' & Hc). rewrite Ep. cbn [bind fst snd].
    destruct Hc as [[-> Hqi]|(r & l & -> & Hu & Hqi & H2 & HQ & Hd)].
    + rewrite timed_result_value, Hbool. cbn [res_map bind]. eexists. exists a', K'. split; [reflexivity|]. split; auto. split; [|split; [|eexists; exists true; split; [reflexivity|tauto]]].
      * rewrite !results_app, !results_comment. cbn. left. split; auto. eexists; split; reflexivity.
      * repeat apply determined_app; try apply determined_comment; try apply determined_nil. apply determined_timed. constructor. tauto.
    + rewrite timed_result_value, Hbool. cbn [res_map bind].
      rewrite out_result_value.
      assert (ascending_table r) as Ht'.
      { cbn [perform] in Ep. unfold alternative_check in Ep. destruct (find_nonintersecting_quorums E (fbas_shrunken a)) as [[qs|]|]; cbn [bind fst snd] in Ep; try discriminate.
        destruct (unwrap (nth_error qs 0)) as [q0|]; cbn [bind] in Ep; [|discriminate]. destruct (unwrap (nth_error qs 1)) as [q1|]; cbn [bind] in Ep; [|discriminate].
        unfold assert in Ep. destruct (disjoint q0 q1); cbn [bind fst snd] in Ep; [|discriminate]. inversion Ep; subst. unfold ascending_table. cbn.
        rewrite (inv_sm f _ K Hi). apply elements_sorted. }
      rewrite (value_plain out r l Ht' Hu).
      destruct (sets_shown l) as (v & Ev & Hv); [intros s x Hs; apply quorum_in_range; auto|]. rewrite Ev. cbn [res_map bind].
      eexists. exists a', K'. split; [reflexivity|]. split; auto. split; [|split; [|eexists; exists false; split; [reflexivity|split; [discriminate|tauto]]]].
      * rewrite !results_app, !results_comment. cbn. right. split; auto. exists [Line "has_quorum_intersection" (VBool false); Duration "has_quorum_intersection"], [Line "nonintersecting_quorums" v].
        split; auto. split; [eexists; split; reflexivity|]. eexists; split; [reflexivity|]. exists l. auto.
      * repeat apply determined_app; try apply determined_comment; [apply determined_timed|apply determined_line]; constructor. split; [discriminate|tauto].
  - destruct (ask_hqi E HE f Hwf a K Hi) as (b & a1 & K1 & -> & Hi1 & Hb). cbn [bind]. rewrite timed_result_value, Hbool. cbn [res_map bind].
    destruct (ask_hqi E HE f Hwf a1 K1 Hi1) as (b' & a2 & K2 & -> & Hi2 & Hb'). cbn [bind].
    eexists. exists a2, K2. split; [reflexivity|]. split; auto. split; [|split; [|eexists; exists b'; split; [reflexivity|tauto]]].
    + rewrite results_app, results_comment. cbn. eexists. split; [reflexivity|]. exists b. auto.
    + apply determined_app; [|apply determined_comment]. apply determined_timed. now constructor.
Qed.

Definition quorums_text : string := (" minimal quorums." ++ line_break)%string.
Definition blocking_text : string := (" minimal blocking sets (minimal indispensable sets for global liveness). Control over any of these sets is sufficient to compromise the liveness of all nodes and to censor future transactions." ++ line_break)%string.
Definition splitting_text : string := (" minimal splitting sets (minimal indispensable sets for safety). Control over any of these sets is sufficient to compromise safety by undermining the quorum intersection of at least two quorums." ++ line_break)%string.
Lemma quorums_part : does_more (timed_line "minimal_quorums" (minimal_quorums_shown args f g))
  (counted "minimal_quorums" (line_break ++ "We found ")%string quorums_text (fun l => lists_weakly (minimal_quorum f) l /\ (distinct_clusters f -> lists (minimal_quorum f) l)))
  (report_minimal_quorums E g out).
Proof.
  intros a K Hi. destruct (sets_part MinimalQuorums "minimal_quorums" (line_break ++ "We found ")%string (" minimal quorums." ++ line_break) (includes_quorum f)
    (fun l => lists_weakly (minimal_quorum f) l /\ (distinct_clusters f -> lists (minimal_quorum f) l))) with (a := a) (K := K)
    as (a' & K' & v & lst & n & Er & Hi' & Ev & Hv & HQ & HC); auto using includes_quorum_dec.
  - clear a K Hi. intros a K Hi. destruct (perform_step E HE f Hwf a K MinimalQuorums Hi I) as (ans & a' & K' & Ep & Hi' & (r & l & -> & Hu & Hw & Hl)).
    exists r, l, a', K'. unfold ask_sets. rewrite Ep. cbn. split; auto. split; auto. split; [exact (inv_table E f _ _ _ _ _ Hi Ep)|]. split; auto. split; auto.
    intro S. rewrite (proj2 Hw). symmetry. apply includes_quorum_minimal.
  - apply includes_quorum_mono.
  - intros S x HS. apply (quorum_in_range f S). apply includes_quorum_minimal in HS. apply HS.
  - unfold report_minimal_quorums. rewrite Er. eexists. exists a', K'. split; [reflexivity|]. split; auto. split; [|split; [|destruct HC as (sets & HC); exists v, n, sets; split; [reflexivity|exact HC]]].
    + rewrite results_app, results_comment. cbn. exists v. split; auto. exists lst. split; auto.
    + apply determined_app; [|apply determined_comment]. apply determined_timed. constructor. intro Hd. exists lst. split; auto. unfold wanted.
      destruct g as [G|]; [exact HQ|]. destruct Hd as [Hd|Hd]; [congruence|]. destruct HQ as [_ HQ]. destruct (HQ Hd) as [H1 H2]. split; auto.
      intro S. rewrite H2. symmetry. apply includes_quorum_minimal.
Qed.
Lemma blocking_part : has_a_quorum f -> sane_clusters f ->
  does_more (timed_line "minimal_blocking_sets" (minimal_sets_shown args f g (blocking f)))
    (counted "minimal_blocking_sets" (line_break ++ "We found ")%string blocking_text (lists (minimal_blocking f))) (report_minimal_blocking_sets E g out).
Proof.
  intros Hq Hs a K Hi. unfold report_minimal_blocking_sets. edestruct (sets_part MinimalBlockingSets "minimal_blocking_sets") with (P := blocking f)
    (Q := lists (minimal_blocking f)) (a := a) (K := K)
    as (a' & K' & v & lst & n & Er & Hi' & Ev & Hv & HQ & HC); [| | | | |rewrite Er]; auto using blocking_dec.
  - clear a K Hi. intros a K Hi. destruct (ask_mbs E HE f Hwf Hq Hs a K Hi) as (r & l & a' & K' & H1 & H2 & H3 & H4 & H5). exists r, l, a', K'. split; auto. split; auto.
    split; auto. split; auto. split; auto. apply H5.
  - apply blocking_mono.
  - intros S x HS. now apply minimal_blocking_in_range.
  - eexists. exists a', K'. split; [reflexivity|]. split; auto. split; [|split; [|destruct HC as (sets & HC); exists v, n, sets; split; [reflexivity|exact HC]]].
    + rewrite results_app, results_comment. cbn. exists v. split; auto. exists lst. split; auto.
    + apply determined_app; [|apply determined_comment]. apply determined_timed. constructor. exists lst. split; auto. unfold wanted.
      destruct g as [G|]; exact HQ.
Qed.
Lemma splitting_part : has_a_quorum f -> splittable_clusters f ->
  does_more (timed_line "minimal_splitting_sets" (minimal_sets_shown args f g (splitting f)))
    (counted "minimal_splitting_sets" (line_break ++ "We found ")%string splitting_text (lists (minimal_splitting f))) (report_minimal_splitting_sets E g out).
Proof.
  intros Hq Hs a K Hi. unfold report_minimal_splitting_sets. edestruct (sets_part MinimalSplittingSets "minimal_splitting_sets") with (P := splitting f)
    (Q := lists (minimal_splitting f)) (a := a) (K := K)
    as (a' & K' & v & lst & n & Er & Hi' & Ev & Hv & HQ & HC); [| | | | |rewrite Er]; auto.
  - clear a K Hi. intros a K Hi. destruct (ask_mss E HE f Hwf Hq Hs a K Hi) as (r & l & a' & K' & H1 & H2 & H3 & H4 & H5). exists r, l, a', K'. split; auto. split; auto.
    split; auto. split; auto. split; auto. apply H5.
  - apply splitting_mono.
  - intro S. now apply splitting_dec.
  - intros S x HS. now apply minimal_splitting_in_range.
  - eexists. exists a', K'. split; [reflexivity|]. split; auto. split; [|split; [|destruct HC as (sets & HC); exists v, n, sets; split; [reflexivity|exact HC]]].
    + rewrite results_app, results_comment. cbn. exists v. split; auto. exists lst. split; auto.
    + apply determined_app; [|apply determined_comment]. apply determined_timed. constructor. exists lst. split; auto. unfold wanted.
      destruct g as [G|]; exact HQ.
Qed.
Definition top_tier_text : string := (" distinct nodes involved in all of these sets (this is the ""top tier"")." ++ line_break)%string.
Lemma top_tier_part : does_more (line "top_tier" (top_tier_shown args f g))
  (fun l => exists v R, l = [Line "top_tier" v] ++ out_comment out [inl (line_break ++ "There is a total of ")%string; inr (len R); inl top_tier_text] /\ shows_set args f gs R v)
  (report_top_tier E g out).
Proof.
  intros a K Hi. unfold report_top_tier. destruct (ask_tt E HE f Hwf a K Hi) as (T & a' & K' & -> & Hi' & HT). cbn [bind].
  assert (Hr : forall x, mem x T = true -> x < number_of_nodes f).
  { intros x Hx. apply HT in Hx. destruct Hx as (Q & [HQ _] & Hx). apply (quorum_in_range f Q); auto. }
  assert (exists R, match g with Some orgs => sr_merged_by_group T orgs | None => Ok T end = Ok R /\ (forall x, mem x R = true -> x < number_of_nodes f) /\
    match g with Some G => group_image (g_groupings G) T R | None => R = T end) as (R & -> & HRr & HR).
  { destruct g as [G|] eqn:EG; [|exists T; auto]. destruct (Hg G eq_refl) as (HG & H2 & H3). destruct (groupings_new_ok f (g_groupings G) H2 H3) as (G' & EG' & HGok).
    assert (G' = G) by congruence. subst G'. destruct (merge_node_set_spec f (g_groupings G) G HGok H3 T Hr) as (R & ER & HR).
    exists R. unfold sr_merged_by_group. split; auto. split; auto. intros x Hx. apply HR in Hx as (y & Hy & Hm). eapply represents_range; eauto. }
  cbn [bind]. destruct (set_shown R HRr) as (v & Ev & Hv). rewrite Ev. cbn [bind]. eexists. exists a', K'. split; [reflexivity|]. split; auto. split; [|split; [|exists v, R; split; [reflexivity|exact Hv]]].
  - rewrite results_app, results_comment. cbn. exists v. split; auto. exists T, R. auto.
  - apply determined_app; [|apply determined_comment]. apply determined_line. eapply d_top_tier; eauto.
Qed.

Definition counted_in (items : list item) (name after : string) (Q : list bset -> Prop) : Prop :=
  exists pre post v n sets, items = pre ++ ([Line name v; Duration name] ++ out_comment out [inl (line_break ++ "We found ")%string; inr n; inl after]) ++ post /\
    Q sets /\ n = List.length sets.
Definition all_counted (items : list item) : Prop :=
  (wants_quorums args -> counted_in items "minimal_quorums" quorums_text (fun l => lists_weakly (minimal_quorum f) l /\ (distinct_clusters f -> lists (minimal_quorum f) l))) /\
  (wants_blocking args -> counted_in items "minimal_blocking_sets" blocking_text (lists (minimal_blocking f))) /\
  (wants_splitting args -> counted_in items "minimal_splitting_sets" splitting_text (lists (minimal_splitting f))) /\
  (wants_quorums args \/ wants_blocking args \/ wants_splitting args ->
   exists pre post v R, items = pre ++ ([Line "top_tier" v] ++ out_comment out [inl (line_break ++ "There is a total of ")%string; inr (len R); inl top_tier_text]) ++ post /\
     shows_set args f gs R v) /\
  (wants_check args -> exists pre post b, items = pre ++ out_comment out [inl (verdict b)] ++ post /\ (b = true <-> quorum_intersection f)).
Lemma main_run files stdin : cli_load_fbas files stdin (cli_nodes_path args) = Ok f -> cli_groupings files args f = Ok g ->
  (uses_alternative args -> has_a_quorum f) -> (wants_blocking args -> has_a_quorum f /\ sane_clusters f) ->
  (wants_splitting args -> has_a_quorum f /\ splittable_clusters f) ->
  exists items, cli_main E files stdin args = Ok items /\ report args f g (results items) /\ all_determined items /\ all_counted items.
Proof.
  intros Lf Lg Ha Hb Hs. unfold cli_main, cli_report. rewrite Lf. cbn [bind]. rewrite Lg. cbn [bind].
  destruct (inv_new E HE f Hwf) as (a0 & -> & Hi0). cbn [bind].
  assert (Hq : fst (fst (extract_main_todos args)) = true <-> wants_quorums args).
  { unfold extract_main_todos, wants_quorums. destruct (cli_all args); cbn; split; auto; try tauto. intros [H|H]; [discriminate|auto]. }
  assert (Hqb : snd (fst (extract_main_todos args)) = true <-> wants_blocking args).
  { unfold extract_main_todos, wants_blocking. destruct (cli_all args); cbn; split; auto; try tauto. intros [H|H]; [discriminate|auto]. }
  assert (Hqs : snd (extract_main_todos args) = true <-> wants_splitting args).
  { unfold extract_main_todos, wants_splitting. destruct (cli_all args); cbn; split; auto; try tauto. intros [H|H]; [discriminate|auto]. }
  destruct (extract_main_todos args) as [[q b] s]. cbn [fst snd] in *. unfold out_init. change (mk_out _ _ _ _ _) with out.
  set (l0 := if cli_results_only args then [] else _).
  assert (H0 : results l0 = [] /\ all_determined l0).
  { unfold l0. destruct (cli_results_only args), (cli_pretty args), (cli_describe args); (split; [reflexivity|]); intros n v H; cbn in H;
      repeat (destruct H as [H|H]; try discriminate); contradiction. }
  destruct H0 as [H0 D0].
  destruct (overview_part a0 _ Hi0) as (l1 & a1 & K1 & -> & Hi1 & P1 & D1). cbn [bind].
  destruct (clusters_part a1 _ Hi1) as (l2 & a2 & K2 & -> & Hi2 & P2 & D2). cbn [bind].
  destruct (when_does_more q (wants_quorums args) _ _ _ Hq (fun _ => quorums_part) a2 _ Hi2) as (l3 & a3 & K3 & -> & Hi3 & P3 & D3 & C3). cbn [bind].
  assert (Hn : negb (cli_dont_check args) = true <-> wants_check args) by apply negb_true_iff.
  destruct (when_does_more _ _ _ _ _ Hn (fun Hw => intersection_part (fun Hc => Ha (conj Hw Hc))) a3 K3 Hi3) as (l4 & a4 & K4 & -> & Hi4 & P4 & D4 & C4).
  cbn [bind].
  destruct (when_does_more b (wants_blocking args) _ _ _ Hqb (fun H => blocking_part (proj1 (Hb H)) (proj2 (Hb H))) a4 _ Hi4) as (l5 & a5 & K5 & -> & Hi5 & P5 & D5 & C5). cbn [bind].
  destruct (when_does_more s (wants_splitting args) _ _ _ Hqs (fun H => splitting_part (proj1 (Hs H)) (proj2 (Hs H))) a5 _ Hi5) as (l6 & a6 & K6 & -> & Hi6 & P6 & D6 & C6). cbn [bind].
  assert (Ht : q || b || s = true <-> wants_quorums args \/ wants_blocking args \/ wants_splitting args) by (rewrite !orb_true_iff; tauto).
  destruct (when_does_more _ _ _ _ _ Ht (fun _ => top_tier_part) a6 K6 Hi6) as (l7 & a7 & K7 & -> & Hi7 & P7 & D7 & C7).
  cbn [bind]. eexists. split; [reflexivity|]. split.
  - rewrite !results_app, H0, results_newline. cbn [app]. unfold report.
    exists (results l1). eexists. split; [reflexivity|]. split; auto. exists (results l2). eexists. split; [reflexivity|]. split; auto.
    exists (results l3). eexists. split; [reflexivity|]. split; auto. exists (results l4). eexists. split; [reflexivity|]. split; auto.
    exists (results l5). eexists. split; [reflexivity|]. split; auto. exists (results l6). eexists. split; [reflexivity|]. split; auto.
  - split; [repeat apply determined_app; auto; apply determined_comment|]. split; [|split; [|split; [|split]]].
    + intro Hw. destruct (C3 Hw) as (v & n & sets & -> & HC). exists (l0 ++ l1 ++ out_comment_newline out ++ l2), (l4 ++ l5 ++ l6 ++ l7), v, n, sets.
      split; auto. now rewrite <- !app_assoc.
    + intro Hw. destruct (C5 Hw) as (v & n & sets & -> & HC). exists (l0 ++ l1 ++ out_comment_newline out ++ l2 ++ l3 ++ l4), (l6 ++ l7), v, n, sets.
      split; auto. now rewrite <- !app_assoc.
    + intro Hw. destruct (C6 Hw) as (v & n & sets & -> & HC). exists (l0 ++ l1 ++ out_comment_newline out ++ l2 ++ l3 ++ l4 ++ l5), l7, v, n, sets.
      split; auto. now rewrite <- !app_assoc.
    + intro Hw. destruct (C7 Hw) as (v & R & -> & HC). exists (l0 ++ l1 ++ out_comment_newline out ++ l2 ++ l3 ++ l4 ++ l5 ++ l6), [], v, R.
      split; auto. now rewrite <- !app_assoc, app_nil_r.
    + intro Hw. destruct (C4 Hw) as (pre & c & -> & HC). exists (l0 ++ l1 ++ out_comment_newline out ++ l2 ++ l3 ++ pre), (l5 ++ l6 ++ l7), c.
      split; auto. now rewrite <- !app_assoc.
Qed.
End Cli.


(** ** input *)
Lemma load_document args files stdin j f : nodes_document args files stdin j -> fbas_from_json j = Ok f ->
  cli_load_fbas files stdin (cli_nodes_path args) = Ok f.
Proof.
  unfold nodes_document, cli_load_fbas, load_fbas, read_file. destruct (cli_nodes_path args); intros -> Hf; cbn; auto.
Qed.
Lemma load_groups args files f o : groups_to_merge args files f o -> cli_groupings files args f = Ok o.
Proof.
  unfold groups_to_merge, cli_groupings, extract_groupings_todos, cli_maybe_load_countries, cli_maybe_load_isps, maybe_load_organizations, read_file.
  destruct (cli_ctry_merge args), (cli_isp_merge args), (cli_organizations_path args), (cli_nodes_path args);
    try (intros (j & G & Hj & HG & ->); rewrite Hj; cbn; rewrite HG; reflexivity); intros ->; reflexivity.
Qed.
Lemma groups_usable args files j l f o : raw_fbas_of_json j = Ok l -> fbas_from_json j = Ok f ->
  groups_to_merge args files f o -> (forall G, o = Some G -> disjoint_groups (g_groupings G)) -> usable f o.
Proof.
  intros Hl Hf Ho Hd G EG. assert (Ef : f = fbas_from_raw l) by (unfold fbas_from_json in Hf; rewrite Hl in Hf; cbn in Hf; congruence).
  assert (exists l', groupings_from_raw l' f = Ok G) as (l' & HG).
  { subst o. unfold groups_to_merge in Ho. unfold isps_from_json, isps_from_raw_nodes, countries_from_json, countries_from_raw_nodes, groupings_from_json in Ho.
    destruct (cli_ctry_merge args), (cli_isp_merge args), (cli_organizations_path args), (cli_nodes_path args); try discriminate;
    destruct Ho as (j' & G' & _ & HG & EG); inversion EG; subst G'; clear -HG;
    first [ destruct (raw_fbas_of_json j') as [l0|]; cbn [bind] in HG; [|discriminate];
            match type of HG with bind ?e _ = _ => destruct e as [gi|]; cbn [bind] in HG; [exists gi; exact HG|discriminate] end
          | destruct (raw_groupings_of_json j') as [l0|]; cbn [bind] in HG; [exists l0; exact HG|discriminate] ]. }
  split; [now apply (from_raw_new l')|]. split; [|now apply Hd]. rewrite Ef in *. now apply (read_groups_of l l').
Qed.

Lemma reported E files stdin args j l f o : ext_ok E -> nodes_document args files stdin j -> raw_fbas_of_json j = Ok l -> fbas_from_json j = Ok f ->
  groups_to_merge args files f o -> (forall G, o = Some G -> disjoint_groups (g_groupings G)) ->
  (uses_alternative args -> has_a_quorum f) -> (wants_blocking args -> has_a_quorum f /\ sane_clusters f) ->
  (wants_splitting args -> has_a_quorum f /\ splittable_clusters f) ->
  exists items, cli_main E files stdin args = Ok items /\ report args f o (results items) /\ all_determined E f o args items /\ all_counted f o args items.
Proof.
  intros HE Hj Hl Hf Ho Hd Ha Hb Hs. assert (Ef : f = fbas_from_raw l) by (unfold fbas_from_json in Hf; rewrite Hl in Hf; cbn in Hf; congruence).
  assert (Hwf : wf_fbas f) by (rewrite Ef; apply from_raw_wf).
  apply main_run; auto.
  - eapply groups_usable; eauto.
  - eapply load_document; eauto.
  - now apply load_groups.
Qed.

(** ** the same values for other options *)
Lemma determined_args E f o args args' n v : same_input_and_form args args' -> determined E f o args n v -> determined E f o args' n v.
Proof.
  intros (_ & _ & _ & _ & H1 & H2) H.
  assert (Ev : forall r, out_value (out f o args) r = out_value (out f o args') r) by (intro r; unfold out_value, out; cbn; now rewrite H1, H2).
  assert (Eq : forall r, out_value (qout f o args) r = out_value (qout f o args') r) by (intro r; unfold out_value, qout; cbn; now rewrite H2).
  assert (Es : forall P v, sets_value f o args P v -> sets_value f o args' P v) by (intros P w (l & Hl & Hw); exists l; split; auto; now rewrite <- Ev).
  destruct H; try (econstructor; eauto; fail).
  - econstructor; eauto. now rewrite <- Eq.
  - eapply d_top_tier; eauto. unfold out_result_uncondensed, out in *. cbn in *. now rewrite <- H2.
Qed.
Lemma same_values E files stdin args args' j l f o items items' : ext_ok E -> same_input_and_form args args' ->
  nodes_document args files stdin j -> raw_fbas_of_json j = Ok l -> fbas_from_json j = Ok f ->
  groups_to_merge args files f o -> (forall G, o = Some G -> disjoint_groups (g_groupings G)) ->
  (o = None -> distinct_clusters f) ->
  (uses_alternative args \/ uses_alternative args' -> has_a_quorum f) ->
  (wants_blocking args \/ wants_blocking args' -> has_a_quorum f /\ sane_clusters f) ->
  (wants_splitting args \/ wants_splitting args' -> has_a_quorum f /\ splittable_clusters f) ->
  cli_main E files stdin args = Ok items -> cli_main E files stdin args' = Ok items' ->
  forall name v v', name <> "nonintersecting_quorums" -> In (Line name v) items -> In (Line name v') items' -> v = v'.
Proof.
  intros HE Hsame Hj Hl Hf Ho Hd Hdist Ha Hb Hs Em Em' name v v' Hn Hv Hv'.
  destruct (reported E files stdin args j l f o) as (i & Ei & _ & Hi & _); auto. assert (i = items) by congruence. subst i.
  assert (Hj' : nodes_document args' files stdin j) by (destruct Hsame as (H1 & _); unfold nodes_document in *; now rewrite <- H1).
  assert (Ho' : groups_to_merge args' files f o).
  { destruct Hsame as (H1 & H2 & H3 & H4 & _). unfold groups_to_merge in *. now rewrite <- H1, <- H2, <- H3, <- H4. }
  destruct (reported E files stdin args' j l f o) as (i & Ei' & _ & Hi' & _); auto. assert (i = items') by congruence. subst i.
  apply (determined_fun E f o (groups_usable args files j l f o Hl Hf Ho Hd) args' name); auto.
  apply (determined_args E f o args); auto.
Qed.

(** ** only comments are left out by [--results-only] *)
Definition quiet (o : output) : output := mk_out true (o_pretty o) (o_describe o) (o_fbas o) (o_groupings o).
Definition quietly (r : res (list item * analysis)) : res (list item * analysis) := res_map (fun la => (results (fst la), snd la)) r.
Lemma value_quiet o r : out_value (quiet o) r = out_value o r.
Proof. reflexivity. Qed.
Lemma comment_quiet o t : out_comment (quiet o) t = [].
Proof. reflexivity. Qed.
Lemma report_sets_quiet E c n b t g o a : report_sets E c n b t g (quiet o) a = quietly (report_sets E c n b t g o a).
Proof.
  unfold report_sets. destruct (ask_sets E c a) as [[r a1]|]; [|reflexivity]. cbn [bind]. destruct (merge_if g r) as [r'|]; [|reflexivity]. cbn [bind].
  rewrite !timed_result_value, value_quiet. destruct (out_value o (RSets r')) as [v|]; [|reflexivity]. cbn [res_map bind].
  destruct (ask_sets E c a1) as [[r2 a2]|]; [|reflexivity]. cbn [bind quietly res_map fst snd]. rewrite results_app, results_comment. reflexivity.
Qed.
Lemma overview_quiet E g o a : report_overview E g (quiet o) a = quietly (report_overview E g o a).
Proof.
  unfold report_overview. destruct (ask_set E AllNodes a) as [[s a1]|]; [|reflexivity]. cbn [bind]. rewrite !out_result_value, value_quiet.
  destruct (out_value o (RNat (len s))) as [v|]; [|reflexivity]. cbn [res_map bind]. destruct g as [G|]; [|reflexivity].
  destruct (sr_merged_by_group s G) as [s'|]; [|reflexivity]. cbn [bind]. rewrite !out_result_value, value_quiet.
  destruct (out_value o (RNat (len s'))) as [v'|]; [|reflexivity]. cbn [bind res_map quietly fst snd]. rewrite !results_app, results_comment. reflexivity.
Qed.
Lemma intersection_quiet E alt o a : report_quorum_intersection E alt (quiet o) a = quietly (report_quorum_intersection E alt o a).
Proof.
  unfold report_quorum_intersection. destruct alt.
  - destruct (perform E a AlternativeCheck) as [[ans a1]|]; [|reflexivity]. cbn [bind fst snd]. destruct ans as [| |b [r|]| | |]; try reflexivity.
    + rewrite !timed_result_value, value_quiet. destruct (out_value o (RBool b)) as [v|]; [|reflexivity]. cbn [res_map bind].
      rewrite !out_result_value, value_quiet. destruct (out_value o (RSets r)) as [w|]; [|reflexivity]. cbn [res_map bind quietly fst snd].
      rewrite !results_app, !results_comment. reflexivity.
    + rewrite !timed_result_value, value_quiet. destruct (out_value o (RBool b)) as [v|]; [|reflexivity]. cbn [res_map bind quietly fst snd].
      rewrite !results_app, !results_comment. reflexivity.
  - destruct (ask_bool E HasQuorumIntersection a) as [[b a1]|]; [|reflexivity]. cbn [bind].
    rewrite !timed_result_value, value_quiet. destruct (out_value o (RBool b)) as [v|]; [|reflexivity]. cbn [res_map bind].
    destruct (ask_bool E HasQuorumIntersection a1) as [[b' a2]|]; [|reflexivity]. cbn [bind quietly res_map fst snd].
    rewrite !results_app, !results_comment. reflexivity.
Qed.
Lemma clusters_quiet E g o a : report_symmetric_clusters E g (quiet o) a = quietly (report_symmetric_clusters E g o a).
Proof.
  unfold report_symmetric_clusters. destruct (perform E a SymmetricClusters) as [[ans a1]|]; [|reflexivity]. cbn [bind fst snd].
  destruct ans as [| | | | |l]; try reflexivity.
  match goal with |- context [bind ?e] => destruct e as [l'|]; [|reflexivity] end. cbn [bind]. rewrite !timed_result_value.
  match goal with |- context [out_value ?o1 (RQsets l')] => change (out_value o1 (RQsets l')) with (out_value (mk_out true (o_pretty o) false (o_fbas o) (o_groupings o)) (RQsets l')) end.
  match goal with |- _ = quietly (bind (res_map _ ?e) _) => change e with (out_value (mk_out true (o_pretty o) false (o_fbas o) (o_groupings o)) (RQsets l')) end.
  destruct (out_value _ _) as [v|]; [|reflexivity]. cbn [res_map bind quietly fst snd]. rewrite results_app, results_newline. reflexivity.
Qed.
Lemma top_tier_quiet E g o a : report_top_tier E g (quiet o) a = quietly (report_top_tier E g o a).
Proof.
  unfold report_top_tier. destruct (ask_set E TopTier a) as [[s a1]|]; [|reflexivity]. cbn [bind].
  match goal with |- context [bind ?e] => destruct e as [s'|]; [|reflexivity] end. cbn [bind].
  unfold out_result_uncondensed. cbn [quiet o_pretty o_fbas o_groupings].
  match goal with |- context [if o_pretty o then ?x else ?y] => destruct (if o_pretty o then x else y) as [v|]; [|reflexivity] end. cbn [bind quietly res_map fst snd].
  rewrite results_app, results_comment. reflexivity.
Qed.
Lemma when_quiet b (run run' : analysis -> res (list item * analysis)) : (forall a, run' a = quietly (run a)) -> forall a, when b run' a = quietly (when b run a).
Proof. intros H a. destruct b; cbn; auto. Qed.

Lemma results_only_run E files stdin args : cli_main E files stdin (with_results_only args) = res_map results (cli_main E files stdin args).
Proof.
  unfold cli_main, cli_report. change (cli_nodes_path (with_results_only args)) with (cli_nodes_path args). destruct (cli_load_fbas files stdin (cli_nodes_path args)) as [f|]; [|reflexivity]. cbn [bind].
  change (cli_groupings files (with_results_only args) f) with (cli_groupings files args f). destruct (cli_groupings files args f) as [g|]; [|reflexivity]. cbn [bind].
  destruct (analysis_new E f) as [a|]; [|reflexivity]. cbn [bind].
  change (extract_main_todos (with_results_only args)) with (extract_main_todos args). destruct (extract_main_todos args) as [[q b] s].
  unfold out_init. cbn [with_results_only cli_results_only cli_pretty cli_describe cli_dont_check cli_alternative_check].
  set (o := mk_out (cli_results_only args) (cli_pretty args) (cli_describe args) f g).
  change (mk_out true (cli_pretty args) (cli_describe args) f g) with (quiet o).
  set (l0 := if cli_results_only args then [] else _).
  assert (H0 : results l0 = []) by (unfold l0; destruct (cli_results_only args), (cli_pretty args), (cli_describe args); reflexivity).
  rewrite overview_quiet. destruct (report_overview E g o a) as [[l1 a1]|]; [|reflexivity]. cbn [bind quietly res_map fst snd].
  rewrite clusters_quiet. destruct (report_symmetric_clusters E g o a1) as [[l2 a2]|]; [|reflexivity]. cbn [bind quietly res_map fst snd].
  rewrite (when_quiet q (report_minimal_quorums E g o)) by (intro; apply report_sets_quiet).
  destruct (when q _ a2) as [[l3 a3]|]; [|reflexivity]. cbn [bind quietly res_map fst snd].
  rewrite (when_quiet _ (report_quorum_intersection E (cli_alternative_check args) o)) by (intro; apply intersection_quiet).
  destruct (when _ _ a3) as [[l4 a4]|]; [|reflexivity]. cbn [bind quietly res_map fst snd].
  rewrite (when_quiet b (report_minimal_blocking_sets E g o)) by (intro; apply report_sets_quiet).
  destruct (when b _ a4) as [[l5 a5]|]; [|reflexivity]. cbn [bind quietly res_map fst snd].
  rewrite (when_quiet s (report_minimal_splitting_sets E g o)) by (intro; apply report_sets_quiet).
  destruct (when s _ a5) as [[l6 a6]|]; [|reflexivity]. cbn [bind quietly res_map fst snd].
  rewrite (when_quiet _ (report_top_tier E g o)) by (intro; apply top_tier_quiet).
  destruct (when _ _ a6) as [[l7 a7]|]; [|reflexivity]. cbn [bind quietly res_map fst snd].
  rewrite !results_app, H0, results_newline. reflexivity.
Qed.
