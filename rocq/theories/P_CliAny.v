(** Proofs about the command line tool for any FBAS. *)
From Coq Require Import ZArith Reals Ascii.
From Verif Require Export P_Cli P_AskAny Spec_CliAny.
Local Open Scope string_scope.
Local Open Scope list_scope.
Local Open Scope nat_scope.

(** merging by group keeps properties that larger sets share *)
Lemma merge_any f G r l : groupings_new (g_groupings G) f = Ok G -> groups_of f (g_groupings G) -> disjoint_groups (g_groupings G) ->
  vr_unwrap r = Ok l -> (forall s, In s l -> in_nodes f s) ->
  exists r' lst, vr_merged_by_group r G = Ok r' /\ ascending_table (vr_minimal_sets r') /\ vr_unwrap (vr_minimal_sets r') = Ok lst /\
    (forall s, In s lst -> in_nodes f s) /\
    forall P : bset -> Prop, (forall a b, incl_set a b -> P a -> P b) ->
      ((forall S, P S \/ ~ P S) -> (forall S, In S l <-> minimal P S) -> lists (minimal (by_groups f (g_groupings G) P)) lst) /\
      ((forall S, In S l -> P S) -> forall R, In R lst -> by_groups f (g_groupings G) P R).
Proof.
  intros HG H2 H3 Hu Hr. assert (Hr' : forall s x, In s l -> mem x s = true -> x < number_of_nodes f) by (intros s x Hs; now apply Hr).
  destruct (merged_result f (g_groupings G) H2 H3 G r l HG Hu Hr') as (r' & l' & E1 & E2 & HF).
  assert (El : node_sets r' = l') by (apply vr_unwrap_inv in E2; rewrite (merged_table _ _ _ E1) in E2; auto).
  exists r', (remove_non_minimal_node_sets l'). split; auto.
  split. { unfold ascending_table, vr_minimal_sets. cbn. now rewrite (merged_table _ _ _ E1). }
  assert (Eu : vr_unwrap (vr_minimal_sets r') = Ok (remove_non_minimal_node_sets l')).
  { unfold vr_unwrap, vr_unshrink, vr_minimal_sets. cbn. rewrite (merged_table _ _ _ E1). cbn. now rewrite El. }
  split; [exact Eu|].
  assert (Hin : forall R, In R (remove_non_minimal_node_sets l') -> In R l') by (intros R HR; apply remove_non_minimal_exact in HR; apply HR).
  split.
  - intros s Hs x Hx. apply Hin in Hs. destruct (Forall2_in_r _ _ _ _ HF Hs) as (s0 & Hs0 & Himg).
    apply Himg in Hx. destruct Hx as (y & Hy & Hm). apply (represents_range f (g_groupings G) H2 x y); auto. now apply (Hr s0).
  - intros P Hm. split.
    + intros Hdec Hl. destruct (merged_result_minimal f (g_groupings G) H2 H3 P r l Hm Hdec Hu Hl Hr') as (G' & r2 & l2 & EG & E3 & E4 & Hs & Hl2).
      assert (G' = G) by congruence. subst G'. assert (r2 = r') by congruence. subst r2. assert (l2 = remove_non_minimal_node_sets l') by congruence. subst l2.
      split; auto.
    + intros Hl R HR. apply Hin in HR. destruct (Forall2_in_r _ _ _ _ HF HR) as (s & Hs & Himg).
      destruct (groupings_new_ok f (g_groupings G) H2 H3) as (G' & EG' & HGok). assert (G' = G) by congruence. subst G'.
      assert (Hmem := group_nodes_ok f (g_groupings G) G HGok H3 R). eexists. split; [exact Hmem|]. apply (Hm s); [|now apply Hl].
      intros x Hx. apply Hmem. split; [now apply (Hr s)|]. assert (Hx' : x < number_of_nodes f) by now apply (Hr s).
      destruct (merge_node_total f (g_groupings G) G HGok H3 x Hx') as (r0 & _ & Hr0). exists r0. split; auto. apply Himg. eauto.
Qed.

Section CliAny.
Context (E : ext) (HE : ext_ok E) (f : fbas) (Hwf : wf_fbas f) (g : option groupings) (Hg : usable f g) (args : cli).
Notation state := (state f).
Notation out := (out f g args).
Notation qout := (qout f g args).
Notation gs := (Spec_Cli.group_list g).
Notation determined := (determined E f g args).
(** the lines that are the same in all runs *)
Definition settled_lines (l : list item) : Prop := forall n v, In (Line n v) l -> settled args f g n -> determined n v.
Lemma settled_all l : all_determined E f g args l -> settled_lines l.
Proof. intros H n v Hn _. now apply H. Qed.
Lemma settled_app a b : settled_lines a -> settled_lines b -> settled_lines (a ++ b).
Proof. intros Ha Hb n v H. apply in_app_iff in H as [H|H]; auto. Qed.

Definition sets_call (c : call) : Prop := c = MinimalQuorums \/ c = MinimalBlockingSets \/ c = MinimalSplittingSets.
Lemma ask_any (h : Prop) a c : sets_call c -> state h a -> exists r l a', ask_sets E c a = Ok (r, a') /\ state (h /\ (c = MinimalBlockingSets -> safe f a)) a' /\
  ascending_table r /\ vr_unwrap r = Ok l /\ (forall s, In s l -> in_nodes f s) /\
  (c = MinimalBlockingSets -> forall B, In B l -> blocking f B) /\
  (h -> (c = MinimalBlockingSets -> safe f a) -> (allowed f c -> correct_answer E f c (AVec r)) /\ (c = MinimalSplittingSets -> splits_answer f (AVec r)) /\
     (safe f a -> safe f a') /\ (needs_quorums c -> safe f a')).
Proof.
  intros Hc Hs. destruct (st_perform E HE f Hwf h a c Hs) as (x & a' & Ep & Hs' & Hr & Hb & Hh); [destruct Hc as [->|[->| ->]]; discriminate|].
  assert (exists r l, x = AVec r /\ ascending_table r /\ vr_unwrap r = Ok l /\ forall s, In s l -> in_nodes f s) as (r & l & -> & Ht & Hu & Hl)
    by (destruct Hc as [->|[->| ->]]; exact Hr).
  exists r, l, a'. unfold ask_sets. rewrite Ep. cbn. split; auto. split; auto. split; auto. split; auto. split; auto. split; [|exact Hh].
  intros Hcb B HB. destruct (Hb Hcb) as (r1 & l1 & E1 & E2 & H1). injection E1 as <-. assert (l1 = l) by congruence. subst. auto.
Qed.

(** ** lists of sets *)
Lemma any_sets (h : Prop) c name before after a : sets_call c -> state h a ->
  exists a' v l lst k, report_sets E c name before after g out a = Ok ([Line name v; Duration name] ++ out_comment out [inl before; inr k; inl after], a') /\
    state (h /\ (c = MinimalBlockingSets -> safe f a)) a' /\ out_value out (plain lst) = Ok v /\ shows_sets args f gs lst v /\
    (c = MinimalBlockingSets -> forall B, In B l -> blocking f B) /\
    (h -> (c = MinimalBlockingSets -> safe f a) -> (exists r, vr_unwrap r = Ok l /\ (allowed f c -> correct_answer E f c (AVec r)) /\ (c = MinimalSplittingSets -> splits_answer f (AVec r))) /\
       (safe f a -> safe f a') /\ (needs_quorums c -> safe f a')) /\
    match g with
    | Some G => forall P : bset -> Prop, (forall a b, incl_set a b -> P a -> P b) ->
        ((forall S, P S \/ ~ P S) -> (forall S, In S l <-> minimal P S) -> lists (minimal (by_groups f (g_groupings G) P)) lst) /\
        ((forall S, In S l -> P S) -> forall R, In R lst -> by_groups f (g_groupings G) P R)
    | None => lst = l
    end.
Proof.
  intros Hc Hs. unfold report_sets. destruct (ask_any h a c Hc Hs) as (r & l & a1 & -> & Hs1 & Ht & Hu & Hr & Hb & Hh). cbn [bind].
  assert (exists r' lst, merge_if g r = Ok r' /\ ascending_table r' /\ vr_unwrap r' = Ok lst /\ in_range_sets f lst /\
    match g with
    | Some G => forall P : bset -> Prop, (forall a b, incl_set a b -> P a -> P b) ->
        ((forall S, P S \/ ~ P S) -> (forall S, In S l <-> minimal P S) -> lists (minimal (by_groups f (g_groupings G) P)) lst) /\
        ((forall S, In S l -> P S) -> forall R, In R lst -> by_groups f (g_groupings G) P R)
    | None => lst = l
    end) as (r' & lst & -> & Ht' & Hu' & Hr' & HP).
  { unfold merge_if. destruct g as [G|]; [|exists r, l; split; auto; split; auto; split; auto; split; auto; intros s x Hs2; now apply Hr].
    destruct (Hg G eq_refl) as (HG & H2 & H3). destruct (merge_any f G r l HG H2 H3 Hu Hr) as (r' & lst & -> & M1 & M2 & M3 & M4). cbn [bind].
    exists (vr_minimal_sets r'), lst. split; auto. split; auto. split; auto. split; auto. intros s x Hs2. now apply M3. }
  cbn [bind]. rewrite timed_result_value, (value_plain out r' lst Ht' Hu').
  destruct (sets_shown f g Hg args lst Hr') as (v & Ev & Hv). rewrite Ev. cbn [res_map bind].
  destruct (ask_any _ a1 c Hc Hs1) as (r2 & l2 & a2 & -> & Hs2 & _ & _ & _ & _ & Hh2). cbn [bind].
  exists a2, v, l, lst, (vr_len r2). split; auto. split; [|split; [auto|split; [auto|split; [auto|split; [|exact HP]]]]].
  - revert Hs2. apply state_weaken. intros H. split; auto. destruct H as [H1 H2]. intro Hcb. destruct (Hh H1 H2) as (_ & _ & K3 & _). auto.
  - intros H1 H2. destruct (Hh H1 H2) as (K1 & K2 & K3 & K4). destruct (Hh2 (conj H1 H2)) as (_ & _ & K5 & K6); [intro Hcb; auto|].
    split; [exists r; auto|]. split; auto.
Qed.

(** ** what comes first does not change the analysis *)
Lemma overview_unchanged o a l a' : report_overview E g o a = Ok (l, a') -> a' = a.
Proof.
  unfold report_overview, ask_set. cbn [perform bind fst snd]. intro H.
  destruct (out_result o _ _) in H; cbn [bind] in H; [|discriminate].
  match type of H with bind ?e _ = _ => destruct e end; cbn [bind] in H; [|discriminate]. congruence.
Qed.
Lemma clusters_unchanged o a l a' : report_symmetric_clusters E g o a = Ok (l, a') -> a' = a.
Proof.
  unfold report_symmetric_clusters. cbn [perform]. intro H. destruct (find_symmetric_clusters E (fbas_original a)); cbn [bind fst snd] in H; [|discriminate].
  match type of H with bind ?e _ = _ => destruct e end; cbn [bind] in H; [|discriminate].
  match type of H with bind ?e _ = _ => destruct e end; cbn [bind] in H; [|discriminate]. congruence.
Qed.

(** what a part of the run does *)
Lemma any_quorums a : state True a -> exists l a', report_minimal_quorums E g out a = Ok (l, a') /\ state True a' /\ safe f a' /\
  timed_line "minimal_quorums" (minimal_quorums_shown args f g) (results l) /\ settled_lines l.
Proof.
  intro Hs. unfold report_minimal_quorums.
  destruct (any_sets True MinimalQuorums "minimal_quorums" (line_break ++ "We found ")%string (" minimal quorums." ++ line_break)%string a (or_introl eq_refl) Hs)
    as (a' & v & l & lst & k & -> & Hs' & Ev & Hv & _ & Hh & HP).
  destruct (Hh I) as ((r & Hu & Hc & _) & _ & Hsafe); [discriminate|]. destruct (Hc I) as (r1 & l1 & E1 & E2 & Hw & Hd). injection E1 as <-. assert (l1 = l) by congruence. subst l1.
  eexists. exists a'. split; [reflexivity|]. split; [revert Hs'; apply state_weaken; intros _; split; [auto|discriminate]|]. split; [apply Hsafe; exact I|].
  assert (Hl : forall S, In S l <-> minimal (includes_quorum f) S) by (intro S; rewrite (proj2 Hw); symmetry; apply includes_quorum_minimal).
  split.
  - rewrite results_app, results_comment. cbn. exists v. split; auto. exists lst. split; auto.
    destruct g as [G|]; [|subst lst; auto]. apply (HP (includes_quorum f)); auto using includes_quorum_dec. apply includes_quorum_mono.
  - apply settled_app; [|apply settled_all, determined_comment]. intros n w [H|[H|[]]] Hset; [|discriminate]. injection H as <- <-.
    constructor. intro Hdist. exists lst. split; auto. unfold wanted. destruct g as [G|] eqn:EG.
    + apply (HP (includes_quorum f)); auto using includes_quorum_dec. apply includes_quorum_mono.
    + destruct Hdist as [Hdist|Hdist]; [congruence|]. subst lst. destruct (Hd Hdist) as [H1 H2]. split; auto.
Qed.

Lemma any_intersection a : (cli_alternative_check args = true -> has_a_quorum f) -> state True a ->
  exists l a', report_quorum_intersection E (cli_alternative_check args) out a = Ok (l, a') /\ state True a' /\ (safe f a -> safe f a') /\
    (cli_alternative_check args = false -> safe f a') /\ intersection args f g (results l) /\ settled_lines l.
Proof.
  intros Ha Hi. unfold report_quorum_intersection, intersection. assert (Hbool : forall b, out_value out (RBool b) = Ok (VBool b)).
  { intro b. unfold out_value. destruct (o_describe out), (o_pretty out); reflexivity. }
  assert (Hweak : forall c a, c <> MinimalBlockingSets -> state (True /\ (c = MinimalBlockingSets -> safe f a)) a -> state True a).
  { intros c b Hc. apply state_weaken. intros _. split; [auto|]. intro; congruence. }
  destruct (cli_alternative_check args).
  - destruct (st_perform E HE f Hwf True a AlternativeCheck Hi (fun _ => conj I (Ha eq_refl))) as (ans & a' & Ep & Hi' & _ & _ & Hh).
    destruct (Hh I) as (Hc & _ & Hsafe & _); [discriminate|]. specialize (Hc (Ha eq_refl)). clear Hh. rewrite Ep. cbn [bind fst snd].
    assert (Hi2 : state True a') by (revert Hi'; apply state_weaken; intros _; split; [auto|discriminate]).
    destruct Hc as [[-> Hqi]|(r & l & -> & Hu & Hqi & H2 & HQ & Hd)].
    + rewrite timed_result_value, Hbool. cbn [res_map bind]. eexists. exists a'. split; [reflexivity|]. split; auto. split; auto. split; [discriminate|]. split.
      * rewrite !results_app, !results_comment. cbn. left. split; auto. eexists; split; reflexivity.
      * apply settled_all. repeat apply determined_app; try apply determined_comment; try apply determined_nil. apply determined_timed. constructor. tauto.
    + rewrite timed_result_value, Hbool. cbn [res_map bind].
      rewrite out_result_value.
      assert (ascending_table r) as Ht'.
      { destruct (st_weak f True a Hi) as (K & HK). cbn [perform] in Ep. unfold alternative_check in Ep. destruct (find_nonintersecting_quorums E (fbas_shrunken a)) as [[qs|]|]; cbn [bind fst snd] in Ep; try discriminate.
        destruct (unwrap (nth_error qs 0)) as [q0|]; cbn [bind] in Ep; [|discriminate]. destruct (unwrap (nth_error qs 1)) as [q1|]; cbn [bind] in Ep; [|discriminate].
        unfold assert in Ep. destruct (disjoint q0 q1); cbn [bind fst snd] in Ep; [|discriminate]. inversion Ep; subst. unfold ascending_table. cbn.
        rewrite (w_sm f _ K HK). apply elements_sorted. }
      rewrite (value_plain out r l Ht' Hu).
      destruct (sets_shown f g Hg args l) as (v & Ev & Hv); [intros s x Hs; apply quorum_in_range; auto|]. rewrite Ev. cbn [res_map bind].
      eexists. exists a'. split; [reflexivity|]. split; auto. split; auto. split; [discriminate|]. split.
      * rewrite !results_app, !results_comment. cbn. right. split; auto. exists [Line "has_quorum_intersection" (VBool false); Duration "has_quorum_intersection"], [Line "nonintersecting_quorums" v].
        split; auto. split; [eexists; split; reflexivity|]. eexists; split; [reflexivity|]. exists l. auto.
      * apply settled_all. repeat apply determined_app; try apply determined_comment; [apply determined_timed|apply determined_line]; constructor. split; [discriminate|tauto].
  - assert (Hask : forall a, state True a -> exists b a', ask_bool E HasQuorumIntersection a = Ok (b, a') /\ state True a' /\ safe f a' /\ (b = true <-> quorum_intersection f)).
    { intros a0 H0. destruct (st_perform E HE f Hwf True a0 HasQuorumIntersection H0) as (ans & a' & Ep & Hi' & _ & _ & Hh); [discriminate|].
      destruct (Hh I) as (Hc & _ & _ & Hsafe); [discriminate|]. destruct (Hc I) as (b & -> & Hb). exists b, a'. unfold ask_bool. rewrite Ep. cbn. split; auto.
      split; [revert Hi'; apply state_weaken; intros _; split; [auto|discriminate]|]. split; [apply Hsafe; exact I|auto]. }
    destruct (Hask a Hi) as (b & a1 & -> & Hi1 & _ & Hb). cbn [bind]. rewrite timed_result_value, Hbool. cbn [res_map bind].
    destruct (Hask a1 Hi1) as (b' & a2 & -> & Hi2 & Hsafe & Hb'). cbn [bind].
    eexists. exists a2. split; [reflexivity|]. split; auto. split; auto. split; auto. split.
    + rewrite results_app, results_comment. cbn. eexists. split; [reflexivity|]. exists b. auto.
    + apply settled_all. apply determined_app; [|apply determined_comment]. apply determined_timed. now constructor.
Qed.

Lemma any_blocking a : state True a -> exists l a', report_minimal_blocking_sets E g out a = Ok (l, a') /\ state (safe f a) a' /\
  timed_line "minimal_blocking_sets" (blocking_shown args f g) (results l) /\ settled_lines l.
Proof.
  intro Hs. unfold report_minimal_blocking_sets.
  edestruct (any_sets True MinimalBlockingSets "minimal_blocking_sets") as (a' & v & l & lst & k & Er & Hs' & Ev & Hv & Hb & Hh & HP); [right; left; reflexivity|exact Hs|].
  rewrite Er. eexists. exists a'. split; [reflexivity|]. split; [revert Hs'; apply state_weaken; auto|].
  assert (Hl : has_a_quorum f -> sane_clusters f -> lists (minimal_blocking f) l).
  { intros Hq Hsane. destruct (Hh I) as ((r & Hu & Hc & _) & _); [intros _; right; auto|]. destruct (Hc Hsane) as (r1 & l1 & E1 & E2 & H1 & H2).
    injection E1 as <-. assert (l1 = l) by congruence. subst l1. split; auto. intro S. rewrite H2. unfold reported_blocking. tauto. }
  assert (Hex : has_a_quorum f -> sane_clusters f -> match g with Some G => lists (minimal (by_groups f (g_groupings G) (blocking f))) lst | None => lists (minimal (blocking f)) lst end).
  { intros Hq Hsane. destruct (Hl Hq Hsane) as [H1 H2]. destruct g as [G|]; [|subst lst; split; auto].
    apply (HP (blocking f)); auto using blocking_dec. apply blocking_mono. }
  split.
  - rewrite results_app, results_comment. cbn. exists v. split; auto. split.
    + exists lst. split; auto. destruct g as [G|]; [|subst lst; intros S HS; now apply Hb]. apply (HP (blocking f)); auto. apply blocking_mono.
    + intros Hq Hsane. exists lst. split; [auto|exact (Hex Hq Hsane)].
  - apply settled_app; [|apply settled_all, determined_comment]. intros n w [H|[H|[]]] Hset; [|discriminate]. injection H as <- <-.
    destruct Hset as (_ & _ & Hset & _). destruct (Hset eq_refl) as [Hq Hsane]. constructor. exists lst. split; auto. unfold wanted.
    specialize (Hex Hq Hsane). destruct g; auto.
Qed.

Lemma any_splitting (h : Prop) a : (sane_clusters f -> h) -> (orderly args f -> h) -> state h a -> exists l a', report_minimal_splitting_sets E g out a = Ok (l, a') /\ state h a' /\
  timed_line "minimal_splitting_sets" (splitting_shown args f g) (results l) /\ settled_lines l.
Proof.
  intros Hsh Hoh Hs. unfold report_minimal_splitting_sets.
  edestruct (any_sets h MinimalSplittingSets "minimal_splitting_sets") as (a' & v & l & lst & k & Er & Hs' & Ev & Hv & _ & Hh & HP); [right; right; reflexivity|exact Hs|].
  rewrite Er. eexists. exists a'. split; [reflexivity|]. split; [revert Hs'; apply state_weaken; intros H; split; [auto|discriminate]|].
  assert (Hl : h -> has_a_quorum f -> splittable_clusters f -> lists (minimal_splitting f) l).
  { intros H0 Hq Hsp. destruct (Hh H0) as ((r & Hu & Hc & _) & _); [discriminate|]. destruct (Hc Hsp) as (r1 & l1 & E1 & E2 & H1 & H2).
    injection E1 as <-. assert (l1 = l) by congruence. subst l1. split; auto. intro S. rewrite H2. unfold reported_splitting. tauto. }
  assert (Hsound : has_a_quorum f -> sane_clusters f -> forall S, In S l -> splitting f S).
  { intros Hq Hsane. destruct (Hh (Hsh Hsane)) as ((r & Hu & _ & Hsp) & _); [discriminate|]. destruct (Hsp eq_refl Hsane Hq) as (r1 & l1 & E1 & E2 & H1).
    injection E1 as <-. assert (l1 = l) by congruence. subst l1. auto. }
  assert (Hex : h -> has_a_quorum f -> splittable_clusters f -> match g with Some G => lists (minimal (by_groups f (g_groupings G) (splitting f))) lst | None => lists (minimal (splitting f)) lst end).
  { intros H0 Hq Hsp. destruct (Hl H0 Hq Hsp) as [H1 H2]. destruct g as [G|]; [|subst lst; split; auto].
    apply (HP (splitting f)); auto; [apply splitting_mono|]. intro S. now apply splitting_dec. }
  split.
  - rewrite results_app, results_comment. cbn. exists v. split; auto. split; [|split].
    + exists lst. split; auto. intros S HS. destruct g as [G|]; auto. apply (HP (fun _ => True)); auto.
    + intros Hq Hsane. exists lst. split; auto. destruct g as [G|]; [|subst lst; intros S HS; now apply Hsound]. apply (HP (splitting f)); auto. apply splitting_mono.
    + intros Ho Hq Hsp. exists lst. split; [auto|exact (Hex (Hoh Ho) Hq Hsp)].
  - apply settled_app; [|apply settled_all, determined_comment]. intros n w [H|[H|[]]] Hset; [|discriminate]. injection H as <- <-.
    destruct Hset as (_ & _ & _ & Hset & _). destruct (Hset eq_refl) as (Hq & Hsp & Ho). constructor. exists lst. split; auto. unfold wanted.
    specialize (Hex (Hoh Ho) Hq Hsp). destruct g; auto.
Qed.

Lemma any_top_tier (h : Prop) a : (orderly args f -> h) -> state h a -> exists l a', report_top_tier E g out a = Ok (l, a') /\
  line "top_tier" (any_top_tier_shown args f g) (results l) /\ settled_lines l.
Proof.
  intros Hoh Hi. unfold report_top_tier. destruct (st_perform E HE f Hwf h a TopTier Hi) as (ans & a' & Ep & _ & (T & -> & Hr) & _ & Hh); [discriminate|].
  unfold ask_set. rewrite Ep. cbn [bind fst snd].
  assert (exists R, match g with Some orgs => sr_merged_by_group T orgs | None => Ok T end = Ok R /\ (forall x, mem x R = true -> x < number_of_nodes f) /\
    match g with Some G => group_image (g_groupings G) T R | None => R = T end) as (R & -> & HRr & HR).
  { destruct g as [G|] eqn:EG; [|exists T; auto]. destruct (Hg G eq_refl) as (HG & H2 & H3). destruct (groupings_new_ok f (g_groupings G) H2 H3) as (G' & EG' & HGok).
    assert (G' = G) by congruence. subst G'. destruct (merge_node_set_spec f (g_groupings G) G HGok H3 T Hr) as (R & ER & HR).
    exists R. unfold sr_merged_by_group. split; auto. split; auto. intros x Hx. apply HR in Hx as (y & Hy & Hm). apply (represents_range f (g_groupings G) H2 x y); auto. }
  cbn [bind]. destruct (set_shown f g Hg args R HRr) as (v & Ev & Hv). rewrite Ev. cbn [bind]. eexists. exists a'. split; [reflexivity|].
  assert (HT : orderly args f -> forall x, mem x T = true <-> in_top_tier f x).
  { intro Ho. destruct (Hh (Hoh Ho)) as (Hc & _); [discriminate|]. destruct (Hc I) as (T' & ET & HT). injection ET as <-. auto. }
  split.
  - rewrite results_app, results_comment. cbn. exists v. split; auto. split; [exists R; auto|]. intro Ho. exists T, R. auto.
  - apply settled_app; [|apply settled_all, determined_comment]. intros n w [H|[]] Hset. injection H as <- <-.
    destruct Hset as (_ & _ & _ & _ & Hset). eapply d_top_tier; eauto.
Qed.

Lemma any_run files stdin : cli_load_fbas files stdin (cli_nodes_path args) = Ok f -> cli_groupings files args f = Ok g ->
  (uses_alternative args -> has_a_quorum f) ->
  exists items, cli_main E files stdin args = Ok items /\ any_report args f g (results items) /\ settled_lines items.
Proof.
  intros Lf Lg Ha. unfold cli_main, cli_report. rewrite Lf. cbn [bind]. rewrite Lg. cbn [bind].
  destruct (state_new E HE f Hwf) as (a0 & Ea & Hs0). rewrite Ea. cbn [bind].
  assert (Hinv : exists K, inv f a0 K) by (destruct (inv_new E HE f Hwf) as (a1 & Ea1 & H1); assert (a1 = a0) by congruence; subst; eauto).
  destruct Hinv as (K0 & Hi0).
  assert (Hq : fst (fst (extract_main_todos args)) = true <-> wants_quorums args).
  { unfold extract_main_todos, wants_quorums. destruct (cli_all args); cbn; split; auto; try tauto. intros [H|H]; [discriminate|auto]. }
  assert (Hqb : snd (fst (extract_main_todos args)) = true <-> wants_blocking args).
  { unfold extract_main_todos, wants_blocking. destruct (cli_all args); cbn; split; auto; try tauto. intros [H|H]; [discriminate|auto]. }
  assert (Hqs : snd (extract_main_todos args) = true <-> wants_splitting args).
  { unfold extract_main_todos, wants_splitting. destruct (cli_all args); cbn; split; auto; try tauto. intros [H|H]; [discriminate|auto]. }
  destruct (extract_main_todos args) as [[q b] s]. cbn [fst snd] in *. unfold out_init. change (mk_out _ _ _ _ _) with out.
  set (l0 := if cli_results_only args then [] else _).
  assert (H0 : results l0 = [] /\ all_determined E f g args l0).
  { unfold l0. destruct (cli_results_only args), (cli_pretty args), (cli_describe args); (split; [reflexivity|]); intros n v H; cbn in H;
      repeat (destruct H as [H|H]; try discriminate); contradiction. }
  destruct H0 as [H0 D0].
  destruct (overview_part E HE f Hwf g Hg args a0 _ Hi0) as (l1 & a1 & K1 & E1 & Hi1 & P1 & D1). rewrite E1. cbn [bind]. apply overview_unchanged in E1. subst a1.
  destruct (clusters_part E HE f Hwf g Hg args a0 _ Hi1) as (l2 & a2 & K2 & E2 & Hi2 & P2 & D2). rewrite E2. cbn [bind]. apply clusters_unchanged in E2. subst a2.
  assert (exists l3 a3, when q (report_minimal_quorums E g out) a0 = Ok (l3, a3) /\ state True a3 /\ (wants_quorums args -> safe f a3) /\
    only_if (wants_quorums args) (timed_line "minimal_quorums" (minimal_quorums_shown args f g)) (results l3) /\ settled_lines l3) as (l3 & a3 & -> & Hs3 & S3 & P3 & D3).
  { unfold when. destruct q.
    - destruct (any_quorums a0 Hs0) as (l & a & -> & H1 & H2 & H3 & H4). exists l, a. split; auto. split; auto. split; auto. split; auto. left. tauto.
    - assert (~ wants_quorums args) by (intro H; apply Hq in H; discriminate). exists [], a0. split; auto. split; auto. split; [tauto|]. split; [right; auto|intros n v []]. }
  cbn [bind].
  assert (exists l4 a4, when (negb (cli_dont_check args)) (report_quorum_intersection E (cli_alternative_check args) out) a3 = Ok (l4, a4) /\ state True a4 /\
    (wants_quorums args \/ (wants_check args /\ cli_alternative_check args = false) -> safe f a4) /\
    only_if (wants_check args) (intersection args f g) (results l4) /\ settled_lines l4) as (l4 & a4 & -> & Hs4 & S4 & P4 & D4).
  { unfold when, wants_check. destruct (cli_dont_check args) eqn:Ed; cbn [negb].
    - exists [], a3. split; auto. split; auto. split; [intros [H|[H _]]; [auto|discriminate]|]. split; [right; split; [discriminate|auto]|intros n v []].
    - destruct (any_intersection a3) as (l & a & -> & H1 & H2 & H3 & H4 & H5); [intro H; apply Ha; split; auto|auto|].
      exists l, a. split; auto. split; auto. split; [intros [H|[_ H]]; auto|]. split; auto. left; auto. }
  cbn [bind].
  assert (exists l5 a5, when b (report_minimal_blocking_sets E g out) a4 = Ok (l5, a5) /\ state (wants_blocking args -> safe f a4) a5 /\
    only_if (wants_blocking args) (timed_line "minimal_blocking_sets" (blocking_shown args f g)) (results l5) /\ settled_lines l5) as (l5 & a5 & -> & Hs5 & P5 & D5).
  { unfold when. destruct b.
    - destruct (any_blocking a4 Hs4) as (l & a & -> & H1 & H2 & H3). exists l, a. split; auto. split; [revert H1; apply state_weaken; intro H; apply H; tauto|].
      split; auto. left. tauto.
    - assert (~ wants_blocking args) by (intro H; apply Hqb in H; discriminate). exists [], a4. split; auto.
      split; [revert Hs4; apply state_weaken; auto|]. split; [right; auto|intros n v []]. }
  cbn [bind].
  assert (Hsh : sane_clusters f -> wants_blocking args -> safe f a4) by (intros H _; right; auto).
  assert (Hoh : orderly args f -> wants_blocking args -> safe f a4).
  { intros Ho Hw. destruct (Ho Hw) as [H|[H|H]]; auto. }
  assert (exists l6 a6, when s (report_minimal_splitting_sets E g out) a5 = Ok (l6, a6) /\ state (wants_blocking args -> safe f a4) a6 /\
    only_if (wants_splitting args) (timed_line "minimal_splitting_sets" (splitting_shown args f g)) (results l6) /\ settled_lines l6) as (l6 & a6 & -> & Hs6 & P6 & D6).
  { unfold when. destruct s.
    - destruct (any_splitting _ a5 Hsh Hoh Hs5) as (l & a & -> & H1 & H2 & H3). exists l, a. split; auto. split; auto. split; auto. left. tauto.
    - assert (~ wants_splitting args) by (intro H; apply Hqs in H; discriminate). exists [], a5. split; auto. split; auto. split; [right; auto|intros n v []]. }
  cbn [bind].
  assert (Ht : q || b || s = true <-> wants_quorums args \/ wants_blocking args \/ wants_splitting args) by (rewrite !orb_true_iff; tauto).
  assert (exists l7 a7, when (q || b || s) (report_top_tier E g out) a6 = Ok (l7, a7) /\
    only_if (wants_quorums args \/ wants_blocking args \/ wants_splitting args) (line "top_tier" (any_top_tier_shown args f g)) (results l7) /\ settled_lines l7) as (l7 & a7 & -> & P7 & D7).
  { unfold when. destruct (q || b || s).
    - destruct (any_top_tier _ a6 Hoh Hs6) as (l & a & -> & H1 & H2). exists l, a. split; auto. split; auto. left. tauto.
    - exists [], a6. split; auto. split; [|intros n v []]. right. split; auto. intro H. apply Ht in H. discriminate. }
  cbn [bind]. eexists. split; [reflexivity|]. split.
  - rewrite !results_app, H0, results_newline. cbn [app]. unfold any_report.
    exists (results l1). eexists. split; [reflexivity|]. split; auto. exists (results l2). eexists. split; [reflexivity|]. split; auto.
    exists (results l3). eexists. split; [reflexivity|]. split; auto. exists (results l4). eexists. split; [reflexivity|]. split; auto.
    exists (results l5). eexists. split; [reflexivity|]. split; auto. exists (results l6). eexists. split; [reflexivity|]. split; auto.
  - repeat apply settled_app; auto using settled_all; apply settled_all; apply determined_comment.
Qed.
End CliAny.
