(** The numbers in the comments of the command line tool, for all runs. *)
From Verif Require Import Spec_CliCount P_Sets P_List P_Misc P_ListOrder P_Repeat.
Local Open Scope string_scope.
Local Open Scope list_scope.
Local Open Scope nat_scope.

Lemma res_map_inv {A B} (f : A -> B) r y : res_map f r = Ok y -> exists x, r = Ok x /\ y = f x.
Proof. destruct r; cbn; intro H; [|discriminate]. injection H as <-. eauto. Qed.
Lemma bind_inv {A B} (r : res A) (f : A -> res B) y : bind r f = Ok y -> exists x, r = Ok x /\ f x = Ok y.
Proof. destruct r; cbn; intro H; [|discriminate]. eauto. Qed.
Ltac inv H := let x := fresh "x" in let Hx := fresh "Hx" in apply bind_inv in H; destruct H as [x [Hx H]].
Lemma mapM_len {A B} (f : A -> res B) l r : mapM f l = Ok r -> List.length r = List.length l.
Proof.
  revert r. induction l as [|x l IH]; cbn; intros r H; [injection H as <-; auto|]. inv H. inv H. injection H as <-. cbn. f_equal. auto.
Qed.
Lemma minimal_fewer l : List.length (remove_non_minimal_node_sets l) <= List.length l.
Proof.
  apply NoDup_incl_length; [apply sorted_before_nodup, remove_non_minimal_before|]. intros s Hs. apply remove_non_minimal_exact in Hs. apply Hs.
Qed.
Lemma unshrink_len r r' : vr_unshrink r = Ok r' -> List.length (node_sets r') = List.length (node_sets r).
Proof.
  unfold vr_unshrink. destruct (vr_unshrink_table r); intro H; [|injection H as <-; auto]. inv H. injection H as <-. cbn. eapply mapM_len, Hx.
Qed.
Lemma merge_len g r r' : merge_if g r = Ok r' -> vr_len r' <= vr_len r /\ (g = None -> r' = r).
Proof.
  unfold merge_if, vr_len. destruct g as [orgs|]; intro H; [|injection H as <-; auto]. inv H. injection H as <-. split; [|discriminate].
  unfold vr_merged_by_group in Hx. inv Hx. inv Hx. injection Hx as <-. apply mapM_len in Hx1. apply unshrink_len in Hx0. cbn [vr_minimal_sets node_sets].
  pose proof (minimal_fewer x1). lia.
Qed.
Lemma shown_sets o name r l : out_timed_result o name (RSets r) = Ok l -> exists v, l = [Line name v; Duration name] /\ shown_number v = vr_len r.
Proof.
  unfold out_timed_result, out_result. intro H. inv H. injection H as <-. destruct (o_describe o).
  - inv Hx. injection Hx as <-. unfold into_describe in Hx0. apply res_map_inv in Hx0. destruct Hx0 as [[[[n d] mm] h] [Hd ->]].
    unfold vr_describe in Hd. inv Hd. injection Hd as <- <- <- <-. eexists. split; reflexivity.
  - unfold out_result_uncondensed in Hx. inv Hx. injection Hx as <-. exists x0. split; [reflexivity|]. unfold vr_len. destruct (o_pretty o).
    + unfold into_pretty in Hx0. apply res_map_inv in Hx0. destruct Hx0 as [ll [Hl ->]]. eapply mapM_len. exact Hl.
    + unfold into_id in Hx0. apply res_map_inv in Hx0. destruct Hx0 as [ll [Hl ->]]. unfold vr_into_vec_vec in Hl. apply res_map_inv in Hl. destruct Hl as [r' [Hr ->]].
      cbn. rewrite map_length. apply unshrink_len, Hr.
Qed.
Lemma shown_nodes o name s l : out_result_uncondensed o name (RSet s) = Ok l -> exists v, l = [Line name v] /\ shown_number v = len s.
Proof.
  unfold out_result_uncondensed. intro H. inv H. injection H as <-. exists x. split; [reflexivity|]. rewrite len_elements. destruct (o_pretty o).
  - unfold into_pretty in Hx. apply res_map_inv in Hx. destruct Hx as [ll [Hl ->]]. cbn. unfold sr_into_pretty_vec, to_names in Hl. destruct (o_groupings o); eapply mapM_len, Hl.
  - unfold into_id in Hx. injection Hx as <-. reflexivity.
Qed.
Lemma ask_again E c a r a' : ask_sets E c a = Ok (r, a') -> ask_sets E c a' = Ok (r, a').
Proof.
  unfold ask_sets. intro H. inv H. destruct x as [x b]. cbn [fst snd] in H. destruct x; try discriminate. injection H as <- <-.
  rewrite (perform_again _ _ _ _ _ Hx). reflexivity.
Qed.
Lemma ask_bool_again E c a r a' : ask_bool E c a = Ok (r, a') -> ask_bool E c a' = Ok (r, a').
Proof.
  unfold ask_bool. intro H. inv H. destruct x as [x b]. cbn [fst snd] in H. destruct x; try discriminate. injection H as <- <-.
  rewrite (perform_again _ _ _ _ _ Hx). reflexivity.
Qed.
Lemma report_sets_inv E c name before after g o a l a' : report_sets E c name before after g o a = Ok (l, a') ->
  exists v n, l = [Line name v; Duration name] ++ out_comment o [inl before; inr n; inl after] /\ shown_number v <= n /\ (g = None -> n = shown_number v).
Proof.
  unfold report_sets. intro H. inv H. destruct x as [r a1]. inv H. inv H. inv H. destruct x1 as [r' a2]. injection H as <- <-.
  rewrite (ask_again _ _ _ _ _ Hx) in Hx2. injection Hx2 as <- <-. apply merge_len in Hx0. destruct Hx0 as [Hle He]. apply shown_sets in Hx1. destruct Hx1 as [v [-> Hv]].
  exists v, (vr_len r). split; [reflexivity|]. split; [lia|]. intro Hg. rewrite Hv, He; auto.
Qed.
Lemma report_top_tier_inv E g o a l a' : report_top_tier E g o a = Ok (l, a') ->
  exists v, l = [Line "top_tier" v] ++ out_comment o [inl (line_break ++ "There is a total of ")%string; inr (shown_number v);
    inl (" distinct nodes involved in all of these sets (this is the ""top tier"")." ++ line_break)%string].
Proof.
  unfold report_top_tier. intro H. inv H. destruct x as [s a1]. inv H. inv H. injection H as <- <-. apply shown_nodes in Hx1. destruct Hx1 as [v [-> Hv]].
  exists v. rewrite Hv. reflexivity.
Qed.
Lemma plain_result o name r l : (forall s, r <> RSets s) -> (forall s, r <> RSet s) -> (forall s, r <> RQsets s) -> out_result o name r = Ok l -> exists v, l = [Line name v] /\ into_id r = Ok v.
Proof.
  intros H1 H2 H3. unfold out_result, out_result_uncondensed, into_pretty, into_describe.
  destruct r; try (exfalso; eapply H1 + eapply H2 + eapply H3; reflexivity); destruct (o_describe o), (o_pretty o); cbn; intro H; injection H as <-; eauto.
Qed.
Lemma report_intersection_inv E alt o a l a' : report_quorum_intersection E alt o a = Ok (l, a') ->
  exists b first rest, l = first ++ [Line "has_quorum_intersection" (VBool b); Duration "has_quorum_intersection"] ++ rest ++ out_comment o [inl (verdict b)] /\
    (forall n v, ~ In (Line n v) first) /\ ((alt = false \/ b = true) /\ rest = [] \/ (alt = true /\ b = false /\ exists v, rest = [Line "nonintersecting_quorums" v])).
Proof.
  unfold report_quorum_intersection. intro H. inv H. destruct x as [[b l1] a1]. injection H as <- <-. destruct alt.
  - inv Hx. destruct x as [x a2]. cbn [fst snd] in Hx. destruct x; try discriminate. inv Hx. inv Hx. injection Hx as <- <- <-.
    unfold out_timed_result in Hx1. inv Hx1. injection Hx1 as <-. apply plain_result in Hx; try discriminate. destruct Hx as [w [-> Hw]]. injection Hw as <-.
    exists b0, (out_comment o [text "Alternative quorum intersection check..."]), x0. split; [rewrite <- !app_assoc; reflexivity|].
    split; [intros n v; unfold out_comment; destruct (o_results_only o); cbn; [auto|intros [?|[]]; discriminate]|].
    unfold perform in Hx0. apply bind_inv in Hx0. destruct Hx0 as [[b' qs'] [Ha Hx0]]. cbn [fst snd] in Hx0. injection Hx0 as -> -> ->.
    unfold alternative_check in Ha. apply bind_inv in Ha. destruct Ha as [[quorums|] [_ Ha]].
    + apply bind_inv in Ha. destruct Ha as [q0 [_ Ha]]. apply bind_inv in Ha. destruct Ha as [q1 [_ Ha]]. unfold assert in Ha. destruct (disjoint q0 q1); [|discriminate].
      injection Ha as <- <-. right. split; [reflexivity|]. split; [reflexivity|].
      unfold out_result in Hx2. destruct (o_describe o).
      * inv Hx2. injection Hx2 as <-. eauto.
      * unfold out_result_uncondensed in Hx2. inv Hx2. injection Hx2 as <-. eauto.
    + injection Ha as <- <-. left. split; [auto|]. injection Hx2 as <-. reflexivity.
  - apply bind_inv in Hx. destruct Hx as [[b' a2] [H1 Hx]]. apply bind_inv in Hx. destruct Hx as [l2 [H2 Hx]]. apply bind_inv in Hx. destruct Hx as [[b2 a3] [H3 Hx]].
    rewrite (ask_bool_again _ _ _ _ _ H1) in H3. injection H3 as <- <-. injection Hx as <- <- <-.
    unfold out_timed_result in H2. apply bind_inv in H2. destruct H2 as [l3 [H3 H2]]. injection H2 as <-. apply plain_result in H3; try discriminate. destruct H3 as [w [-> Hw]]. injection Hw as <-.
    exists b', [], []. split; [reflexivity|]. split; [intros n v []|]. left. auto.
Qed.

(** what kind of lines a part of the report has *)
Definition named (names : list string) (l : list item) : Prop := forall n v, In (Line n v) l -> In n names.
Lemma named_app names l l' : named names l -> named names l' -> named names (l ++ l').
Proof. intros H H' n v Hi. apply in_app_iff in Hi. destruct Hi; eauto. Qed.
Lemma named_comment names o t : named names (out_comment o t).
Proof. intros n v. unfold out_comment. destruct (o_results_only o); cbn; [tauto|]. intros [H|[]]. discriminate. Qed.
Lemma named_result o name r l : out_result o name r = Ok l -> named [name] l.
Proof.
  unfold out_result, out_result_uncondensed. intros H n v. destruct (o_describe o); inv H; injection H as <-; cbn; intros [Hi|[]]; injection Hi as <- <-; auto.
Qed.
Lemma overview_named E g o a l a' : report_overview E g o a = Ok (l, a') -> named ["nodes_total"; "nodes_total_merged"] l.
Proof.
  unfold report_overview. intro H. apply bind_inv in H. destruct H as [[s a1] [_ H]]. apply bind_inv in H. destruct H as [l1 [H1 H]].
  apply bind_inv in H. destruct H as [l2 [H2 H]]. injection H as <- <-. apply named_app.
  - intros n v Hi. apply named_result in H1. apply H1 in Hi. destruct Hi as [<-|[]]. cbn. auto.
  - destruct g as [orgs|]; [|injection H2 as <-; intros n v []]. apply bind_inv in H2. destruct H2 as [s' [_ H2]]. apply bind_inv in H2. destruct H2 as [l3 [H3 H2]].
    injection H2 as <-. apply named_app; [|apply named_comment]. intros n v Hi. apply named_result in H3. apply H3 in Hi. destruct Hi as [<-|[]]. cbn. auto.
Qed.
Lemma clusters_named E g o a l a' : report_symmetric_clusters E g o a = Ok (l, a') -> named ["symmetric_clusters"] l.
Proof.
  unfold report_symmetric_clusters. intro H. apply bind_inv in H. destruct H as [[x a1] [_ H]]. cbn [fst snd] in H. destruct x; try discriminate.
  apply bind_inv in H. destruct H as [cl [_ H]]. apply bind_inv in H. destruct H as [l1 [H1 H]]. injection H as <- <-. unfold out_timed_result in H1.
  apply bind_inv in H1. destruct H1 as [l2 [H2 H1]]. injection H1 as <-. apply named_app; [|apply named_comment]. apply named_app; [eapply named_result, H2|].
  intros n v [Hi|[]]. discriminate.
Qed.
Lemma init_named args f g o l : out_init args f g = (o, l) -> named [] l /\ o_results_only o = cli_results_only args.
Proof.
  unfold out_init. intro H. injection H as <- <-. split; [|reflexivity]. intros n v. destruct (cli_results_only args), (cli_pretty args), (cli_describe args); cbn; intuition discriminate.
Qed.
Lemma when_inv b r a l a' : when b r a = Ok (l, a') -> l = [] /\ a' = a /\ b = false \/ r a = Ok (l, a').
Proof. unfold when. destruct b; auto. intro H. injection H as <- <-. auto. Qed.

(** the parts of the report *)
Definition set_part (o : output) (g : option groupings) (name : string) (l : list item) : Prop :=
  l = [] \/ exists v n text, l = [Line name v; Duration name] ++ out_comment o [inl (line_break ++ "We found ")%string; inr n; inl (text ++ line_break)%string] /\
    announced name text /\ shown_number v <= n /\ (g = None -> n = shown_number v).
Lemma set_part_of E c name text b g o a l a' : announced name text ->
  when b (report_sets E c name (line_break ++ "We found ") (text ++ line_break) g o) a = Ok (l, a') -> set_part o g name l.
Proof.
  intros Ht H. apply when_inv in H. destruct H as [[-> _]|H]; [left; auto|]. right. apply report_sets_inv in H. destruct H as (v & n & -> & H). exists v, n, text. auto.
Qed.
Lemma run_parts E files stdin args items : cli_main E files stdin args = Ok items ->
  exists o f g l0 l1 l2 l3 l4 l5 l6 l7, cli_groupings files args f = Ok g /\ o_results_only o = cli_results_only args /\
    items = (l0 ++ l1 ++ out_comment_newline o ++ l2) ++ l3 ++ l4 ++ l5 ++ l6 ++ l7 /\
    named ["nodes_total"; "nodes_total_merged"; "symmetric_clusters"] (l0 ++ l1 ++ out_comment_newline o ++ l2) /\
    set_part o g "minimal_quorums" l3 /\ set_part o g "minimal_blocking_sets" l5 /\ set_part o g "minimal_splitting_sets" l6 /\
    (l4 = [] \/ exists b first rest, l4 = first ++ [Line "has_quorum_intersection" (VBool b); Duration "has_quorum_intersection"] ++ rest ++ out_comment o [inl (verdict b)] /\
       (forall n v, ~ In (Line n v) first) /\
       ((cli_alternative_check args = false \/ b = true) /\ rest = [] \/ (cli_alternative_check args = true /\ b = false /\ exists v, rest = [Line "nonintersecting_quorums" v]))) /\
    (l7 = [] \/ exists v, l7 = [Line "top_tier" v] ++ out_comment o [inl (line_break ++ "There is a total of ")%string; inr (shown_number v);
       inl (" distinct nodes involved in all of these sets (this is the ""top tier"")." ++ line_break)%string]).
Proof.
  unfold cli_main, cli_report. intro H. apply bind_inv in H. destruct H as [f [_ H]]. apply bind_inv in H. destruct H as [g [Hg H]]. apply bind_inv in H. destruct H as [a [_ H]].
  destruct (extract_main_todos args) as [[q b] s]. destruct (out_init args f g) as [o l0] eqn:Ei. apply init_named in Ei. destruct Ei as [N0 Ho].
  apply bind_inv in H. destruct H as [[l1 a1] [H1 H]]. apply bind_inv in H. destruct H as [[l2 a2] [H2 H]]. apply bind_inv in H. destruct H as [[l3 a3] [H3 H]].
  apply bind_inv in H. destruct H as [[l4 a4] [H4 H]]. apply bind_inv in H. destruct H as [[l5 a5] [H5 H]]. apply bind_inv in H. destruct H as [[l6 a6] [H6 H]].
  apply bind_inv in H. destruct H as [[l7 a7] [H7 H]]. injection H as <-.
  exists o, f, g, l0, l1, l2, l3, l4, l5, l6, l7. split; [auto|]. split; [auto|]. split; [now rewrite <- !app_assoc|]. split.
  { apply overview_named in H1. apply clusters_named in H2. repeat apply named_app.
    - intros n v Hi. destruct (N0 n v Hi).
    - intros n v Hi. apply H1 in Hi. cbn in *. tauto.
    - apply named_comment.
    - intros n v Hi. apply H2 in Hi. cbn in *. tauto. }
  split; [eapply set_part_of, H3; constructor|]. split; [eapply set_part_of; [apply announced_blocking|exact H5]|]. split; [eapply set_part_of; [apply announced_splitting|exact H6]|]. split.
  - apply when_inv in H4. destruct H4 as [[-> _]|H4]; [left; auto|right]. apply report_intersection_inv in H4. exact H4.
  - apply when_inv in H7. destruct H7 as [[-> _]|H7]; [left; auto|right]. apply report_top_tier_inv in H7. exact H7.
Qed.
Lemma comment_line (o : output) t n v : ~ In (Line n v) (out_comment o t).
Proof. intro H. apply (named_comment [] o t) in H. destruct H. Qed.
Lemma set_part_line o g name l n v : set_part o g name l -> In (Line n v) l -> n = name /\
  exists k text, l = [Line name v; Duration name] ++ out_comment o [inl (line_break ++ "We found ")%string; inr k; inl (text ++ line_break)%string] /\
    announced name text /\ shown_number v <= k /\ (g = None -> k = shown_number v).
Proof.
  intros [->|(v' & k & text & -> & H)] Hi; [destruct Hi|]. cbn [app In] in Hi. destruct Hi as [Hi|[Hi|Hi]]; [|discriminate|apply comment_line in Hi; destruct Hi].
  injection Hi as <- <-. split; [auto|]. exists k, text. auto.
Qed.
Lemma no_merging files args f g : ~ merges args -> cli_groupings files args f = Ok g -> g = None.
Proof.
  unfold merges, cli_groupings, extract_groupings_todos. intros Hm. destruct (cli_ctry_merge args); [exfalso; auto|]. destruct (cli_isp_merge args); [exfalso; auto|].
  destruct (cli_organizations_path args); [exfalso; apply Hm; right; right; discriminate|]. intro H. injection H as <-. auto.
Qed.
(** all lines of the report *)
Lemma line_in o alt l4 b first rest n v :
  l4 = first ++ [Line "has_quorum_intersection" (VBool b); Duration "has_quorum_intersection"] ++ rest ++ out_comment o [inl (verdict b)] ->
  (forall n v, ~ In (Line n v) first) ->
  ((alt = false \/ b = true) /\ rest = [] \/ (alt = true /\ b = false /\ exists v, rest = [Line "nonintersecting_quorums" v])) ->
  In (Line n v) l4 -> n = "has_quorum_intersection" /\ v = VBool b \/ n = "nonintersecting_quorums".
Proof.
  intros -> Hf Hr H. apply in_app_iff in H. destruct H as [H|H]; [destruct (Hf _ _ H)|]. cbn [app In] in H. destruct H as [H|[H|H]]; [injection H as <- <-; auto|discriminate|].
  apply in_app_iff in H. destruct H as [H|H]; [|apply comment_line in H; destruct H].
  destruct Hr as [[_ ->]|(_ & _ & w & ->)]; [destruct H|]. destruct H as [H|[]]. injection H as <- <-. auto.
Qed.
Lemma numbers E files stdin args items name text v : cli_main E files stdin args = Ok items -> cli_results_only args = false -> announced name text -> In (Line name v) items ->
  exists pre post n, items = pre ++ [Line name v; Duration name; Message [inl (line_break ++ "We found ")%string; inr n; inl (text ++ line_break)%string]] ++ post /\
    shown_number v <= n /\ (~ merges args -> n = shown_number v).
Proof.
  intros H Ho Ha Hi. apply run_parts in H. destruct H as (o & f & g & l0 & l1 & l2 & l3 & l4 & l5 & l6 & l7 & Hg & Ho' & -> & N & P3 & P5 & P6 & P4 & P7).
  set (before := l0 ++ l1 ++ out_comment_newline o ++ l2) in *.
  assert (Hfin : forall pre post l n', set_part o g n' l -> In (Line name v) l -> exists pre' post' n,
    pre ++ l ++ post = pre' ++ [Line name v; Duration name; Message [inl (line_break ++ "We found ")%string; inr n; inl (text ++ line_break)%string]] ++ post' /\
    shown_number v <= n /\ (~ merges args -> n = shown_number v)).
  { intros pre post l n' Hp Hl. destruct (set_part_line _ _ _ _ _ _ Hp Hl) as (<- & k & text' & -> & Ha' & Hle & He). exists pre, post, k.
    assert (text' = text) as -> by (destruct Ha; inversion Ha'; reflexivity). split; [|split; [auto|]].
    - unfold out_comment. rewrite Ho', Ho. cbn [app]. reflexivity.
    - intro Hm. apply He. eapply no_merging; eauto. }
  apply in_app_iff in Hi. destruct Hi as [Hi|Hi].
  { apply N in Hi. cbn in Hi. destruct Ha; repeat (destruct Hi as [Hi|Hi]; [discriminate|]); destruct Hi. }
  apply in_app_iff in Hi. destruct Hi as [Hi|Hi]; [eapply Hfin; eauto|].
  apply in_app_iff in Hi. destruct Hi as [Hi|Hi].
  { destruct P4 as [->|(b & first & rest & E4 & Hf & Hr)]; [destruct Hi|]. destruct (line_in _ _ _ _ _ _ _ _ E4 Hf Hr Hi) as [[-> _]| ->]; inversion Ha. }
  apply in_app_iff in Hi. destruct Hi as [Hi|Hi].
  { specialize (Hfin (before ++ l3 ++ l4) (l6 ++ l7) l5 _ P5 Hi). rewrite <- !app_assoc in Hfin. exact Hfin. }
  apply in_app_iff in Hi. destruct Hi as [Hi|Hi].
  { specialize (Hfin (before ++ l3 ++ l4 ++ l5) l7 l6 _ P6 Hi). rewrite <- !app_assoc in Hfin. exact Hfin. }
  destruct P7 as [->|[w ->]]; [destruct Hi|]. destruct Hi as [Hi|Hi]; [injection Hi as <- <-; inversion Ha|]. apply comment_line in Hi. destruct Hi.
Qed.
Lemma top_tier_number E files stdin args items v : cli_main E files stdin args = Ok items -> cli_results_only args = false -> In (Line "top_tier" v) items ->
  exists pre, items = pre ++ [Line "top_tier" v; Message [inl (line_break ++ "There is a total of ")%string; inr (shown_number v);
       inl (" distinct nodes involved in all of these sets (this is the ""top tier"")." ++ line_break)%string]].
Proof.
  intros H Ho Hi. apply run_parts in H. destruct H as (o & f & g & l0 & l1 & l2 & l3 & l4 & l5 & l6 & l7 & Hg & Ho' & -> & N & P3 & P5 & P6 & P4 & P7).
  set (before := l0 ++ l1 ++ out_comment_newline o ++ l2) in *.
  apply in_app_iff in Hi. destruct Hi as [Hi|Hi].
  { apply N in Hi. cbn in Hi. repeat (destruct Hi as [Hi|Hi]; [discriminate|]). destruct Hi. }
  apply in_app_iff in Hi. destruct Hi as [Hi|Hi]; [destruct (set_part_line _ _ _ _ _ _ P3 Hi); discriminate|].
  apply in_app_iff in Hi. destruct Hi as [Hi|Hi].
  { destruct P4 as [->|(b & first & rest & E4 & Hf & Hr)]; [destruct Hi|]. destruct (line_in _ _ _ _ _ _ _ _ E4 Hf Hr Hi) as [[X _]| X]; discriminate. }
  apply in_app_iff in Hi. destruct Hi as [Hi|Hi]; [destruct (set_part_line _ _ _ _ _ _ P5 Hi); discriminate|].
  apply in_app_iff in Hi. destruct Hi as [Hi|Hi]; [destruct (set_part_line _ _ _ _ _ _ P6 Hi); discriminate|].
  destruct P7 as [->|[w ->]]; [destruct Hi|]. destruct Hi as [Hi|Hi]; [|apply comment_line in Hi; destruct Hi]. injection Hi as ->.
  exists (before ++ l3 ++ l4 ++ l5 ++ l6). unfold out_comment. rewrite Ho', Ho. rewrite <- !app_assoc. reflexivity.
Qed.
Lemma verdict_line E files stdin args items v : cli_main E files stdin args = Ok items -> cli_results_only args = false -> In (Line "has_quorum_intersection" v) items ->
  exists pre rest post b, v = VBool b /\ items = pre ++ [Line "has_quorum_intersection" v; Duration "has_quorum_intersection"] ++ rest ++ [Message [inl (verdict b)]] ++ post /\
    ((cli_alternative_check args = false \/ b = true) /\ rest = [] \/ (cli_alternative_check args = true /\ b = false /\ exists w, rest = [Line "nonintersecting_quorums" w])).
Proof.
  intros H Ho Hi. apply run_parts in H. destruct H as (o & f & g & l0 & l1 & l2 & l3 & l4 & l5 & l6 & l7 & Hg & Ho' & -> & N & P3 & P5 & P6 & P4 & P7).
  set (before := l0 ++ l1 ++ out_comment_newline o ++ l2) in *.
  apply in_app_iff in Hi. destruct Hi as [Hi|Hi].
  { apply N in Hi. cbn in Hi. repeat (destruct Hi as [Hi|Hi]; [discriminate|]). destruct Hi. }
  apply in_app_iff in Hi. destruct Hi as [Hi|Hi]; [destruct (set_part_line _ _ _ _ _ _ P3 Hi); discriminate|].
  apply in_app_iff in Hi. destruct Hi as [Hi|Hi].
  { destruct P4 as [->|(b & first & rest & E4 & Hf & Hr)]; [destruct Hi|]. destruct (line_in _ _ _ _ _ _ _ _ E4 Hf Hr Hi) as [[_ ->]| X]; [|discriminate].
    exists (before ++ l3 ++ first), rest, (l5 ++ l6 ++ l7), b. split; [reflexivity|]. split; [|exact Hr]. rewrite E4. unfold out_comment. rewrite Ho', Ho. rewrite <- !app_assoc. reflexivity. }
  apply in_app_iff in Hi. destruct Hi as [Hi|Hi]; [destruct (set_part_line _ _ _ _ _ _ P5 Hi); discriminate|].
  apply in_app_iff in Hi. destruct Hi as [Hi|Hi]; [destruct (set_part_line _ _ _ _ _ _ P6 Hi); discriminate|].
  destruct P7 as [->|[w ->]]; [destruct Hi|]. destruct Hi as [Hi|Hi]; [discriminate|]. apply comment_line in Hi. destruct Hi.
Qed.
