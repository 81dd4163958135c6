(** Generator, simulator and analyzer in a row. *)
From Coq Require Import ZArith Reals Ascii.
From Flocq Require Import IEEE754.BinarySingleNaN.
From Verif Require Import Spec_Pipeline P_List P_Builder P_QuorumSet P_Quorum P_Shrunken P_SimGraph P_Mesh P_Shuffle P_Float P_Rank P_Simulation P_Growth
  P_RandomQsc P_GraphQsc P_ThRank P_GraphIO P_IO P_Json P_Bins P_Simulator P_Generator P_JsonPrint P_CliText P_ThCliAny P_FloatText P_FloatRound.
Local Open Scope list_scope.
Local Open Scope nat_scope.

(** ** the text of the simulator *)
Lemma simulated_small args w r n0 f : initial_nodes args w n0 -> (Z.of_nat (n0 + arg_grow_by_n args) <= 2 ^ 53)%Z -> sixty_four_bits (arg_qsc_config args) w ->
  simulated args w r = Ok f -> small_fbas f.
Proof.
  intros Hi Hb H64 Es. destruct (simulated_spec args w r n0 f Hi Hb Es) as (N & G & A). cbv zeta in A.
  assert (Hall : forall b, n0 + arg_grow_by_n args <= b -> (Z.of_nat b < 2 ^ 64)%Z ->
    (forall path g, graph_path (arg_qsc_config args) = Some path -> graph_at w path g -> List.length g <= b) -> forall i q, node_of f i q -> bounded_qset b q).
  { intros b H1 H2 H3 i q Hq. eapply (prescribed_bounded (arg_qsc_config args)); eauto. rewrite <- N. eapply node_of_range; eauto. }
  destruct (graph_path (arg_qsc_config args)) as [path|] eqn:Ep.
  - destruct (parse_graph_path w path) as [[g m]|] eqn:Eg.
    + apply parse_graph_iff in Eg. destruct Eg as [Hg _]. intros i q Hq.
      apply (Hall (Nat.max (n0 + arg_grow_by_n args) (List.length g))) with (i := i); auto; try lia.
      * destruct H64 as [_ H64]. specialize (H64 path g Ep Hg). lia.
      * intros path' g' E' Hg'. injection E' as <-. rewrite (graph_at_fun _ _ _ _ Hg Hg'). lia.
    + intros i q Hq. exfalso.
      assert (Hp : possible (arg_qsc_config args) w n0 (n0 + arg_grow_by_n args)) by (apply (simulated_iff args w r n0 Hi Hb); congruence).
      destruct (possible_graph _ _ _ _ _ Hp Ep) as (g & Hg). destruct (parse_graph_iff w path g (List.length g)) as [_ H]. rewrite H in Eg by auto. discriminate.
  - intros i q Hq. apply (Hall (n0 + arg_grow_by_n args)) with (i := i); auto; try lia. discriminate.
Qed.
Lemma prescribed_flat c w n i q : as_prescribed c w n i q -> inner_quorum_sets q = [].
Proof.
  assert (Hflat : forall P thr q, flat_over P thr q -> inner_quorum_sets q = []) by (intros P thr q' (vs & _ & ->); auto).
  destruct c as [| |size|size path thr|path thr|path thr|path thr|path thr]; cbn [as_prescribed].
  - now intros ->.
  - now intros ->.
  - intros [(H & _) _]. auto.
  - intros (g & d & _ & _ & (H & _) & _). auto.
  - intros (g & _ & Hc & Hd). destruct (mem i (get_connected_nodes g)) eqn:Em; [apply connected_mem in Em|rewrite Hd by (rewrite <- connected_mem; congruence); auto].
    eapply Hflat; eauto.
  - intros (g & scores & _ & _ & Hc & Hd). destruct (mem i (get_connected_nodes g)) eqn:Em; [apply connected_mem in Em|rewrite Hd by (rewrite <- connected_mem; congruence); auto].
    eapply Hflat; eauto.
  - intros (g & scores & _ & _ & Hc & Hd). destruct (mem i (get_connected_nodes g)) eqn:Em; [apply connected_mem in Em|rewrite Hd by (rewrite <- connected_mem; congruence); auto].
    destruct (Hc Em) as (P & HP & _). eapply Hflat; eauto.
  - intros (g & scores & top & _ & _ & _ & Hc & Hd).
    assert (Hl : (exists j, link g i j) \/ forall j, ~ link g i j).
    { destruct (nth_error g i) as [[|j l]|] eqn:En.
      - right. intros j (l & Hl & Hj). rewrite En in Hl. injection Hl as <-. destruct Hj.
      - left. exists j, (j :: l). split; [auto|left; auto].
      - right. intros j (l & Hl & _). congruence. }
    destruct Hl as [Hl|Hl]; [rewrite Hc by auto|rewrite Hd by auto]; auto.
Qed.
Lemma simulated_shallow args w r n0 f : initial_nodes args w n0 -> (Z.of_nat (n0 + arg_grow_by_n args) <= 2 ^ 53)%Z ->
  simulated args w r = Ok f -> shallow f.
Proof.
  intros Hi Hb Es x q Hq. destruct (simulated_spec args w r n0 f Hi Hb Es) as (N & G & A). cbv zeta in A.
  specialize (A x q Hq). apply prescribed_flat in A. destruct q as [t vs is_]. cbn in A. subst is_. constructor. constructor.
Qed.
Lemma document_line mz j s : document mz j s -> document mz j (s ++ new_line_text).
Proof.
  intros (w & t & w' & H1 & H2 & H3 & ->). exists w, t, (w' ++ new_line_text). split; [auto|]. split; [auto|]. split.
  - unfold blank in *. apply Forall_app. split; auto. constructor; [|constructor]. cbn. auto.
  - now rewrite !app_assoc.
Qed.
Lemma text_printed args w r n0 s mz : initial_nodes args w n0 -> (Z.of_nat (n0 + arg_grow_by_n args) <= 2 ^ 53)%Z -> sixty_four_bits (arg_qsc_config args) w ->
  simulator_text args w r = Ok s ->
  exists f f', simulated args w r = Ok f /\ fbas_from_text mz s = Ok f' /\ number_of_nodes f' = n0 + arg_grow_by_n args /\ generic_names f' /\
  (forall S, quorum f' S <-> quorum f S) /\
  (no_larger_graph (arg_qsc_config args) w (n0 + arg_grow_by_n args) -> renumbering (fun x => x) f f').
Proof.
  intros Hi Hb H64 E. unfold simulator_text in E. destruct (simulated args w r) as [f|] eqn:Es; [|discriminate]. cbn [res_map] in E. injection E as <-.
  destruct (printed args w r n0 (fbas_to_json f) Hi Hb H64) as (f0 & f' & E0 & Ef' & H); [unfold qsc_simulator; rewrite Es; auto|].
  assert (f0 = f) by congruence. subst f0.
  exists f, f'. split; [auto|]. split; [|exact H].
  assert (Hsm := simulated_small args w r n0 f Hi Hb H64 Es). assert (Hsh := simulated_shallow args w r n0 f Hi Hb Es).
  rewrite (fbas_written f Hsm) in Ef'. rewrite <- Ef'. apply written_text; auto. apply document_line. apply printed_document. apply fbas_printable.
Qed.

(** ** all nodes together *)
Lemma threshold_share n thr : a_share thr -> 1 <= n -> (Z.of_nat n <= 2 ^ 53)%Z -> 1 <= calculate_threshold n thr <= n.
Proof.
  intros Ha H1 Hn. destruct thr as [x|]; cbn [calculate_threshold].
  - destruct (Ha x eq_refl) as [Hf Hr]. apply x_threshold_fraction; auto.
  - rewrite threshold_67p by auto. pose proof (Nat.div_le_upper_bound (n - 1) 3 (n - 1) ltac:(lia) ltac:(lia)). lia.
Qed.
Lemma subseq_all {A} (l : list A) : subseq l l.
Proof. induction l; [constructor|now apply subseq_take]. Qed.
Lemma all_slice t vs (P : nat -> Prop) : 1 <= t <= List.length vs -> (forall x, In x vs -> P x) -> slice P (QS t vs []).
Proof.
  intros Ht Hv. apply slice_intro with (vs' := vs) (is' := []).
  - lia.
  - apply subseq_all.
  - constructor.
  - auto.
  - intros i [].
  - cbn [List.length]. lia.
Qed.
Lemma flat_slice P thr q n (B : nat -> Prop) : flat_over P thr q -> a_share thr -> (exists x, P x) -> (forall x, P x -> x < n /\ B x) -> (Z.of_nat n <= 2 ^ 53)%Z -> slice B q.
Proof.
  intros (vs & [Hs Hv] & ->) Ha (x & Hx) HP Hn. apply all_slice; [|intros y Hy; apply HP, Hv; auto].
  assert (List.length vs <= n) by (apply ascending_bounded; auto; intros y Hy; apply HP, Hv; auto).
  apply threshold_share; auto; [|lia]. apply Hv in Hx. destruct vs; [destruct Hx|cbn; lia].
Qed.
Definition graph_ranked (c : qsc_config) : bool := match c with GlobalRank _ _ => true | _ => false end.
Lemma prescribed_slice c w n i q (B : nat -> Prop) : as_prescribed c w n i q -> (graph_ranked c = false) -> satisfiable_policy c w n -> all_connected c w n -> no_larger_graph c w n ->
  i < n -> (Z.of_nat n <= 2 ^ 53)%Z -> (forall x, x < n -> B x) -> slice B q.
Proof.
  intros Ha Hr Hp Hc Hl Hi Hn HB.
  assert (Hrand : forall p, randomly_prescribed p n i q -> 2 <= desired_quorum_set_size p ->
    (forall t, desired_threshold p = Some t -> 1 <= t <= Nat.min (desired_quorum_set_size p) n) -> slice B q).
  { intros p [(Hin & _ & Hv & _ & Hlen & Ht) _] H2 H3. destruct q as [t vs is_]. cbn [inner_quorum_sets validators threshold] in *. subst is_.
    apply all_slice; auto. rewrite Hlen, Ht by auto. unfold requested_threshold.
    destruct (desired_threshold p) as [u|]; [specialize (H3 u eq_refl); lia|].
    pose proof (Nat.div_le_upper_bound (Nat.min (desired_quorum_set_size p) n - 1) 3 (Nat.min (desired_quorum_set_size p) n - 1) ltac:(lia) ltac:(lia)). lia. }
  destruct c as [| |size|size path thr|path thr|path thr|path thr|path thr]; cbn [as_prescribed satisfiable_policy graph_path graph_ranked] in *.
  - subst q. apply all_slice; [rewrite seq_length; lia|]. intros x Hx. apply in_seq in Hx. apply HB. lia.
  - subst q. apply all_slice; [|intros x Hx; apply in_seq in Hx; apply HB; lia]. rewrite seq_length.
    pose proof (Nat.div_le_upper_bound (n - 1) 3 (n - 1) ltac:(lia) ltac:(lia)). lia.
  - eapply Hrand; eauto. cbn. discriminate.
  - destruct Ha as (g & d & _ & _ & Ha). destruct Hp as [H2 H3]. eapply Hrand; eauto.
  - destruct Ha as (g & Hg & Ha & _). specialize (Hc path g eq_refl Hg i Hi). specialize (Hl path g eq_refl Hg). destruct (graph_at_ok _ _ _ Hg) as [Hw _].
    eapply (flat_slice _ thr q n); eauto. intros x [->|Hx]; [auto|]. specialize (Hw _ _ Hx). split; [lia|apply HB; lia].
  - destruct Ha as (g & scores & Hg & _ & Ha & _). specialize (Hc path g eq_refl Hg i Hi). specialize (Hl path g eq_refl Hg). destruct (graph_at_ok _ _ _ Hg) as [Hw _].
    eapply (flat_slice _ thr q n); eauto. intros x [->|Hx]; [auto|]. apply (trusted_bound g scores i x Hw) in Hx. split; [lia|apply HB; lia].
  - destruct Ha as (g & scores & Hg & _ & Ha & _). specialize (Hc path g eq_refl Hg i Hi). specialize (Hl path g eq_refl Hg). destruct (graph_at_ok _ _ _ Hg) as [Hw _].
    destruct (Ha Hc) as (P & HP & H1 & H2). eapply (flat_slice _ thr q n); eauto.
    + exists i. apply H1. constructor.
    + intros x Hx. destruct (H2 x Hx) as (k & Hk). apply (shared_bound g scores n k i x Hw) in Hk. assert (x < n) by (destruct Hk; subst; lia). auto.
  - discriminate.
Qed.
Lemma flat_slice_inv (P : nat -> Prop) t vs : slice P (QS t vs []) -> 1 <= t /\ exists vs', subseq vs' vs /\ (forall v, In v vs' -> P v) /\ t <= List.length vs'.
Proof.
  intros H. inversion H as [t0 vs0 is0 vs' is' H1 H2 H3 H4 H5 H6]; subst. split; [auto|]. exists vs'. repeat split; auto.
  inversion H3; subst. cbn in H6. lia.
Qed.
(** which rankings give a quorum *)
Lemma ranked_quorum args w r n0 f path thr g scores top : initial_nodes args w n0 -> let n := n0 + arg_grow_by_n args in (Z.of_nat n <= 2 ^ 53)%Z ->
  arg_qsc_config args = GlobalRank path thr -> graph_at w path g -> get_rank_scores g = Ok scores -> ascending_list_of (above_average scores) top ->
  simulated args w r = Ok f ->
  (has_a_quorum f <-> exists l, NoDup l /\ (forall x, In x l -> x < n /\ above_average scores x /\ exists j, link g x j) /\
                       1 <= calculate_threshold (List.length top) thr <= List.length l).
Proof.
  intros Hi n Hb Hc Hg Hs [Ht Htop] Es. destruct (simulated_spec args w r n0 f Hi Hb Es) as (N & G & A). cbv zeta in A. fold n in N, A.
  assert (A' : forall i q, node_of f i q -> ((exists j, link g i j) -> q = QS (calculate_threshold (List.length top) thr) top []) /\ ((forall j, ~ link g i j) -> q = qset_new)).
  { intros i q Hq. specialize (A i q Hq). rewrite Hc in A. cbn [as_prescribed] in A. destruct A as (g' & scores' & top' & Hg' & Hs' & [Ht' Htop'] & Hq1 & Hq2).
    assert (g' = g) by (eapply graph_at_fun; eauto). subst g'. rewrite Hs in Hs'. injection Hs' as <-.
    assert (top' = top). { exact (ascending_unique _ _ _ (conj Ht' Htop') (conj Ht Htop)). }
    subst top'. auto. }
  assert (Hlink : forall i, (exists j, link g i j) \/ forall j, ~ link g i j).
  { intros i. destruct (nth_error g i) as [[|j l]|] eqn:En.
    - right. intros j (l & Hl & Hj). rewrite En in Hl. injection Hl as <-. destruct Hj.
    - left. exists j. exists (j :: l). split; [auto|left; auto].
    - right. intros j (l & Hl & Hj). congruence. }
  split.
  - intros (Q & (x & Hx) & HQ).
    assert (HQ' : forall y, mem y Q = true -> (exists j, link g y j) /\ slice (fun z => mem z Q = true) (QS (calculate_threshold (List.length top) thr) top []) /\ y < n).
    { intros y Hy. destruct (HQ y Hy) as (q & Hq & Hsl). destruct (A' y q Hq) as [Y1 Y2]. destruct (Hlink y) as [Hl|Hl].
      - split; [auto|]. rewrite <- (Y1 Hl). split; [auto|]. destruct Hq as (nd & Hnd & _). rewrite <- N. unfold number_of_nodes. apply nth_error_Some. congruence.
      - rewrite (Y2 Hl) in Hsl. apply flat_slice_inv in Hsl. lia. }
    destruct (HQ' x Hx) as (_ & Hsl & _). apply flat_slice_inv in Hsl. destruct Hsl as (H1 & vs' & Hsub & Hin & Hle).
    exists vs'. split; [eapply subseq_nodup; eauto; apply sorted_lt_nodup; auto|]. split; [|lia].
    intros y Hy. specialize (Hin y Hy). destruct (HQ' y Hin) as (Hl & _ & Hyn). split; [auto|]. split; [|auto]. apply Htop. eapply subseq_in; eauto.
  - intros (l & Hnd & Hl & Hle). exists (of_list l). split.
    + destruct l as [|x l]; [cbn in Hle; lia|]. exists x. apply mem_of_list. left; auto.
    + intros x Hx. apply mem_of_list in Hx. destruct (Hl x Hx) as (Hxn & Hxa & Hxl).
      destruct (nth_error (nodes f) x) as [nd|] eqn:En; [|apply nth_error_None in En; unfold number_of_nodes in N; lia].
      assert (Hq : node_of f x (node_qset nd)) by (exists nd; auto). exists (node_qset nd). split; [auto|].
      rewrite (proj1 (A' x _ Hq) Hxl).
      apply slice_intro with (vs' := filter (fun y => mem y (of_list l)) top) (is' := []).
      * lia.
      * apply subseq_filter.
      * constructor.
      * intros v Hv. apply filter_In in Hv. tauto.
      * intros i [].
      * cbn [List.length]. rewrite Nat.add_0_r. apply Nat.le_trans with (List.length l); [lia|]. apply NoDup_incl_length; [auto|].
        intros y Hy. apply filter_In. split; [apply Htop, Hl; auto|apply mem_of_list; auto].
Qed.

Lemma ranked_quorum_shares args w r n0 f path thr g scores : initial_nodes args w n0 -> let n := n0 + arg_grow_by_n args in (Z.of_nat n <= 2 ^ 53)%Z ->
  arg_qsc_config args = GlobalRank path thr -> graph_at w path g -> get_rank_scores g = Ok scores -> simulated args w r = Ok f ->
  a_share thr -> List.length g <= n -> (forall x, above_average scores x -> exists j, link g x j) ->
  (has_a_quorum f <-> exists x, above_average scores x).
Proof.
  intros Hi n Hb Hc Hg Hs Es Ha Hl Hlk.
  destruct (graph_at_ok _ _ _ Hg) as [Hw Hr]. destruct (scores_exist g Hw Hr) as (sc & Hsc & Hlen). rewrite Hs in Hsc. injection Hsc as <-.
  destruct (top_tier_ok g scores Hs Hlen) as (top & _ & Ht).
  pose proof (ranked_quorum args w r n0 f path thr g scores top Hi Hb Hc Hg Hs Ht Es) as R. cbv zeta in R. fold n in R. rewrite R. clear R. destruct Ht as [Ht Htop].
  assert (Hab : forall x, above_average scores x -> x < List.length g). { intros x (s & Hx & _). rewrite <- Hlen. apply nth_error_Some. congruence. }
  split.
  - intros (l & _ & Hin & H1 & H2). destruct l as [|x l]; [cbn in H2; lia|]. exists x. apply Hin. left; auto.
  - intros (x & Hx). exists top. split; [apply sorted_lt_nodup; auto|]. split.
    + intros y Hy. apply Htop in Hy. specialize (Hab y Hy). split; [lia|]. split; auto.
    + apply threshold_share; auto; [apply Htop in Hx; destruct top; [destruct Hx|cbn; lia]|].
      assert (List.length top <= n); [|lia]. apply ascending_bounded; auto. intros y Hy. apply Htop in Hy. specialize (Hab y Hy). lia.
Qed.
Lemma simulated_quorum args w r n0 f : initial_nodes args w n0 -> let n := n0 + arg_grow_by_n args in 0 < n -> (Z.of_nat n <= 2 ^ 53)%Z ->
  satisfiable_policy (arg_qsc_config args) w n -> all_connected (arg_qsc_config args) w n -> no_larger_graph (arg_qsc_config args) w n ->
  simulated args w r = Ok f -> has_a_quorum f.
Proof.
  intros Hi n H0 Hb Hp Hc Hl Es. destruct (graph_ranked (arg_qsc_config args)) eqn:Er.
  { destruct (arg_qsc_config args) as [| | | | | | |path thr] eqn:Ec; try discriminate.
    assert (Hgs : exists g scores, graph_at w path g /\ get_rank_scores g = Ok scores).
    { destruct (simulated_spec args w r n0 f Hi Hb Es) as (N & _ & A). cbv zeta in A. fold n in N. rewrite Ec in A.
      destruct (nth_error (nodes f) 0) as [nd|] eqn:En; [|apply nth_error_None in En; unfold number_of_nodes in N; lia].
      destruct (A 0 (node_qset nd)) as (g & scores & _ & Hg & Hs & _); [exists nd; auto|eauto]. }
    destruct Hgs as (g & scores & Hg & Hs). destruct Hp as [Ha Hp]. destruct (Hp g scores Hg Hs) as [Hx Hlk].
    apply (ranked_quorum_shares args w r n0 f path thr g scores); auto. apply (Hl path g eq_refl Hg). }
  destruct (simulated_spec args w r n0 f Hi Hb Es) as (N & G & A). cbv zeta in A. fold n in N, A.
  exists (of_list (range 0 n)). split.
  - exists 0. apply mem_of_list. rewrite range_seq. apply in_seq. lia.
  - intros x Hx. apply mem_of_list in Hx. rewrite range_seq in Hx. apply in_seq in Hx.
    destruct (nth_error (nodes f) x) as [nd|] eqn:En; [|apply nth_error_None in En; unfold number_of_nodes in N; lia].
    assert (Hq : node_of f x (node_qset nd)) by (exists nd; auto). exists (node_qset nd). split; [auto|].
    eapply prescribed_slice; eauto; [lia|]. intros y Hy. apply mem_of_list. rewrite range_seq. apply in_seq. lia.
Qed.

(** ** the text of the analyzer *)
Lemma text_to_trees mz files stdin args s f o : nodes_text args files stdin s -> fbas_from_text mz s = Ok f -> text_groups_to_merge mz args files f o ->
  exists j l, raw_nodes_from_text mz s = Ok l /\ nodes_document args (fun p => tree_of mz (files p)) (tree_of mz stdin) j /\ raw_fbas_of_json j = Ok l /\ fbas_from_json j = Ok f /\
    groups_to_merge args (fun p => tree_of mz (files p)) f o /\ unwrap (match cli_nodes_path args with Some p => files p | None => stdin end) = Ok s.
Proof.
  intros Hs Hr Hg. unfold fbas_from_text in Hr. destruct (raw_nodes_from_text mz s) as [l|] eqn:El; [|discriminate Hr]. injection Hr as <-.
  destruct (raw_from_text _ _ _ El) as (j & Ej & Ejl).
  assert (Hn : nodes_document args (fun p => tree_of mz (files p)) (tree_of mz stdin) j).
  { unfold nodes_document, nodes_text in *. destruct (cli_nodes_path args); rewrite Hs; cbn [tree_of]; rewrite Ej; auto. }
  assert (Hfj : fbas_from_json j = Ok (fbas_from_raw l)) by (unfold fbas_from_json; rewrite Ejl; auto).
  assert (Hgr : groups_to_merge args (fun p => tree_of mz (files p)) (fbas_from_raw l) o).
  { unfold text_groups_to_merge, groups_to_merge in *. destruct (cli_ctry_merge args).
    - destruct (cli_nodes_path args) as [p|]; [|exact Hg]. destruct Hg as (s' & G & Es & EG & ->). unfold countries_from_text in EG. next EG. next EG.
      destruct (raw_from_text _ _ _ Er) as (j' & Ej' & Ejl'). exists j', G. rewrite Es. cbn [tree_of]. rewrite Ej'. split; [auto|]. split; [|auto].
      unfold countries_from_json. rewrite Ejl'. cbn [bind]. rewrite Er0. auto.
    - destruct (cli_isp_merge args).
      + destruct (cli_nodes_path args) as [p|]; [|exact Hg]. destruct Hg as (s' & G & Es & EG & ->). unfold isps_from_text in EG. next EG. next EG.
        destruct (raw_from_text _ _ _ Er) as (j' & Ej' & Ejl'). exists j', G. rewrite Es. cbn [tree_of]. rewrite Ej'. split; [auto|]. split; [|auto].
        unfold isps_from_json. rewrite Ejl'. cbn [bind]. rewrite Er0. auto.
      + destruct (cli_organizations_path args) as [p|]; [|exact Hg]. destruct Hg as (s' & G & Es & EG & ->). unfold groupings_from_text in EG. next EG.
        exists r, G. rewrite Es. cbn [tree_of]. rewrite Er. auto. }
  exists j, l. split; [auto|]. split; [auto|]. split; [auto|]. split; [auto|]. split; [auto|].
  unfold nodes_text in Hs. destruct (cli_nodes_path args); rewrite Hs; auto.
Qed.
Lemma any_printed_report ft dt E mz files stdin args s f o : ext_ok E -> float_format mz ft ->
  nodes_text args files stdin s -> fbas_from_text mz s = Ok f ->
  text_groups_to_merge mz args files f o -> (forall G, o = Some G -> disjoint_groups (g_groupings G)) ->
  (uses_alternative args -> has_a_quorum f) ->
  exists out items, cli_output ft dt E mz files stdin args = Ok out /\ prints mz ft dt items out /\ any_report args f o (results items).
Proof.
  intros HE Hf Hs Hr Hg Hd Ha. destruct (text_to_trees mz files stdin args s f o Hs Hr Hg) as (j & l & El & Hn & Ejl & Hfj & Hgr & En).
  destruct (any_full_report E _ _ args j l _ o HE Hn Ejl Hfj Hgr Hd Ha) as (items & Ei & Hrep).
  exists (M_CliText.output_text ft dt items), items. split; [|split; [apply items_printed; auto|auto]].
  unfold cli_output. rewrite En. cbn [bind]. rewrite El. cbn [bind]. rewrite Ei. reflexivity.
Qed.
Lemma any_text_panics ft dt E mz files stdin args s f o : ext_ok E -> nodes_text args files stdin s -> fbas_from_text mz s = Ok f ->
  text_groups_to_merge mz args files f o -> (forall G, o = Some G -> disjoint_groups (g_groupings G)) ->
  (cli_output ft dt E mz files stdin args = Panic <-> uses_alternative args /\ ~ has_a_quorum f).
Proof.
  intros HE Hs Hr Hg Hd. destruct (text_to_trees mz files stdin args s f o Hs Hr Hg) as (j & l & El & Hn & Ejl & Hfj & Hgr & En).
  rewrite <- (panics_exactly E _ _ args j l f o HE Hn Ejl Hfj Hgr Hd). unfold cli_output. rewrite En. cbn [bind]. rewrite El. cbn [bind].
  destruct (cli_main E _ _ args); cbn [bind]; split; auto; discriminate.
Qed.

(** ** one after the other *)
Lemma in_a_row (debug_f64 : probability -> string) gargs r o c w path r' E mz dt files args : (forall b, free_of newline (debug_f64 b)) -> proper_graph (arg_algorithm gargs) ->
  (Z.of_nat (graph_size (arg_algorithm gargs)) <= 2 ^ 53)%Z -> graph_generator debug_f64 gargs r = Ok o ->
  graph_path c = Some path -> text_at w path (Spec_Bins.output_text o) -> (forall size path t, c = FameWeightedRandom size path (Some t) -> (Z.of_nat t < 2 ^ 64)%Z) ->
  ext_ok E -> cli_nodes_path args = None -> cli_organizations_path args = None ->
  exists s f, simulator_text (mk_simulator_args 0 0 c) w r' = Ok s /\ fbas_from_text mz s = Ok f /\
    number_of_nodes f = graph_size (arg_algorithm gargs) /\ generic_names f /\
    (satisfiable_policy c w (graph_size (arg_algorithm gargs)) -> has_a_quorum f) /\
    ((uses_alternative args -> has_a_quorum f) ->
     exists out items, cli_output json_float_text dt E mz files (Some s) args = Ok out /\ prints mz json_float_text dt items out /\ any_report args f None (results items)) /\
    (cli_output json_float_text dt E mz files (Some s) args = Panic <-> uses_alternative args /\ ~ has_a_quorum f).
Proof.
  intros Hd Hp Hn E0 Hc Ht H64 HE Hnp Hop.
  destruct (generator_spec debug_f64 gargs r Hd Hp) as (o' & g & _ & _ & _ & E' & _ & _ & Er & Hs & Hl & _ & Hi & _); [lia|].
  rewrite E0 in E'. injection E' as <-.
  destruct (piped debug_f64 gargs r o Hd Hp Hn E0 c w path r' Hc Ht H64) as (j & _ & Ej & _).
  assert (Hg : graph_at w path g) by (exists (Spec_Bins.output_text o); auto).
  assert (Hi0 : initial_nodes (mk_simulator_args 0 0 c) w (List.length g)).
  { split; cbn; [lia|]. intros _ _. rewrite Hc. eauto. }
  assert (Hall : forall path' g', graph_path c = Some path' -> graph_at w path' g' -> g' = g).
  { intros path' g' E1 Hg'. assert (path' = path) by congruence. subst path'. apply (graph_at_fun _ _ _ _ Hg' Hg). }
  assert (Hb : (Z.of_nat (List.length g + 0) <= 2 ^ 53)%Z) by (rewrite Nat.add_0_r, Hl; auto).
  assert (H6 : sixty_four_bits c w) by (split; [exact H64|]; intros path' g' E1 Hg'; rewrite (Hall _ _ E1 Hg'); lia).
  assert (Es : exists s, simulator_text (mk_simulator_args 0 0 c) w r' = Ok s).
  { unfold simulator_text. unfold qsc_simulator in Ej. destruct (simulated (mk_simulator_args 0 0 c) w r'); [cbn; eauto|discriminate]. }
  destruct Es as (s & Es). destruct (text_printed (mk_simulator_args 0 0 c) w r' (List.length g) s mz Hi0 Hb H6 Es) as (f0 & f & Ef0 & Ef & Hnf & Hgn & Hq & _).
  exists s, f. split; [exact Es|]. split; [exact Ef|]. cbn [arg_grow_by_n] in Hnf. split; [lia|]. split; [exact Hgn|].
  assert (Hns : nodes_text args files (Some s) s) by (unfold nodes_text; now rewrite Hnp).
  assert (Hgr : text_groups_to_merge mz args files f None).
  { unfold text_groups_to_merge. rewrite Hnp, Hop. destruct (cli_ctry_merge args); [auto|]. destruct (cli_isp_merge args); auto. }
  split; [|split].
  - intro Hsat. destruct (simulated_quorum (mk_simulator_args 0 0 c) w r' (List.length g) f0 Hi0) as (Q & HQ); cbn [arg_grow_by_n arg_qsc_config]; rewrite ?Nat.add_0_r; auto.
    + rewrite Hl. destruct (arg_algorithm gargs); cbn [graph_size proper_graph] in *; lia.
    + lia.
    + now rewrite Hl.
    + intros path' g' E1 Hg' i Hlt. rewrite (Hall _ _ E1 Hg'). destruct (Hi i Hlt) as (k & Hk). exists k. auto.
    + intros path' g' E1 Hg'. rewrite (Hall _ _ E1 Hg'). auto.
    + exists Q. apply Hq. auto.
  - intro Ha. apply (any_printed_report json_float_text dt E mz files (Some s) args s f None); auto; [apply json_float_format|discriminate].
  - apply (any_text_panics json_float_text dt E mz files (Some s) args s f None); auto. discriminate.
Qed.

(** ** examples *)
Definition ring_args : generator_args := mk_generator_args (WattsStrogatz 3 2 (Some 0%N)) None true.
Definition ring_text : string := ("# Graph generated using WattsStrogatz { n: 3, k: 2, beta: 0.5 }" ++ newline_text ++ "0|1|0" ++ newline_text ++ "0|2|0" ++ newline_text ++ "1|2|0" ++ newline_text ++ newline_text)%string.
Definition piped_options (alternative : bool) : cli := mk_cli None true true true true alternative false true false true None false false.
Definition no_files (p : path) : option (list ascii) := None.
Lemma ring_printed : graph_generator (fun _ => "0.5"%string) ring_args steps = Ok (To_stdout ring_text).
Proof. vm_compute. reflexivity. Qed.
Lemma ranked_ring : exists s, simulator_text (mk_simulator_args 0 0 (GlobalRank "-" None)) (only_stdin ring_text) steps = Ok s /\
  forall dt mz, cli_output json_float_text dt std_ext mz no_files (Some s) (piped_options true) = Panic.
Proof.
  assert (Es : exists s, simulator_text (mk_simulator_args 0 0 (GlobalRank "-" None)) (only_stdin ring_text) steps = Ok s) by (eexists; vm_compute; reflexivity).
  destruct Es as (s & Es). exists s. split; [exact Es|]. intros dt mz.
  destruct (in_a_row (fun _ => "0.5"%string) ring_args steps (To_stdout ring_text) (GlobalRank "-" None) (only_stdin ring_text) "-" steps std_ext mz dt no_files (piped_options true)) as
    (s' & f & Es' & Ef & _ & _ & _ & _ & Hp).
  - exact free_first.
  - cbn. split; [exists 1; auto|]. split; [lia|discriminate].
  - cbn. lia.
  - exact ring_printed.
  - reflexivity.
  - left. split; reflexivity.
  - discriminate.
  - exact std_ext_ok.
  - reflexivity.
  - reflexivity.
  - assert (s' = s) by congruence. subst s'. apply Hp. split; [split; reflexivity|].
    vm_compute in Es. injection Es as <-. 
    assert (Hf : forall x q, node_of f x q -> threshold q = 0).
    { destruct mz; vm_compute in Ef; injection Ef as <-; intros x q (n & Hn & <-); repeat (destruct x as [|x]; [injection Hn as <-; reflexivity|]); destruct x; discriminate. }
    intros (Q & (x & Hx) & HQ). destruct (HQ x Hx) as (q & Hq & Hs). specialize (Hf x q Hq). inversion Hs; subst. cbn in Hf. lia.
Qed.

(** ** ranks *)
Definition star_graph : graph := [[1; 2; 3]; [0]; [0]; [0]].
Definition star_text : string := ("0|1|0" ++ newline_text ++ "0|2|0" ++ newline_text ++ "0|3|0" ++ newline_text)%string.
Lemma star_average : exists scores, get_rank_scores star_graph = Ok scores /\ forall x, ~ above_average scores x.
Proof.
  assert (Hs : get_top_tier_nodes star_graph = Ok []) by (vm_compute; reflexivity).
  assert (Hw : wf_graph star_graph /\ no_repeated_links star_graph).
  { apply (graph_at_ok (only_stdin star_text) "-"). exists star_text. split; [left; split; reflexivity|vm_compute; reflexivity]. }
  destruct (scores_exist star_graph (proj1 Hw) (proj2 Hw)) as (scores & Es & Hl). exists scores. split; [exact Es|].
  destruct (top_tier_ok star_graph scores Es Hl) as (top & Et & _ & Ha). rewrite Hs in Et. injection Et as <-.
  intros x Hx. apply Ha in Hx. destruct Hx.
Qed.
Lemma kite_ranks : exists g scores, graph_at (only_stdin kite_text) "-" g /\ get_rank_scores g = Ok scores /\ ascending_list_of (above_average scores) [0; 1; 2].
Proof.
  assert (Hg : exists g, from_as_rel_string kite_text = Ok g /\ get_top_tier_nodes g = Ok [0; 1; 2]) by (exists [[1; 2; 3]; [0; 2]; [0; 1]; [0]]; split; vm_compute; reflexivity).
  destruct Hg as (g & Hg & Ht). assert (Hat : graph_at (only_stdin kite_text) "-" g) by (exists kite_text; split; [left; split; reflexivity|exact Hg]).
  destruct (graph_at_ok _ _ _ Hat) as [Hw Hr]. destruct (scores_exist g Hw Hr) as (scores & Es & Hl). exists g, scores. split; [exact Hat|]. split; [exact Es|].
  destruct (top_tier_ok g scores Es Hl) as (top & Et & Ha). rewrite Ht in Et. injection Et as <-. exact Ha.
Qed.
Lemma star_size : 2 < List.length star_graph.
Proof. cbn. lia. Qed.
Lemma star_links i : 0 < i < List.length star_graph -> link star_graph 0 i /\ forall j, link star_graph i j -> j = 0.
Proof.
  intros [H1 H2]. cbn in H2. assert (Hc : i = 1 \/ i = 2 \/ i = 3) by lia.
  destruct Hc as [->|[->| ->]]; (split; [exists [1; 2; 3]; split; [reflexivity|cbn; auto]|intros j (l & Hl & Hj); cbn in Hl; injection Hl as <-; destruct Hj as [<-|[]]; reflexivity]).
Qed.
