(** Proofs about configurators that use a graph. *)
From Coq Require Import ZArith.
From Verif Require Import Spec_Simulation P_List P_Builder P_QuorumSet P_Quorum P_SimGraph P_Mesh P_Shuffle P_Float P_Rank P_Simulation P_Growth P_RandomQsc.
Local Open Scope list_scope.
Local Open Scope nat_scope.

(** ** validators *)
Lemma sort_ascending l : NoDup l -> StronglySorted lt (sort_by Nat.compare l).
Proof.
  intros H. pose proof (cmp_sort_sorted Nat.compare l nat_cmp_ok) as Hs. apply (sort_by_nodup Nat.compare) in H.
  revert Hs H. generalize (sort_by Nat.compare l). induction l0 as [|a l0 IH]; intros Hs H; constructor; inversion Hs; inversion H; subst; auto.
  rewrite Forall_forall in *. intros x Hx. specialize (H3 x Hx). cbn in H3. assert (a <> x) by (intros ->; auto).
  destruct (Nat.compare_spec a x); try lia. exfalso. auto.
Qed.
Lemma with_self_spec i vs (P : nat -> Prop) : NoDup vs -> (forall x, In x vs <-> P x) -> ascending_list_of (fun x => x = i \/ P x) (with_self i vs).
Proof.
  intros Hnd HP. split.
  - unfold with_self. apply sort_ascending. destruct (existsb (Nat.eqb i) vs) eqn:E; auto.
    apply NoDup_snoc; auto. intros H. rewrite <- not_true_iff_false in E. apply E. apply existsb_exists. exists i. split; auto. apply Nat.eqb_refl.
  - intros x. rewrite with_self_in, HP. tauto.
Qed.
Lemma ascending_unique P l l' : ascending_list_of P l -> ascending_list_of P l' -> l = l'.
Proof.
  intros [S1 H1] [S2 H2]. apply (sorted_ext lt); auto using Nat.lt_irrefl; [apply Nat.lt_trans|]. intros x. rewrite H1, H2. tauto.
Qed.
Lemma flat_over_unique P thr q q' : flat_over P thr q -> flat_over P thr q' -> q = q'.
Proof. intros (vs & H1 & ->) (vs' & H2 & ->). rewrite (ascending_unique _ _ _ H1 H2). auto. Qed.
Lemma connected_mem g i : mem i (get_connected_nodes g) = true <-> connected g i.
Proof. apply connected_spec. Qed.
Lemma connected_lt g i : wf_graph g -> connected g i -> i < List.length g.
Proof. intros Hw (j & [H|H]); [apply link_lt in H; auto|apply Hw in H; auto]. Qed.

(** ** all neighbors *)
Definition neighbors_after (g : graph) (thr : option f64) (n i : nat) (q : qset) : Prop :=
  (connected g i -> flat_over (fun x => x = i \/ link g i x) thr q) /\ (~ connected g i -> q = qset_new).
Lemma all_neighbors_visit g thr i f r q : wf_graph g -> no_repeated_links g -> node_of f i q ->
  q = qset_new \/ neighbors_after g thr (number_of_nodes f) i q ->
  exists f' c r' q', all_neighbors_qsc g thr i f r = Ok (f', c, r') /\ node_of f' i q' /\ neighbors_after g thr (number_of_nodes f) i q'.
Proof.
  intros Hw Hr Hq Hb. unfold all_neighbors_qsc. rewrite (proj2 (get_qset_ok f i q) Hq). cbn [bind].
  destruct (mem i (get_connected_nodes g)) eqn:Em.
  - apply connected_mem in Em. cbn [andb]. destruct (qset_eqb q qset_new) eqn:Eq.
    + apply qset_eqb_eq in Eq. subst q. pose proof (connected_lt _ _ Hw Em) as Hi. rewrite (nth_error_some_nth g i [] Hi). cbn [unwrap bind].
      fold (links g i). match goal with |- context [set_qset f i ?x] => destruct (set_qset_some f i x (node_of_range _ _ _ Hq)) as [f' E]; exists f', Change, r, x end.
      rewrite E. cbn [bind]. split; auto. split; [eapply set_qset_node; eauto|]. split; [|tauto]. intros _. cbn.
      exists (with_self i (links g i)). split; auto. apply with_self_spec; [apply no_repeated_nth; auto|]. intros x. symmetry. apply link_links.
    + exists f, NoChange, r, q. split; auto. split; auto. destruct Hb as [->|Hb]; auto. rewrite (proj2 (qset_eqb_eq qset_new qset_new) eq_refl) in Eq. discriminate.
  - cbn [andb]. assert (Hn : ~ connected g i) by (rewrite <- connected_mem; congruence). exists f, NoChange, r, q. split; auto. split; auto.
    split; [tauto|]. intros _. destruct Hb as [->|[_ Hb]]; auto.
Qed.

Lemma all_neighbors_growth g thr k s : 1 <= k -> wf_graph g -> no_repeated_links g -> generic_names (sim_fbas s) ->
  (forall i q, node_of (sim_fbas s) i q -> q = qset_new) ->
  exists s', simulate_growth (all_neighbors_qsc g thr) k s = Ok s' /\ generic_names (sim_fbas s') /\
    number_of_nodes (sim_fbas s') = k + number_of_nodes (sim_fbas s) /\
    forall i q, node_of (sim_fbas s') i q ->
      (connected g i -> flat_over (fun x => x = i \/ link g i x) thr q) /\ (~ connected g i -> q = qset_new).
Proof.
  intros Hk Hw Hr Hg H0.
  destruct (growth_establishes (all_neighbors_qsc g thr) (fun _ => True) (neighbors_after g thr) (fun n i q => q = qset_new \/ neighbors_after g thr n i q)
    (proj1 (all_neighbors_faithful g thr))) with (k := k) (s := s) as (s' & E & G & N & _ & A); auto.
  - intros i f r q _ HB Hq. apply (all_neighbors_visit g thr i f r q); auto.
  - intros i q Hq. left. eauto.
  - exists s'. split; auto. split; auto. split; auto. intros i q Hq. apply (A Hk i q Hq).
Qed.

(** ** scores *)
Definition small_degrees (g : graph) : Prop := forall l, In l g -> (Z.of_nat (List.length l) <= 2 ^ 53)%Z.
Lemma graph_run_ok g last : wf_graph g -> small_degrees g -> scores_ok (List.length g) last ->
  exists scores, graph_rank_run g last = Ok scores /\ scores_ok (List.length g) scores.
Proof.
  intros Hw Hd Hl. unfold graph_rank_run. apply (foldM_inv (scores_ok (List.length g))).
  - intros sc [i row] Hin Hs. apply enumerate_in in Hin. apply (foldM_inv (scores_ok (List.length g))); auto.
    intros sc' j Hj Hs'. assert (Hi : i < List.length g) by (apply nth_error_Some; congruence).
    assert (Hjl : j < List.length g) by (apply (Hw i); exists row; auto).
    destruct (scores_nth _ last i Hl Hi) as (x & Ex & Hx). rewrite Ex. cbn [unwrap bind].
    destruct (scores_nth _ sc' j Hs' Hjl) as (y & Ey & Hy). rewrite Ey. cbn [unwrap bind].
    rewrite set_at_ok by (destruct Hs' as [-> _]; auto). eexists. split; [reflexivity|]. destruct Hs' as [L F]. split; [rewrite update_length; auto|].
    rewrite Forall_forall in *. intros z Hz. apply In_nth_error in Hz. destruct Hz as [m Hm]. rewrite nth_error_update in Hm.
    match type of Hm with (if ?b then _ else _) = _ => destruct b end.
    + injection Hm as <-. apply score_add_ok; auto. apply score_div_ok; auto; [destruct row; [destruct Hj|cbn; lia]|]. apply Hd. eapply nth_error_In; eauto.
    + apply F. eapply nth_error_In; eauto.
  - split; [apply repeat_length|]. apply Forall_forall. intros x Hx. apply repeat_spec in Hx. subst. apply score_zero.
Qed.
Lemma graph_runs_ok g eps : wf_graph g -> small_degrees g -> forall k scores, scores_ok (List.length g) scores ->
  exists scores', graph_rank_runs k g eps scores = Ok scores' /\ scores_ok (List.length g) scores'.
Proof.
  intros Hw Hd. induction k as [|k IH]; intros scores Hs; cbn [graph_rank_runs]; [eauto|].
  destruct (graph_run_ok g scores Hw Hd Hs) as (s' & E & Hs'). rewrite E. cbn [bind]. destruct (forallb _ _); eauto.
Qed.
Lemma rank_scores_ok g : wf_graph g -> small_degrees g -> (Z.of_nat (List.length g) <= 2 ^ 53)%Z ->
  exists scores, get_rank_scores g = Ok scores /\ List.length scores = List.length g /\ Forall score_ok scores.
Proof.
  intros Hw Hd Hn. unfold get_rank_scores. apply graph_runs_ok; auto. split; [apply repeat_length|].
  apply Forall_forall. intros x Hx. apply repeat_spec in Hx. subst. apply one_div_ok. auto.
Qed.

(** ** higher tier neighbors *)
Lemma partition_ok (p : nat -> res bool) (b : nat -> bool) l : (forall x, In x l -> p x = Ok (b x)) ->
  partition_res p l = Ok (filter b l, filter (fun x => negb (b x)) l).
Proof.
  intros H. unfold partition_res.
  assert (G : forall l0 y n, (forall x, In x l0 -> p x = Ok (b x)) ->
    foldM (fun '(yes, no) x => b0 <- p x ;; Ok (if b0 : bool then (yes ++ [x], no) else (yes, no ++ [x]))) (y, n) l0 = Ok (y ++ filter b l0, n ++ filter (fun x => negb (b x)) l0)).
  { induction l0 as [|x l0 IH]; intros y n Hp; cbn [foldM filter]; [rewrite !app_nil_r; auto|].
    rewrite (Hp x) by (left; auto). cbn [bind]. destruct (b x); cbn [negb]; rewrite IH by (intros; apply Hp; right; auto); rewrite <- app_assoc; auto. }
  apply (G l [] []). auto.
Qed.
Definition score_at (scores : list f64) (i : nat) : f64 := nth i scores fzero.
Lemma twice_iff scores i j : i < List.length scores -> j < List.length scores ->
  twice_the_score scores i j <-> fleb (fmul (f64_of_nat 2) (score_at scores i)) (score_at scores j) = true.
Proof.
  intros Hi Hj. unfold twice_the_score, score_at. rewrite (nth_error_some_nth scores i fzero Hi), (nth_error_some_nth scores j fzero Hj). split.
  - intros (si & sj & A & B & C). congruence.
  - intros H. eauto.
Qed.
Lemma tiers_ok g scores i : wf_graph g -> no_repeated_links g -> List.length scores = List.length g -> i < List.length g ->
  exists h s l, get_neighbors_by_tierness g scores i = Ok (h, s, l) /\ NoDup h /\ NoDup s /\
    (forall x, In x h <-> higher_neighbor g scores i x) /\ (forall x, In x s <-> same_tier_neighbor g scores i x).
Proof.
  intros Hw Hr Hs Hi. unfold get_neighbors_by_tierness.
  rewrite (nth_error_some_nth scores i fzero) by lia. rewrite (nth_error_some_nth g i []) by auto. cbn [unwrap bind]. fold (links g i).
  assert (Hlt : forall x, In x (links g i) -> x < List.length scores) by (intros x Hx; apply link_links in Hx; apply Hw in Hx; lia).
  set (hb := fun x => fleb (fmul (f64_of_nat 2) (score_at scores i)) (score_at scores x)).
  set (lb := fun x => fleb (fmul (f64_of_nat 2) (score_at scores x)) (score_at scores i)).
  rewrite (partition_ok _ hb). 2:{ intros x Hx. rewrite (nth_error_some_nth scores x fzero) by auto. auto. }
  cbn [bind fst snd].
  rewrite (partition_ok _ lb). 2:{ intros x Hx. apply filter_In in Hx. rewrite (nth_error_some_nth scores x fzero) by (apply Hlt; tauto). auto. }
  cbn [bind fst snd]. pose proof (proj1 (no_repeated_nth g) Hr i) as Hnd.
  eexists _, _, _. split; [reflexivity|]. split; [apply NoDup_filter; auto|]. split; [apply NoDup_filter, NoDup_filter; auto|]. split.
  - intros x. rewrite filter_In. unfold higher_neighbor. rewrite link_links. split; intros [A B]; split; auto.
    + apply twice_iff; [lia|auto|exact B].
    + apply twice_iff in B; [exact B|lia|auto].
  - intros x. rewrite !filter_In, !negb_true_iff. unfold same_tier_neighbor. rewrite link_links.
    split.
    + intros [[A B] C]. split; auto. split; intros X; apply twice_iff in X; auto; try lia; unfold hb, lb in *; congruence.
    + intros (A & B & C). split; [split; auto|]; apply not_true_iff_false; intros X; [apply B|apply C]; apply twice_iff; auto; lia.
Qed.

Lemma trusted_list g scores i h s : (forall x, In x h <-> higher_neighbor g scores i x) -> (forall x, In x s <-> same_tier_neighbor g scores i x) ->
  forall x, In x (match h with [] => s | _ => h end) <-> trusted_neighbor g scores i x.
Proof.
  intros Hh Hs x. unfold trusted_neighbor. destruct h as [|y h].
  - rewrite Hs. split.
    + intros H. right. split; auto. intros k Hk. apply Hh in Hk. destruct Hk.
    + intros [H|[_ H]]; auto. apply Hh in H. destruct H.
  - rewrite Hh. split; auto. intros [H|[H _]]; auto. exfalso. apply (H y). apply Hh. left. auto.
Qed.

Lemma higher_tier_candidate g scores thr i f r : wf_graph g -> no_repeated_links g -> List.length scores = List.length g -> connected g i ->
  exists q, flat_over (fun x => x = i \/ trusted_neighbor g scores i x) thr q /\ higher_tier_qsc g scores thr false i f r = replace_if_different f i q r.
Proof.
  intros Hw Hr Hs Hc. unfold higher_tier_qsc. rewrite (proj2 (connected_mem g i) Hc). cbn [negb].
  destruct (tiers_ok g scores i Hw Hr Hs (connected_lt _ _ Hw Hc)) as (h & sa & lo & E & N1 & N2 & H1 & H2). rewrite E. cbn [bind].
  eexists. split; [|reflexivity]. eexists. split; [|reflexivity]. apply with_self_spec; [destruct h; auto|]. apply trusted_list; auto.
Qed.

Definition higher_after (g : graph) (scores : list f64) (thr : option f64) (n i : nat) (q : qset) : Prop :=
  (connected g i -> flat_over (fun x => x = i \/ trusted_neighbor g scores i x) thr q) /\ (~ connected g i -> q = qset_new).
Lemma higher_tier_growth g scores thr k s : 1 <= k -> wf_graph g -> no_repeated_links g -> List.length scores = List.length g -> generic_names (sim_fbas s) ->
  (forall i q, node_of (sim_fbas s) i q -> connected g i \/ q = qset_new) ->
  exists s', simulate_growth (higher_tier_qsc g scores thr false) k s = Ok s' /\ generic_names (sim_fbas s') /\
    number_of_nodes (sim_fbas s') = k + number_of_nodes (sim_fbas s) /\
    forall i q, node_of (sim_fbas s') i q ->
      (connected g i -> flat_over (fun x => x = i \/ trusted_neighbor g scores i x) thr q) /\ (~ connected g i -> q = qset_new).
Proof.
  intros Hk Hw Hr Hs Hg H0.
  destruct (growth_establishes (higher_tier_qsc g scores thr false) (fun _ => True) (higher_after g scores thr) (fun n i q => connected g i \/ q = qset_new)
    (proj1 (higher_tier_faithful g scores thr false))) with (k := k) (s := s) as (s' & E & G & N & _ & A); auto.
  - intros i f r q _ HB Hq. destruct (mem i (get_connected_nodes g)) eqn:Em.
    + apply connected_mem in Em. destruct (higher_tier_candidate g scores thr i f r Hw Hr Hs Em) as (q' & Hq' & Eq'). rewrite Eq'.
      destruct (replace_ok f i q' r (node_of_range _ _ _ Hq)) as (f' & c & E). exists f', c, r, q'. split; auto.
      apply replace_spec in E. split; [tauto|]. split; [auto|tauto].
    + assert (Hn : ~ connected g i) by (rewrite <- connected_mem; congruence). exists f, NoChange, r, q. unfold higher_tier_qsc. rewrite Em. cbn [negb].
      split; auto. split; auto. split; [tauto|]. intros _. destruct (HB i q Hq); tauto.
  - intros n i q [A1 A2]. destruct (mem i (get_connected_nodes g)) eqn:Em; [left; apply connected_mem; auto|right; apply A2; rewrite <- connected_mem; congruence].
  - exists s'. split; auto. split; auto. split; auto. intros i q Hq. apply (A Hk i q Hq).
Qed.

Lemma simple_degrees g : wf_graph g -> no_repeated_links g -> (Z.of_nat (List.length g) <= 2 ^ 53)%Z -> small_degrees g.
Proof.
  intros Hw Hr Hn l Hl. apply In_nth_error in Hl. destruct Hl as [i Hi].
  assert (List.length l <= List.length g); [|lia]. apply max_distinct.
  - unfold no_repeated_links in Hr. rewrite Forall_forall in Hr. apply Hr. eapply nth_error_In; eauto.
  - intros x Hx. apply (Hw i). exists l. auto.
Qed.

(** ** global ranks *)
Lemma top_tier_ok g scores : get_rank_scores g = Ok scores -> List.length scores = List.length g ->
  exists top, get_top_tier_nodes g = Ok top /\
    ascending_list_of (fun x => exists s, nth_error scores x = Some s /\ fltb (average scores) s = true) top.
Proof.
  intros E Hl. unfold get_top_tier_nodes. rewrite E. cbn [bind]. rewrite <- Hl. fold (average scores). eexists. split; [reflexivity|]. split.
  - apply sorted_filter, range_sorted.
  - intros x. rewrite filter_In, range_in. split.
    + intros [_ H]. destruct (nth_error scores x) as [s|]; [eauto|discriminate].
    + intros (s & Es & H). rewrite Es. split; auto. split; [lia|]. apply nth_error_Some. congruence.
Qed.

Definition rank_after (g : graph) (top : list nat) (thr : option f64) (n i : nat) (q : qset) : Prop :=
  (links g i <> [] -> q = QS (calculate_threshold (List.length top) thr) top []) /\ (links g i = [] -> q = qset_new).
Lemma global_rank_visit g top thr i f r q : number_of_nodes f <= List.length g -> node_of f i q ->
  q = qset_new \/ rank_after g top thr (number_of_nodes f) i q ->
  exists f' c r' q', global_rank_qsc g top thr i f r = Ok (f', c, r') /\ node_of f' i q' /\ rank_after g top thr (number_of_nodes f) i q'.
Proof.
  intros Hlim Hq Hb. pose proof (node_of_range _ _ _ Hq) as Hi. unfold global_rank_qsc. rewrite (proj2 (get_qset_ok f i q) Hq). cbn [bind].
  destruct (qset_eqb q qset_new) eqn:Eq.
  - apply qset_eqb_eq in Eq. subst q. rewrite (nth_error_some_nth g i []) by lia. cbn [unwrap bind]. fold (links g i).
    destruct (links g i) as [|o os] eqn:El.
    + exists f, NoChange, r, qset_new. split; auto. split; auto. unfold rank_after. rewrite El. split; [congruence|auto].
    + match goal with |- context [set_qset f i ?x] => destruct (set_qset_some f i x Hi) as [f' E]; exists f', Change, r, x end.
      rewrite E. cbn [bind]. split; auto. split; [eapply set_qset_node; eauto|]. unfold rank_after. rewrite El. split; [auto|discriminate].
  - exists f, NoChange, r, q. split; auto. split; auto. destruct Hb as [->|Hb]; auto. rewrite (proj2 (qset_eqb_eq qset_new qset_new) eq_refl) in Eq. discriminate.
Qed.
Lemma global_rank_growth g top thr k s : 1 <= k -> k + number_of_nodes (sim_fbas s) <= List.length g -> generic_names (sim_fbas s) ->
  (forall i q, node_of (sim_fbas s) i q -> q = qset_new) ->
  exists s', simulate_growth (global_rank_qsc g top thr) k s = Ok s' /\ generic_names (sim_fbas s') /\
    number_of_nodes (sim_fbas s') = k + number_of_nodes (sim_fbas s) /\
    forall i q, node_of (sim_fbas s') i q ->
      ((exists j, link g i j) -> q = QS (calculate_threshold (List.length top) thr) top []) /\ ((forall j, ~ link g i j) -> q = qset_new).
Proof.
  intros Hk Hlim Hg H0.
  destruct (growth_establishes (global_rank_qsc g top thr) (fun n => n <= List.length g) (rank_after g top thr) (fun n i q => q = qset_new \/ rank_after g top thr n i q)
    (global_rank_local g top thr)) with (k := k) (s := s) as (s' & E & G & N & _ & A); auto.
  - intros i f r q Hl HB Hq. apply (global_rank_visit g top thr i f r q); auto.
  - lia.
  - intros i q Hq. left. eauto.
  - exists s'. split; auto. split; auto. split; auto. intros i q Hq. destruct (A Hk i q Hq) as [A1 A2]. split.
    + intros [j Hj]. apply A1. apply link_links in Hj. intros X. rewrite X in Hj. destruct Hj.
    + intros Hn. apply A2. destruct (links g i) as [|j l] eqn:El; auto. exfalso. apply (Hn j). apply link_links. rewrite El. left. auto.
Qed.

(** quorums: enough of the top tier, and only nodes with links *)
Lemma rank_quorums f (L : nat -> Prop) t top : 1 <= t -> NoDup top ->
  (forall i q, node_of f i q -> (L i -> q = QS t top []) /\ (~ L i -> q = qset_new)) ->
  (forall i, L i \/ ~ L i) ->
  forall S, quorum f S <-> inhabited_set S /\ (forall x, mem x S = true -> x < number_of_nodes f /\ L x) /\ t <= len (inter S (of_list top)).
Proof.
  intros Ht Hnd Hf Hdec S.
  assert (Hsl : slice (fun y => mem y S = true) (QS t top []) <-> t <= len (inter S (of_list top))).
  { rewrite <- is_quorum_slice_iff, is_quorum_slice_matches. unfold matches. cbn [filter List.length]. rewrite Nat.add_0_r.
    replace (List.length (filter (fun x => mem x S) top)) with (len (inter S (of_list top))); [intuition lia|].
    rewrite <- len_of_list by (apply NoDup_filter; auto). f_equal. apply bset_ext. intros x. apply eq_true_iff_eq.
    rewrite mem_of_list, filter_In, mem_inter, andb_true_iff, mem_of_list. tauto. }
  split.
  - intros [Hi Hq]. split; auto.
    assert (G : forall x, mem x S = true -> (x < number_of_nodes f /\ L x) /\ t <= len (inter S (of_list top))).
    { intros x Hx. destruct (Hq x Hx) as (q & Hn & Hs). pose proof (node_of_range _ _ _ Hn). destruct (Hf x q Hn) as [A B].
      destruct (Hdec x) as [HL|HL].
      - rewrite (A HL) in Hs. apply Hsl in Hs. auto.
      - rewrite (B HL) in Hs. inversion Hs; subst. lia. }
    split; [apply G|]. destruct Hi as [x Hx]. apply (G x Hx).
  - intros (Hi & Hx & Hl). split; auto. intros x Hm. destruct (Hx x Hm) as [H1 H2]. exists (qset_of f x). pose proof (qset_of_node f x H1) as Hn. split; auto.
    rewrite (proj1 (Hf x _ Hn) H2). apply Hsl. auto.
Qed.

(** ** symmetry enforcing *)
Lemma corrected_spec f i vs x : In x (corrected_validators f i vs) <-> In x vs \/ exists j, In j vs /\ listed_by f i j x.
Proof.
  unfold corrected_validators. rewrite elements_spec.
  assert (G : forall l acc, mem x (fold_left (fun corrected i0 => let corrected := insert i0 corrected in
      match nth_error (nodes f) i0 with
      | Some other_node => let other_validators := contained_nodes (node_qset other_node) in
          if mem i other_validators then union corrected other_validators else corrected
      | None => corrected end) l acc) = true <-> mem x acc = true \/ In x l \/ exists j, In j l /\ listed_by f i j x).
  { induction l as [|a l IH]; intros acc; cbn [fold_left].
    - split; auto. intros [H|[[]|(j & [] & _)]]. auto.
    - rewrite IH. clear IH. cbv zeta. destruct (nth_error (nodes f) a) as [nd|] eqn:En.
      + destruct (mem i (contained_nodes (node_qset nd))) eqn:Ei.
        * rewrite mem_union, mem_insert, !orb_true_iff, Nat.eqb_eq. apply contained_nodes_spec in Ei. rewrite contained_nodes_spec. cbn [In]. split.
          -- intros [[[->|H]|H]|[H|(j & Hj & Hl)]]; auto.
             ++ right. right. exists a. split; auto. exists (node_qset nd). split; [exists nd; auto|auto].
             ++ right. right. exists j. auto.
          -- intros [H|[[<-|H]|(j & [<-|Hj] & Hl)]]; auto.
             ++ destruct Hl as (q & (nd' & E' & <-) & _ & Hx). rewrite En in E'. injection E' as <-. auto.
             ++ right. right. exists j. auto.
        * rewrite mem_insert, orb_true_iff, Nat.eqb_eq. cbn [In]. split.
          -- intros [[->|H]|[H|(j & Hj & Hl)]]; auto. right. right. exists j. auto.
          -- intros [H|[[<-|H]|(j & [<-|Hj] & Hl)]]; auto.
             ++ exfalso. destruct Hl as (q & (nd' & E' & <-) & Hi & _). rewrite En in E'. injection E' as <-. apply contained_nodes_spec in Hi. congruence.
             ++ right. right. exists j. auto.
      + rewrite mem_insert, orb_true_iff, Nat.eqb_eq. cbn [In]. split.
        * intros [[->|H]|[H|(j & Hj & Hl)]]; auto. right. right. exists j. auto.
        * intros [H|[[<-|H]|(j & [<-|Hj] & Hl)]]; auto.
          -- exfalso. destruct Hl as (q & (nd' & E' & <-) & _). congruence.
          -- right. right. exists j. auto. }
  rewrite (G vs bempty), mem_empty. intuition congruence.
Qed.

Lemma symmetric_visit g scores thr i f r f' c r' : wf_graph g -> no_repeated_links g -> List.length scores = List.length g -> connected g i ->
  higher_tier_qsc g scores thr true i f r = Ok (f', c, r') ->
  exists q, node_of f' i q /\ flat_over (fun x => x = i \/ trusted_neighbor g scores i x \/ exists j, trusted_neighbor g scores i j /\ listed_by f i j x) thr q.
Proof.
  intros Hw Hr Hs Hc. unfold higher_tier_qsc. rewrite (proj2 (connected_mem g i) Hc). cbn [negb].
  destruct (tiers_ok g scores i Hw Hr Hs (connected_lt _ _ Hw Hc)) as (h & sa & lo & E & N1 & N2 & H1 & H2). rewrite E. cbn [bind]. intros H.
  apply replace_spec in H. destruct H as (_ & Hn & _). eexists. split; [exact Hn|]. eexists. split; [|reflexivity].
  apply with_self_spec; [apply elements_nodup|]. intros x. rewrite corrected_spec, (trusted_list g scores i h sa H1 H2). split.
  - intros [H|(j & Hj & Hl)]; auto. right. exists j. split; auto. apply (trusted_list g scores i h sa H1 H2). auto.
  - intros [H|(j & Hj & Hl)]; auto. right. exists j. split; auto. apply (trusted_list g scores i h sa H1 H2). auto.
Qed.
Lemma symmetric_stable g scores thr max s s' k : wf_graph g -> no_repeated_links g -> List.length scores = List.length g ->
  simulate_global_reevaluation (higher_tier_qsc g scores thr true) max s = Ok (s', k) -> k < max ->
  forall i q, node_of (sim_fbas s') i q -> connected g i ->
    flat_over (fun x => x = i \/ trusted_neighbor g scores i x \/ exists j, trusted_neighbor g scores i j /\ listed_by (sim_fbas s') i j x) thr q.
Proof.
  intros Hw Hr Hs H Hk i q Hq Hc. destruct (higher_tier_faithful g scores thr true) as [HL HF].
  destruct (fixed_point _ _ _ _ _ HL HF H Hk i (node_of_range _ _ _ Hq)) as (r & r' & E).
  destruct (symmetric_visit g scores thr i _ r _ _ r' Hw Hr Hs Hc E) as (q' & Hq' & Hf). rewrite (node_of_fun _ _ _ _ Hq Hq'). auto.
Qed.

(** ** the full mesh *)
Lemma mesh_neighbors m k s s' : 2 <= m -> (Z.of_nat m <= 2 ^ 53)%Z -> 1 <= k -> k + number_of_nodes (sim_fbas s) = m -> generic_names (sim_fbas s) ->
  (forall i q, node_of (sim_fbas s) i q -> q = qset_new) ->
  simulate_growth (all_neighbors_qsc (new_full_mesh m) None) k s = Ok s' ->
  all_have (sim_fbas s') (QS (m - (m - 1) / 3) (seq 0 m) []).
Proof.
  intros Hm Hb Hk Hn Hg H0 E.
  assert (Hw : wf_graph (new_full_mesh m)) by (intros i j H; apply full_mesh_links in H; rewrite full_mesh_size; tauto).
  assert (Hr : no_repeated_links (new_full_mesh m)).
  { pose proof (full_mesh_ascending m) as Ha. unfold no_repeated_links, ascending_links in *. rewrite Forall_forall in *. intros l Hl. apply sorted_lt_nodup. auto. }
  destruct (all_neighbors_growth (new_full_mesh m) None k s Hk Hw Hr Hg H0) as (s1 & E1 & _ & N & A). rewrite E in E1. injection E1 as <-.
  intros i Hi. pose proof (qset_of_node _ _ Hi) as Hq. destruct (A i _ Hq) as [A1 _].
  assert (Hc : connected (new_full_mesh m) i).
  { exists (if i =? 0 then 1 else 0). left. apply full_mesh_links. destruct (Nat.eqb_spec i 0); lia. }
  destruct (A1 Hc) as (vs & [Hs Hv] & Eq). rewrite Eq in Hq.
  assert (vs = seq 0 m).
  { apply (ascending_unique (fun x => x < m)).
    - split; auto. intros x. rewrite Hv, full_mesh_links. destruct (Nat.eq_dec x i); intuition lia.
    - split; [apply seq_sorted|]. intros x. rewrite in_seq. lia. }
  subst vs. rewrite seq_length in Hq. cbn [calculate_threshold] in Hq. rewrite threshold_67p in Hq by (auto; lia). auto.
Qed.
