(** Proofs about simulations: exactly when growth panics, and exactly when [RandomQsc] changes something. *)
From Coq Require Import Lia ZArith.
From Verif Require Export P_ThSimulation Spec_Growth Examples.
Local Open Scope list_scope.

Lemma grow_cases Q s : local_configurator Q -> total_configurator Q ->
  (get_node_id (sim_fbas s) (generate_generic_node_name (number_of_nodes (sim_fbas s))) <> None /\ grow_by_one Q s = Panic) \/
  (get_node_id (sim_fbas s) (generate_generic_node_name (number_of_nodes (sim_fbas s))) = None /\
   exists s', grow_by_one Q s = Ok s' /\ number_of_nodes (sim_fbas s') = S (number_of_nodes (sim_fbas s)) /\
     pk_to_id (sim_fbas s') = (generate_generic_node_name (number_of_nodes (sim_fbas s)), number_of_nodes (sim_fbas s)) :: pk_to_id (sim_fbas s)).
Proof.
  intros HL HT. set (f := sim_fbas s). unfold get_node_id, grow_by_one, add_generic_node, add_node. cbn [node_pk]. fold f. fold (number_of_nodes f).
  destruct (assoc String.eqb (generate_generic_node_name (number_of_nodes f)) (pk_to_id f)) eqn:E; [left; split; [discriminate|reflexivity]|right]. split; auto.
  cbn [bind]. set (f1 := mk_fbas _ _).
  assert (N1 : number_of_nodes f1 = S (number_of_nodes f)) by (unfold f1, number_of_nodes; cbn; rewrite app_length; cbn; lia).
  destruct (HT (number_of_nodes f) f1 (sim_rng s)) as (f2 & c & r & E2); [lia|]. rewrite E2. cbn [bind].
  set (I := fun g => pk_to_id g = pk_to_id f1 /\ number_of_nodes g = number_of_nodes f1).
  assert (Hstep : forall i g r' g' c' r2, Q i g r' = Ok (g', c', r2) -> I g -> I g').
  { intros i g r' g' c' r2 Eg [H1 H2]. destruct (HL _ _ _ _ _ _ Eg) as (K1 & K2 & _). split; [congruence|]. rewrite <- H2.
    unfold number_of_nodes. rewrite <- (map_length node_pk (nodes g')), K2, map_length. reflexivity. }
  assert (I2 : I f2) by (eapply Hstep; [exact E2|split; reflexivity]).
  set (s2 := register_event _ _). change (sim_fbas s2) with f2.
  destruct (reevaluation_no_panic Q I (number_of_nodes f2) s2) as (s3 & k & E3 & I3).
  - intros i g r' Hi Hg. change (sim_fbas s2) with f2 in Hi. destruct (HT i g r') as (g' & c' & r2 & Eg); [destruct Hg, I2; lia|].
    exists g', c', r2. split; auto. eapply Hstep; eauto.
  - exact I2.
  - exists s3. rewrite E3. split; [reflexivity|]. destruct I3 as [H1 H2]. split; [lia|]. rewrite H1. reflexivity.
Qed.
Lemma growth_panic_names Q k : local_configurator Q -> total_configurator Q -> forall s,
  simulate_growth Q k s = Panic <->
  exists j, number_of_nodes (sim_fbas s) <= j < k + number_of_nodes (sim_fbas s) /\ get_node_id (sim_fbas s) (generate_generic_node_name j) <> None.
Proof.
  intros HL HT. induction k as [|k IH]; intros s; cbn [simulate_growth].
  - split; [discriminate|]. intros (j & Hj & _). lia.
  - destruct (grow_cases Q s HL HT) as [[Hn E]|(Hn & s' & E & N' & K')]; rewrite E; cbn [bind].
    + split; auto. intros _. exists (number_of_nodes (sim_fbas s)). split; [lia|auto].
    + rewrite IH, N'. unfold get_node_id in *. rewrite K'. split; intros (j & Hj & H); exists j.
      * split; [lia|]. cbn [assoc] in H. destruct (String.eqb_spec (generate_generic_node_name j) (generate_generic_node_name (number_of_nodes (sim_fbas s)))) as [Ej|_]; auto.
        apply generic_name_inj in Ej. lia.
      * assert (j <> number_of_nodes (sim_fbas s)) by congruence. split; [lia|]. cbn [assoc].
        destruct (String.eqb_spec (generate_generic_node_name j) (generate_generic_node_name (number_of_nodes (sim_fbas s)))) as [Ej|_]; [discriminate|auto].
Qed.
Lemma growth_panic Q k s : local_configurator Q -> total_configurator Q -> keys_ok (sim_fbas s) ->
  (simulate_growth Q k s = Panic <->
   exists j i, number_of_nodes (sim_fbas s) <= j < k + number_of_nodes (sim_fbas s) /\
     option_map node_pk (nth_error (nodes (sim_fbas s)) i) = Some (generate_generic_node_name j)).
Proof.
  intros HL HT Hk. rewrite (growth_panic_names Q k HL HT). split.
  - intros (j & Hj & H). destruct (get_node_id (sim_fbas s) (generate_generic_node_name j)) as [i|] eqn:E; [|congruence]. exists j, i. split; auto. now apply Hk.
  - intros (j & i & Hj & H). exists j. split; auto. apply Hk in H. congruence.
Qed.
Lemma replace_total conf : total_configurator (fun i f r => replace_if_different f i (conf f) r).
Proof.
  intros i f r Hi. unfold replace_if_different, get_qset, set_qset, get_quorum_set, swap_quorum_set.
  unfold number_of_nodes in Hi. apply nth_error_Some in Hi. destruct (nth_error (nodes f) i) as [n|]; [|congruence]. cbn.
  destruct (qset_eqb _ _); cbn; eauto.
Qed.
Lemma totals : total_configurator dummy_qsc /\ total_configurator ideal_qsc /\ total_configurator super_safe_qsc.
Proof.
  split; [intros i f r _; unfold dummy_qsc; eauto|]. split; [exact (replace_total ideal_configuration)|].
  intros i f r. unfold super_safe_qsc. apply (replace_total).
Qed.

Lemma random_exact p i f r f' c r' q : node_of f i q -> (Z.of_nat (Nat.min (desired_quorum_set_size p) (number_of_nodes f)) <= 2 ^ 53)%Z ->
  random_qsc p i f r = Ok (f', c, r') ->
  let d := desired_quorum_set_size p in let n := number_of_nodes f in let old := List.length (members_before i q) in
  (c = Change <-> old < d) /\
  (changed i f f' <-> validators q = [] \/ (old < d /\ (old < n \/ requested_threshold p (Nat.min d n) <> threshold q))).
Proof.
  intros Hq Hb E d n old. destruct (random_spec p i f r f' c r' q Hq Hb E) as (added & t & _ & Hn' & H1 & H2). fold d n old in H1, H2.
  split.
  { destruct (Nat.lt_ge_cases old d) as [Hlt|Hge]; [destruct (H1 Hlt) as (_ & _ & ->); tauto|destruct (H2 Hge) as (_ & _ & ->); split; [discriminate|lia]]. }
  assert (Hch : changed i f f' <-> q <> QS t (members_before i q ++ added) (inner_quorum_sets q)).
  { split.
    - intros (q1 & q2 & A & B & C). pose proof (node_of_fun _ _ _ _ A Hq). pose proof (node_of_fun _ _ _ _ B Hn'). congruence.
    - intros H. exists q. eexists. split; auto. split; [exact Hn'|auto]. }
  rewrite Hch. destruct (validators q) as [|v vs] eqn:Ev.
  { split; [auto|]. intros _ X. apply (f_equal (@List.length nat)) in Ev. rewrite X in Ev. cbn in Ev. unfold members_before in Ev.
    destruct (validators q); cbn in Ev; lia. }
  assert (Em : members_before i q = validators q) by (unfold members_before; rewrite Ev; reflexivity). unfold old in *. clear old. rewrite Em in *.
  destruct (Nat.lt_ge_cases (List.length (validators q)) d) as [Hlt|Hge].
  - destruct (H1 Hlt) as (A1 & -> & _). split.
    + intros H. right. split; auto. destruct (Nat.lt_ge_cases (List.length (validators q)) n) as [|Hn]; [now left|right].
      intros X. apply H. assert (added = []) as -> by (destruct added; auto; cbn in A1; lia). rewrite X, app_nil_r. destruct q; auto.
    + intros [H|[_ Hor]] X; [discriminate|]. destruct Hor as [Hn|Hn].
      * assert (L : List.length (validators q) = List.length (validators q ++ added)) by (rewrite X at 1; reflexivity). rewrite app_length in L. lia.
      * apply Hn. apply (f_equal threshold) in X. cbn in X. symmetry. exact X.
  - destruct (H2 Hge) as (-> & -> & _). split.
    + intros H. exfalso. apply H. rewrite app_nil_r. destruct q; auto.
    + intros [H|[H _]]; [discriminate|lia].
Qed.

Definition taken2 : fbas := mk_fbas [mk_node "n2"%string qset_new] [("n2"%string, 0)].
Lemma taken_later : exists f, keys_ok f /\ simulate_growth super_safe_qsc 2 (mk_sim f [] zeros) = Panic /\
  simulate_growth super_safe_qsc 1 (mk_sim f [] zeros) <> Panic.
Proof.
  exists taken2. split; [|split; [vm_compute; reflexivity|vm_compute; discriminate]]. intros pk i. unfold get_node_id, taken2. cbn [pk_to_id nodes assoc].
  destruct (String.eqb_spec pk "n2"%string) as [->|Hne].
  - destruct i as [|i]; cbn; [tauto|]. split; [discriminate|destruct i; discriminate].
  - split; [discriminate|]. destruct i as [|i]; cbn; [congruence|destruct i; discriminate].
Qed.
Lemma random_both : exists f' r', random_qsc (random_qsc_simple 3) 0 flat zeros = Ok (f', NoChange, r') /\
  exists f2 r2, random_qsc (random_qsc_simple 4) 0 flat zeros = Ok (f2, Change, r2) /\ changed 0 flat f2.
Proof.
  do 2 eexists. split; [vm_compute; reflexivity|]. do 2 eexists. split; [vm_compute; reflexivity|].
  do 2 eexists. split; [eexists; split; reflexivity|]. split; [eexists; split; reflexivity|]. vm_compute. discriminate.
Qed.

(** reports of [GlobalRankQsc] *)
Lemma global_rank_exact g top thr : faithful (global_rank_qsc g top thr) <->
  top <> [] \/ thr <> None \/ forall i l, nth_error g i = Some l -> l = [].
Proof.
  split.
  - intros H. destruct top as [|x top]; [|left; discriminate]. destruct thr as [y|]; [right; left; discriminate|]. right. right.
    intros i l El. destruct l as [|o l]; auto. exfalso.
    set (f := mk_fbas (repeat (mk_node EmptyString qset_new) (S i)) []).
    assert (Hn : nth_error (nodes f) i = Some (mk_node EmptyString qset_new)).
    { destruct (nth_error (nodes f) i) as [m|] eqn:E; [apply nth_error_In in E; apply repeat_spec in E; now subst|].
      apply nth_error_None in E. cbn in E. rewrite repeat_length in E. lia. }
    assert (Hi : i < number_of_nodes f) by (apply nth_error_Some; congruence).
    assert (Hq : node_of f i qset_new) by (eexists; split; [exact Hn|reflexivity]).
    destruct (set_qset_some f i qset_new Hi) as [f' Ef].
    assert (E : global_rank_qsc g [] None i f zeros = Ok (f', Change, zeros)).
    { unfold global_rank_qsc. rewrite (proj2 (get_qset_ok f i qset_new) Hq). cbn [bind].
      assert (qset_eqb qset_new qset_new = true) as -> by now apply qset_eqb_eq. rewrite El. cbn [unwrap bind].
      replace (QS (calculate_threshold (@List.length nat []) None) [] (inner_quorum_sets qset_new)) with qset_new by (vm_compute; reflexivity).
      rewrite Ef. reflexivity. }
    destruct (proj1 (H _ _ _ _ _ _ E) eq_refl) as (q & q' & A & B & C). apply C.
    rewrite (node_of_fun _ _ _ _ A Hq). symmetry. exact (node_of_fun _ _ _ _ B (set_qset_node _ _ _ _ Ef)).
  - intros [H|[H|H]]; [apply global_rank_faithful; auto|apply global_rank_faithful; auto|].
    intros i f r f' c r'. unfold global_rank_qsc. destruct (get_qset f i) as [q0|] eqn:E0; [|discriminate]. cbn [bind]. apply get_qset_ok in E0.
    assert (Same : forall f1 c1 r1, Ok (f, NoChange, r) = Ok (f1, c1, r1) -> c1 = Change <-> changed i f f1).
    { intros f1 c1 r1 E. injection E as <- <- <-. split; [discriminate|]. intros X. exfalso. eapply not_changed_refl; eauto. }
    destruct (qset_eqb q0 qset_new) eqn:Eq; [|apply Same].
    destruct (nth_error g i) as [l|] eqn:El; [|discriminate]. rewrite (H i l El). cbn [unwrap bind]. apply Same.
Qed.
