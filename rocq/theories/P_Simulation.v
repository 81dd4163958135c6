(** Proofs about simulations. *)
From Coq Require Import ZArith.
From Verif Require Import Spec_Simulation P_List P_Builder P_QuorumSet P_Quorum P_SimGraph P_Shuffle P_Float.
Local Open Scope list_scope.
Local Open Scope nat_scope.

(** ** visits *)
Lemma visits_app Q l1 : forall l2 f f1 f2, visits Q l1 f f1 -> visits Q l2 f1 f2 -> visits Q (l1 ++ l2) f f2.
Proof.
  induction l1 as [|v l1 IH]; intros l2 f f1 f2 H1 H2; inversion H1; subst; auto. cbn. econstructor; eauto.
Qed.

Lemma round_ok Q order : forall s any s' c, foldM (reevaluation_step Q) (s, any) order = Ok (s', c) ->
  exists round, map fst round = order /\ sim_log s' = sim_log s ++ map (fun v => QuorumSetChange (fst v) (snd v)) round /\
    visits Q round (sim_fbas s) (sim_fbas s') /\ (c = NoChange <-> any = NoChange /\ stable round).
Proof.
  induction order as [|i order IH]; intros s any s' c H; cbn [foldM] in H.
  - injection H as <- <-. exists []. cbn. rewrite app_nil_r. split; auto. split; auto. split; [constructor|].
    split; [intros; split; auto; intros v []|tauto].
  - unfold reevaluation_step at 1 in H. destruct (Q i (sim_fbas s) (sim_rng s)) as [[[f1 c1] r1]|] eqn:E; [|discriminate]. cbn [bind] in H.
    destruct (IH _ _ _ _ H) as (round & Hm & Hl & Hv & Hs). exists ((i, c1) :: round). cbn [map fst snd]. rewrite Hm. split; auto.
    cbn [sim_log sim_fbas] in *. split; [rewrite Hl, <- app_assoc; reflexivity|]. split; [econstructor; eauto|].
    rewrite Hs. unfold stable. cbn [In]. destruct any, c1; cbn [update_change]; split; intros [A B]; try discriminate; split; auto.
    + exfalso. specialize (B (i, Change)). cbn in B. discriminate B. auto.
    + intros v [<-|Hv']; auto.
Qed.

Lemma rounds_ok Q n fuel : forall order next s s' k, Permutation order (seq 0 n) ->
  reevaluation_rounds fuel Q order next s = Ok (s', k) ->
  exists rounds, k = next + List.length rounds /\ List.length rounds <= fuel /\
    sim_log s' = sim_log s ++ flat_map round_events rounds /\
    Forall (visits_all n) rounds /\ visits Q (concat rounds) (sim_fbas s) (sim_fbas s') /\
    (forall early last, rounds = early ++ [last] -> Forall (fun round => ~ stable round) early /\ (List.length rounds < fuel -> stable last)) /\
    (0 < fuel -> rounds <> []).
Proof.
  induction fuel as [|fuel IH]; intros order next s s' k Ho H; cbn [reevaluation_rounds] in H.
  - injection H as <- <-. exists []. cbn. rewrite app_nil_r. repeat split; auto; try lia; try constructor; destruct early; discriminate.
  - pose proof (shuffle_perm order (sim_rng s)) as Hp. destruct (shuffle order (sim_rng s)) as [order' r]. cbn [fst] in Hp.
    unfold simulate_global_reevaluation_round in H.
    destruct (foldM (reevaluation_step Q) _ order') as [[s1 c]|] eqn:E; [|discriminate]. cbn [bind] in H.
    apply round_ok in E. destruct E as (round & Hm & Hl & Hv & Hs). cbn in Hl, Hv.
    assert (Hall : visits_all n round) by (unfold visits_all; rewrite Hm; etransitivity; eauto).
    destruct c; cbn [had_change] in H.
    + apply IH in H; [|etransitivity; eauto]. destruct H as (rounds & Hk & Hle & Hl' & Hf & Hv' & Hst & Hne).
      exists (round :: rounds). cbn [List.length flat_map concat].
      split; [lia|]. split; [lia|]. split; [rewrite Hl', Hl; unfold round_events; cbn; rewrite <- !app_assoc; reflexivity|].
      split; [constructor; auto|]. split; [eapply visits_app; eauto|]. split; [|discriminate].
      intros early last Hr.
      assert (Hn : ~ stable round) by (intros X; assert (Change = NoChange) by (apply Hs; auto); discriminate).
      destruct early as [|e early]; cbn in Hr; injection Hr as <- Hr.
      * split; [constructor|]. subst rounds. intros Hlt. cbn in Hlt. exfalso. apply Hne; [lia|auto].
      * destruct (Hst _ _ Hr) as [A B]. split; [constructor; auto|]. intros. apply B. lia.
    + injection H as <- <-. exists [round]. cbn. rewrite !app_nil_r. split; [lia|]. split; [lia|].
      split; [rewrite Hl, <- app_assoc; reflexivity|].
      split; [repeat constructor; auto|]. split; auto. split; [|discriminate].
      intros early last Hr. destruct early as [|e early]; [|destruct early; discriminate]. cbn in Hr. injection Hr as <-.
      split; [constructor|]. intros _. apply Hs; auto.
Qed.

Lemma reevaluation_ok Q max s s' k : simulate_global_reevaluation Q max s = Ok (s', k) ->
  exists rounds, List.length rounds = k /\ k <= max /\ (0 < max -> 0 < k) /\
    sim_log s' = sim_log s ++ StartGlobalReevaluation :: flat_map round_events rounds ++ [FinishGlobalReevaluation k] /\
    Forall (visits_all (number_of_nodes (sim_fbas s))) rounds /\ visits Q (concat rounds) (sim_fbas s) (sim_fbas s') /\
    (forall early last, rounds = early ++ [last] -> Forall (fun round => ~ stable round) early /\ (k < max -> stable last)).
Proof.
  unfold simulate_global_reevaluation. destruct (reevaluation_rounds _ _ _ _ _) as [[s1 k1]|] eqn:E; [|discriminate]. cbn [bind].
  intros H. injection H as <- <-. apply (rounds_ok Q (number_of_nodes (sim_fbas s))) in E; [|unfold range; rewrite Nat.sub_0_r; auto].
  destruct E as (rounds & Hk & Hle & Hl & Hf & Hv & Hst & Hne). exists rounds. cbn in Hk. subst k1.
  split; auto. split; auto. split. { intros H. specialize (Hne H). destruct rounds; [congruence|cbn; lia]. }
  cbn [sim_log register_event sim_fbas] in *. split; [rewrite Hl, <- !app_assoc; reflexivity|]. auto.
Qed.

(** ** no panics *)
Lemma round_no_panic Q (I : fbas -> Prop) order : (forall i f r, In i order -> I f -> exists f' c r', Q i f r = Ok (f', c, r') /\ I f') ->
  forall s any, I (sim_fbas s) -> exists s' c, foldM (reevaluation_step Q) (s, any) order = Ok (s', c) /\ I (sim_fbas s').
Proof.
  intros HQ. induction order as [|i order IH]; intros s any Hs; cbn [foldM]; [eauto|].
  unfold reevaluation_step at 1. destruct (HQ i (sim_fbas s) (sim_rng s)) as (f1 & c1 & r1 & E & H1); auto; [left; auto|]. rewrite E. cbn [bind].
  apply IH; auto. intros. apply HQ; auto. right. auto.
Qed.
Lemma rounds_no_panic Q (I : fbas -> Prop) n fuel : (forall i f r, i < n -> I f -> exists f' c r', Q i f r = Ok (f', c, r') /\ I f') ->
  forall order next s, Permutation order (seq 0 n) -> I (sim_fbas s) ->
  exists s' k, reevaluation_rounds fuel Q order next s = Ok (s', k) /\ I (sim_fbas s').
Proof.
  intros HQ. induction fuel as [|fuel IH]; intros order next s Ho Hs; cbn [reevaluation_rounds]; [eauto|].
  pose proof (shuffle_perm order (sim_rng s)) as Hp. destruct (shuffle order (sim_rng s)) as [order' r]. cbn [fst] in Hp.
  unfold simulate_global_reevaluation_round.
  destruct (round_no_panic Q I order') with (s := register_event StartGlobalReevaluationRound (mk_sim (sim_fbas s) (sim_log s) r)) (any := NoChange) as (s1 & c & E & H1); auto.
  { intros i f r0 Hi. apply HQ. rewrite Hp, Ho in Hi. apply in_seq in Hi. lia. }
  rewrite E. cbn [bind]. destruct (had_change c); [|eauto]. apply IH; auto. etransitivity; eauto.
Qed.
Lemma reevaluation_no_panic Q (I : fbas -> Prop) max s : (forall i f r, i < number_of_nodes (sim_fbas s) -> I f -> exists f' c r', Q i f r = Ok (f', c, r') /\ I f') ->
  I (sim_fbas s) -> exists s' k, simulate_global_reevaluation Q max s = Ok (s', k) /\ I (sim_fbas s').
Proof.
  intros HQ Hs. unfold simulate_global_reevaluation.
  destruct (rounds_no_panic Q I (number_of_nodes (sim_fbas s)) max HQ (range 0 (number_of_nodes (sim_fbas s))) 0 (register_event StartGlobalReevaluation s)) as (s' & k & E & H); auto.
  { unfold range. rewrite Nat.sub_0_r. auto. }
  rewrite E. cbn [bind]. do 2 eexists. split; [reflexivity|auto].
Qed.

(** ** changing a quorum set *)
Lemma get_qset_ok f i q : get_qset f i = Ok q <-> node_of f i q.
Proof.
  unfold get_qset, get_quorum_set, node_of. destruct (nth_error (nodes f) i) as [n|]; cbn; split.
  - intros H. injection H as <-. eauto.
  - intros (n' & E & H). congruence.
  - discriminate.
  - intros (n' & E & H). discriminate.
Qed.
Lemma get_qset_some f i : i < number_of_nodes f -> get_qset f i = Ok (qset_of f i).
Proof. intros H. apply get_qset_ok. apply qset_of_node. auto. Qed.

Lemma set_qset_spec f i q f' : set_qset f i q = Ok f' ->
  exists n, nth_error (nodes f) i = Some n /\ nodes f' = update i (mk_node (node_pk n) q) (nodes f) /\ pk_to_id f' = pk_to_id f.
Proof.
  unfold set_qset. destruct (swap_quorum_set f i q) as [[f1 q1]|] eqn:E; [|discriminate]. cbn. intros H. injection H as <-.
  apply swap_spec in E. destruct E as (n & Hn & _ & Hp & Hu). eauto.
Qed.
Lemma set_qset_some f i q : i < number_of_nodes f -> exists f', set_qset f i q = Ok f'.
Proof.
  intros H. unfold set_qset, swap_quorum_set. rewrite (nth_error_some_nth (nodes f) i (mk_node EmptyString qset_new) H). cbn. eauto.
Qed.
Lemma set_qset_node f i q f' : set_qset f i q = Ok f' -> node_of f' i q.
Proof.
  intros H. apply set_qset_spec in H. destruct H as (n & Hn & Hu & _). exists (mk_node (node_pk n) q). split; auto.
  assert (L : i < List.length (nodes f)) by (apply nth_error_Some; congruence).
  rewrite Hu, nth_error_update, Nat.eqb_refl, (proj2 (Nat.ltb_lt _ _) L). auto.
Qed.
Lemma set_qset_only f i q f' : set_qset f i q = Ok f' -> changes_only i f f'.
Proof.
  intros H. apply set_qset_spec in H. destruct H as (n & Hn & Hu & Hp). split; auto. rewrite Hu. split.
  - clear Hu. revert i Hn. induction (nodes f) as [|m l IH]; intros [|i] Hn; cbn in *; try discriminate; auto.
    + injection Hn as <-. auto.
    + f_equal. auto.
  - intros j Hj. rewrite nth_error_update. destruct (Nat.eqb_spec j i); [congruence|]. destruct (Nat.eqb_spec i j); [congruence|]. auto.
Qed.
Lemma changes_only_refl i f : changes_only i f f.
Proof. split; auto. Qed.
Lemma changes_only_size i f f' : changes_only i f f' -> number_of_nodes f' = number_of_nodes f.
Proof. intros (_ & H & _). unfold number_of_nodes. rewrite <- (map_length node_pk), H, map_length. auto. Qed.
Lemma changes_only_other i j f f' q : changes_only i f f' -> j <> i -> node_of f' j q <-> node_of f j q.
Proof. intros (_ & _ & H) Hj. unfold node_of. rewrite (H j Hj). tauto. Qed.
Lemma not_changed_refl i f : ~ changed i f f.
Proof. intros (q & q' & H1 & H2 & Hne). apply Hne. eapply node_of_fun; eauto. Qed.

(** not changed means the same FBAS *)
Lemma unchanged_same i f f' : i < number_of_nodes f -> changes_only i f f' -> ~ changed i f f' -> f' = f.
Proof.
  intros Hi H Hc. pose proof (changes_only_size _ _ _ H) as Hs. destruct H as (Hp & Hk & Ho).
  assert (E : nodes f' = nodes f).
  { apply nth_error_ext_eq. intros j. destruct (Nat.eq_dec j i) as [->|Hj]; auto.
    unfold number_of_nodes in *.
    rewrite (nth_error_some_nth (nodes f') i (mk_node EmptyString qset_new)), (nth_error_some_nth (nodes f) i (mk_node EmptyString qset_new)) by lia.
    set (a := nth i (nodes f') _). set (b := nth i (nodes f) _).
    assert (Ha : nth_error (nodes f') i = Some a) by (apply nth_error_some_nth; lia).
    assert (Hb : nth_error (nodes f) i = Some b) by (apply nth_error_some_nth; lia).
    f_equal. assert (Eq : node_qset a = node_qset b).
    { destruct (qset_eqb (node_qset a) (node_qset b)) eqn:E; [apply qset_eqb_eq; auto|]. exfalso. apply Hc.
      exists (node_qset b), (node_qset a). split; [exists b; auto|]. split; [exists a; auto|]. intros X. rewrite (proj2 (qset_eqb_eq _ _)) in E; auto. discriminate. }
    assert (Ek : Some (node_pk a) = Some (node_pk b)).
    { rewrite <- (map_nth_error node_pk _ _ Ha), <- (map_nth_error node_pk _ _ Hb), Hk. auto. }
    destruct a, b. cbn in *. congruence. }
  destruct f, f'. cbn in *. congruence.
Qed.

(** ** configurators that replace a different quorum set *)
Lemma replace_ok f i q r : i < number_of_nodes f -> exists f' c, replace_if_different f i q r = Ok (f', c, r).
Proof.
  intros H. unfold replace_if_different. rewrite (get_qset_some f i H). cbn [bind]. destruct (qset_eqb q (qset_of f i)); [eauto|].
  destruct (set_qset_some f i q H) as [f' ->]. cbn. eauto.
Qed.
Lemma replace_spec f i q r f' c r' : replace_if_different f i q r = Ok (f', c, r') ->
  changes_only i f f' /\ node_of f' i q /\ (c = Change <-> changed i f f') /\ r' = r.
Proof.
  unfold replace_if_different. destruct (get_qset f i) as [q0|] eqn:E0; [|discriminate]. cbn [bind]. apply get_qset_ok in E0.
  destruct (qset_eqb q q0) eqn:Eq.
  - intros H. injection H as <- <- <-. apply qset_eqb_eq in Eq. subst q0. split; [apply changes_only_refl|]. split; auto. split; auto.
    split; [discriminate|]. intros H. exfalso. eapply not_changed_refl; eauto.
  - destruct (set_qset f i q) as [f1|] eqn:E1; [|discriminate]. cbn. intros H. injection H as <- <- <-.
    split; [eapply set_qset_only; eauto|]. pose proof (set_qset_node _ _ _ _ E1) as Hn. split; auto. split; auto. split; auto.
    intros _. exists q0, q. split; auto. split; auto. intros X. subst q0. rewrite (proj2 (qset_eqb_eq q q) eq_refl) in Eq. discriminate.
Qed.

Lemma dummy_faithful : local_configurator dummy_qsc /\ faithful dummy_qsc.
Proof.
  split; intros i f r f' c r' H; injection H as <- <- <-.
  - apply changes_only_refl.
  - split; [discriminate|]. intros H. exfalso. eapply not_changed_refl; eauto.
Qed.
Lemma ideal_faithful : local_configurator ideal_qsc /\ faithful ideal_qsc.
Proof. split; intros i f r f' c r' H; apply replace_spec in H; tauto. Qed.
Lemma super_safe_faithful : local_configurator super_safe_qsc /\ faithful super_safe_qsc.
Proof. split; intros i f r f' c r' H; apply replace_spec in H; tauto. Qed.
Lemma higher_tier_faithful g scores thr sym : local_configurator (higher_tier_qsc g scores thr sym) /\ faithful (higher_tier_qsc g scores thr sym).
Proof.
  assert (G : forall i f r f' c r', higher_tier_qsc g scores thr sym i f r = Ok (f', c, r') -> changes_only i f f' /\ (c = Change <-> changed i f f')).
  { intros i f r f' c r'. unfold higher_tier_qsc. destruct (mem i (get_connected_nodes g)); cbn [negb].
    - destruct (get_neighbors_by_tierness g scores i) as [[[h sa] lo]|]; [|discriminate]. cbn [bind]. intros H. apply replace_spec in H. tauto.
    - intros H. injection H as <- <- <-. split; [apply changes_only_refl|]. split; [discriminate|]. intros H. exfalso. eapply not_changed_refl; eauto. }
  split; intros i f r f' c r' H; apply G in H; tauto.
Qed.

Lemma with_self_in i vs x : In x (with_self i vs) <-> x = i \/ In x vs.
Proof.
  unfold with_self. rewrite sort_by_in. destruct (existsb (Nat.eqb i) vs) eqn:E.
  - apply existsb_exists in E. destruct E as (y & Hy & Ey). apply Nat.eqb_eq in Ey. subst y. split; auto. intros [->|H]; auto.
  - rewrite in_app_iff. cbn. intuition congruence.
Qed.
Lemma with_self_nonempty i vs : with_self i vs <> [].
Proof. intros H. assert (In i (with_self i vs)) by (apply with_self_in; auto). rewrite H in H0. destruct H0. Qed.

Lemma all_neighbors_faithful g thr : local_configurator (all_neighbors_qsc g thr) /\ faithful (all_neighbors_qsc g thr).
Proof.
  assert (G : forall i f r f' c r', all_neighbors_qsc g thr i f r = Ok (f', c, r') -> changes_only i f f' /\ (c = Change <-> changed i f f')).
  { intros i f r f' c r'. unfold all_neighbors_qsc. destruct (get_qset f i) as [q0|] eqn:E0; [|discriminate]. cbn [bind]. apply get_qset_ok in E0.
    destruct (mem i (get_connected_nodes g) && qset_eqb q0 qset_new) eqn:Eb.
    - apply andb_prop in Eb. destruct Eb as [_ Eq]. apply qset_eqb_eq in Eq. subst q0.
      destruct (nth_error g i) as [nb|]; [|discriminate]. cbn [unwrap bind].
      destruct (set_qset f i _) as [f1|] eqn:E1; [|discriminate]. cbn [bind]. intros H. injection H as <- <- <-.
      split; [eapply set_qset_only; eauto|]. split; auto. intros _. eexists _, _. split; [exact E0|]. split; [eapply set_qset_node; eauto|].
      cbn. intros X. injection X as _ X. symmetry in X. eapply with_self_nonempty; eauto.
    - intros H. injection H as <- <- <-. split; [apply changes_only_refl|]. split; [discriminate|]. intros H. exfalso. eapply not_changed_refl; eauto. }
  split; intros i f r f' c r' H; apply G in H; tauto.
Qed.

Lemma global_rank_local g top thr : local_configurator (global_rank_qsc g top thr).
Proof.
  intros i f r f' c r'. unfold global_rank_qsc. destruct (get_qset f i) as [q0|] eqn:E0; [|discriminate]. cbn [bind].
  destruct (qset_eqb q0 qset_new); [|intros H; injection H as <- <- <-; apply changes_only_refl].
  destruct (nth_error g i) as [[|o os]|]; [|cbn [unwrap bind]|discriminate]; cbn [unwrap bind].
  - intros H; injection H as <- <- <-; apply changes_only_refl.
  - destruct (set_qset f i _) as [f1|] eqn:E1; [|discriminate]. cbn [bind]. intros H; injection H as <- <- <-. eapply set_qset_only; eauto.
Qed.
Lemma global_rank_faithful g top thr : top <> [] \/ thr <> None -> faithful (global_rank_qsc g top thr).
Proof.
  intros Ht i f r f' c r'. unfold global_rank_qsc. destruct (get_qset f i) as [q0|] eqn:E0; [|discriminate]. cbn [bind]. apply get_qset_ok in E0.
  assert (Same : forall f1 c1 r1, Ok (f, NoChange, r) = Ok (f1, c1, r1) -> c1 = Change <-> changed i f f1).
  { intros f1 c1 r1 H. injection H as <- <- <-. split; [discriminate|]. intros H. exfalso. eapply not_changed_refl; eauto. }
  destruct (qset_eqb q0 qset_new) eqn:Eq; [|apply Same].
  apply qset_eqb_eq in Eq. subst q0.
  destruct (nth_error g i) as [[|o os]|]; [|cbn [unwrap bind]|discriminate]; cbn [unwrap bind]; [apply Same|].
  destruct (set_qset f i _) as [f1|] eqn:E1; [|discriminate]. cbn [bind]. intros H; injection H as <- <- <-.
  split; auto. intros _. eexists _, _. split; [exact E0|]. split; [eapply set_qset_node; eauto|].
  intros X. injection X as Hthr Htop. subst top. destruct thr as [x|].
  - cbn [calculate_threshold] in Hthr. pose proof (x_threshold_pos (List.length (@nil nat)) x). cbn [List.length] in *. lia.
  - destruct Ht; congruence.
Qed.

(** ** stable rounds *)
Lemma visits_size Q l f f' : local_configurator Q -> visits Q l f f' -> number_of_nodes f' = number_of_nodes f.
Proof. intros HQ H. induction H; auto. rewrite IHvisits. eapply changes_only_size; eauto. Qed.
Lemma visits_names Q l f f' : local_configurator Q -> visits Q l f f' -> map node_pk (nodes f') = map node_pk (nodes f) /\ pk_to_id f' = pk_to_id f.
Proof.
  intros HQ H. induction H; auto. destruct (HQ _ _ _ _ _ _ H) as (A & B & _). destruct IHvisits. split; congruence.
Qed.
Lemma stable_same Q n round f f' : local_configurator Q -> faithful Q -> (forall v, In v round -> fst v < n) -> number_of_nodes f = n ->
  visits Q round f f' -> stable round -> f' = f.
Proof.
  intros HL HF Hn Hf H. induction H as [|i c l f r f1 r1 f2 E H IH]; intros Hs; auto.
  assert (c = NoChange) by (apply (Hs (i, c)); left; auto). subst c.
  assert (f1 = f).
  { apply (unchanged_same i); [|eapply HL; eauto|].
    - rewrite Hf. apply (Hn (i, NoChange)). left. auto.
    - intros X. apply (HF _ _ _ _ _ _ E) in X. discriminate. }
  subst f1. apply IH; auto.
  - intros; apply Hn; right; auto.
  - intros v Hv. apply Hs. right. auto.
Qed.
Lemma stable_visits Q n round f f' : local_configurator Q -> faithful Q -> (forall v, In v round -> fst v < n) -> number_of_nodes f = n ->
  visits Q round f f' -> stable round -> forall i, In i (map fst round) -> exists r r', Q i f r = Ok (f, NoChange, r').
Proof.
  intros HL HF Hn Hf H. induction H as [|i c l f r f1 r1 f2 E H IH]; intros Hs j Hj; [destruct Hj|].
  assert (c = NoChange) by (apply (Hs (i, c)); left; auto). subst c.
  assert (f1 = f).
  { apply (unchanged_same i); [|eapply HL; eauto|].
    - rewrite Hf. apply (Hn (i, NoChange)). left. auto.
    - intros X. apply (HF _ _ _ _ _ _ E) in X. discriminate. }
  subst f1. destruct Hj as [<-|Hj]; [cbn; eauto|]. apply IH; auto.
  - intros; apply Hn; right; auto.
  - intros v Hv. apply Hs. right. auto.
Qed.
Lemma visits_app_inv Q l1 : forall l2 f f2, visits Q (l1 ++ l2) f f2 -> exists f1, visits Q l1 f f1 /\ visits Q l2 f1 f2.
Proof.
  induction l1 as [|v l1 IH]; intros l2 f f2 H; cbn in H; [exists f; split; [constructor|auto]|].
  inversion H; subst. destruct (IH _ _ _ H5) as (f3 & A & B). exists f3. split; auto. econstructor; eauto.
Qed.

Lemma fixed_point Q max s s' k : local_configurator Q -> faithful Q -> simulate_global_reevaluation Q max s = Ok (s', k) -> k < max ->
  forall i, i < number_of_nodes (sim_fbas s') -> exists r r', Q i (sim_fbas s') r = Ok (sim_fbas s', NoChange, r').
Proof.
  intros HL HF H Hk. apply reevaluation_ok in H. destruct H as (rounds & Hlen & Hle & Hpos & _ & Hall & Hv & Hst).
  assert (rounds <> []) by (destruct rounds; [cbn in Hlen; lia|discriminate]).
  destruct (exists_last H) as (early & last & ->). destruct (Hst _ _ eq_refl) as [_ Hs]. specialize (Hs Hk).
  rewrite concat_app in Hv. cbn in Hv. rewrite app_nil_r in Hv.
  apply visits_app_inv in Hv. destruct Hv as (f1 & V1 & V2). apply Forall_app in Hall. destruct Hall as [_ Hall]. inversion Hall as [|? ? Ha]; subst. clear Hall.
  pose proof (visits_size _ _ _ _ HL V1) as S1. pose proof (visits_size _ _ _ _ HL V2) as S2.
  assert (Hn : forall v, In v last -> fst v < number_of_nodes (sim_fbas s)).
  { intros v Hv. assert (Hi : In (fst v) (seq 0 (number_of_nodes (sim_fbas s)))) by (rewrite <- Ha; apply in_map; auto). apply in_seq in Hi. lia. }
  pose proof (stable_same _ _ _ _ _ HL HF Hn S1 V2 Hs) as E. rewrite E. intros i Hi.
  eapply stable_visits; eauto. rewrite Ha. apply in_seq. lia.
Qed.

(** ** growth *)
Lemma growth_log_ok Q k : local_configurator Q -> forall s s', simulate_growth Q k s = Ok s' ->
  exists blocks log, List.length blocks = k /\ sim_log s' = sim_log s ++ log /\ growth_log (number_of_nodes (sim_fbas s)) blocks log.
Proof.
  intros HL. induction k as [|k IH]; intros s s' H; cbn [simulate_growth] in H.
  - injection H as <-. exists [], []. rewrite app_nil_r. split; auto. split; auto. constructor.
  - destruct (grow_by_one Q s) as [s1|] eqn:E; [|discriminate]. cbn [bind] in H. apply IH in H. destruct H as (blocks & log & Hl & Hlog & Hg).
    unfold grow_by_one in E. destruct (add_generic_node (sim_fbas s) qset_new) as [[f1 i]|] eqn:Ea; [|discriminate]. cbn [bind] in E.
    assert (Hadd : i = number_of_nodes (sim_fbas s) /\ number_of_nodes f1 = S i).
    { unfold add_generic_node in Ea. pose proof (add_node_spec _ _ _ _ Ea) as (-> & _ & En & _). unfold number_of_nodes. rewrite En, app_length. cbn. split; auto. lia. }
    destruct Hadd as [-> L1]. destruct (Q _ f1 (sim_rng s)) as [[[f2 c] r]|] eqn:EQ; [|discriminate]. cbn [bind] in E.
    pose proof (changes_only_size _ _ _ (HL _ _ _ _ _ _ EQ)) as L2.
    destruct (simulate_global_reevaluation _ _ _) as [[s2 rounds_made]|] eqn:Er; [|discriminate]. cbn in E. injection E as ->.
    apply reevaluation_ok in Er. destruct Er as (rounds & Hlen & Hle & Hpos & Hlog1 & Hall & Hv & _). cbn [sim_fbas register_event sim_log] in *.
    pose proof (visits_size _ _ _ _ HL Hv) as L3.
    exists (rounds :: blocks). eexists. split; [cbn; lia|]. split.
    2:{ apply growth_one; [rewrite L2, L1 in Hall; exact Hall|rewrite Hlen; lia|]. rewrite L3, L2, L1 in Hg. exact Hg. }
    rewrite Hlog, Hlog1, Hlen. rewrite <- !app_assoc. cbn. rewrite <- !app_assoc. reflexivity.
Qed.

(** ** uniform configurators *)
Definition uniform (conf : nat -> qset) : configurator := fun i f r => replace_if_different f i (conf (number_of_nodes f)) r.
Lemma uniform_faithful conf : local_configurator (uniform conf) /\ faithful (uniform conf).
Proof. split; intros i f r f' c r' H; apply replace_spec in H; tauto. Qed.

Lemma visits_uniform conf l f f' : visits (uniform conf) l f f' -> let q := conf (number_of_nodes f) in
  forall j, (In j (map fst l) -> node_of f' j q) /\ (node_of f j q -> node_of f' j q).
Proof.
  intros H. induction H as [|i c l f r f1 r1 f2 E H IH]; cbn; intros j; [tauto|].
  apply replace_spec in E. destruct E as (Ho & Hn & _ & _). rewrite (changes_only_size _ _ _ Ho) in IH. cbn in IH.
  assert (G : node_of f j (conf (number_of_nodes f)) -> node_of f1 j (conf (number_of_nodes f))).
  { intros Hj. destruct (Nat.eq_dec j i) as [->|Hne]; auto. apply (changes_only_other i j f f1); auto. }
  split.
  - intros [<-|Hj]; [apply (proj2 (IH _)); auto|apply (proj1 (IH _)); auto].
  - intros Hj. apply (proj2 (IH _)). auto.
Qed.

Lemma names_keys f f' : map node_pk (nodes f') = map node_pk (nodes f) -> pk_to_id f' = pk_to_id f -> generic_names f -> generic_names f'.
Proof.
  intros Hm Hp (Hk & Hg).
  assert (A : forall i, option_map node_pk (nth_error (nodes f') i) = option_map node_pk (nth_error (nodes f) i)).
  { intros i. rewrite <- !nth_error_map, Hm. auto. }
  split.
  - intros pk i. unfold get_node_id. rewrite Hp, A. apply Hk.
  - intros i n Hn. specialize (A i). rewrite Hn in A. cbn in A. destruct (nth_error (nodes f) i) as [m|] eqn:Em; [|discriminate].
    cbn in A. injection A as ->. eauto.
Qed.

Lemma grow_uniform conf s : generic_names (sim_fbas s) ->
  exists s', grow_by_one (uniform conf) s = Ok s' /\ generic_names (sim_fbas s') /\
    number_of_nodes (sim_fbas s') = S (number_of_nodes (sim_fbas s)) /\ all_have (sim_fbas s') (conf (number_of_nodes (sim_fbas s'))).
Proof.
  intros [Hk Hg]. unfold grow_by_one. destruct (add_generic_ok (sim_fbas s) qset_new Hk Hg) as (f1 & E1 & Hk1 & Hg1 & Hn1). rewrite E1. cbn [bind].
  assert (L1 : number_of_nodes f1 = S (number_of_nodes (sim_fbas s))) by (unfold number_of_nodes; rewrite Hn1, app_length; cbn; lia).
  fold (number_of_nodes (sim_fbas s)).
  destruct (uniform_faithful conf) as [HL HF].
  destruct (replace_ok f1 (number_of_nodes (sim_fbas s)) (conf (number_of_nodes f1)) (sim_rng s)) as (f2 & c2 & E2); [lia|].
  unfold uniform at 1. rewrite E2. cbn [bind]. apply replace_spec in E2. destruct E2 as (Ho & _ & _ & _).
  set (s2 := register_event _ _). cbn [sim_fbas] in s2. 
  assert (L2 : number_of_nodes f2 = S (number_of_nodes (sim_fbas s))) by (rewrite (changes_only_size _ _ _ Ho); auto).
  assert (G2 : generic_names f2) by (destruct Ho as (A & B & _); apply (names_keys f1); auto; split; auto).
  destruct (reevaluation_no_panic (uniform conf) (fun f => number_of_nodes f = number_of_nodes f2) (number_of_nodes f2) s2) as (s3 & k & E3 & L3).
  - intros i f r Hi Hf. cbn in Hi. destruct (replace_ok f i (conf (number_of_nodes f)) r) as (f' & c & E); [lia|].
    exists f', c, r. split; auto. apply replace_spec in E. destruct E as (Hc & _). rewrite (changes_only_size _ _ _ Hc). auto.
  - auto.
  - replace (number_of_nodes (sim_fbas s2)) with (number_of_nodes f2) by auto. rewrite E3. cbn [res_map bind fst]. exists s3. split; auto.
    apply reevaluation_ok in E3. destruct E3 as (rounds & Hlen & Hle & Hpos & _ & Hall & Hv & _). cbn [sim_fbas s2 register_event] in *.
    destruct (visits_names _ _ _ _ HL Hv) as [N1 N2]. split; [apply (names_keys f2); auto|]. split; [lia|].
    intros i Hi. rewrite L3 in Hi |- *. apply (proj1 (visits_uniform conf _ _ _ Hv i)). destruct rounds as [|round rounds]; [cbn in Hlen; lia|].
    cbn [concat]. rewrite map_app, in_app_iff. left. inversion Hall as [|? ? Ha]; subst. rewrite Ha. apply in_seq. cbn. lia.
Qed.

Lemma growth_uniform conf k : forall s, generic_names (sim_fbas s) ->
  exists s', simulate_growth (uniform conf) k s = Ok s' /\ generic_names (sim_fbas s') /\
    number_of_nodes (sim_fbas s') = k + number_of_nodes (sim_fbas s) /\ (1 <= k -> all_have (sim_fbas s') (conf (number_of_nodes (sim_fbas s')))).
Proof.
  induction k as [|k IH]; intros s Hs; cbn [simulate_growth].
  - exists s. split; auto. split; auto. split; auto. lia.
  - destruct (grow_uniform conf s Hs) as (s1 & E1 & G1 & N1 & A1). rewrite E1. cbn [bind].
    destruct (IH s1 G1) as (s' & E & G & N & A). exists s'. split; auto. split; auto. split; [lia|]. intros _.
    destruct k as [|k]; [|apply A; lia]. cbn in E. injection E as <-. auto.
Qed.

(** ** flat quorum sets over all nodes *)
Lemma flat_slice t n s : is_quorum_slice (QS t (range 0 n) []) s = true <-> 1 <= t /\ t <= len (inter s (below n)).
Proof.
  rewrite is_quorum_slice_matches. unfold matches. cbn [filter List.length]. rewrite Nat.add_0_r.
  replace (List.length (filter (fun x => mem x s) (range 0 n))) with (len (inter s (below n))); [tauto|].
  rewrite <- len_of_list by (apply NoDup_filter, range_nodup). f_equal. apply bset_ext. intros x. apply eq_true_iff_eq.
  rewrite mem_of_list, filter_In, range_in, mem_inter, andb_true_iff, mem_below. intuition lia.
Qed.

Lemma flat_quorum f t n : n = number_of_nodes f -> 1 <= t -> all_have f (QS t (range 0 n) []) ->
  forall S, quorum f S <-> (forall x, mem x S = true -> x < n) /\ t <= len S.
Proof.
  intros Hn Ht Ha S.
  assert (Hi : (forall x, mem x S = true -> x < n) -> inter S (below n) = S).
  { intros H. apply bset_ext. intros x. rewrite mem_inter. destruct (mem x S) eqn:E; auto. cbn. apply mem_below. auto. }
  split.
  - intros Hq. pose proof (quorum_nodes f S Hq) as Hin.
    assert (Hb : forall x, mem x S = true -> x < n) by (intros x Hx; rewrite Hn; apply mem_all_nodes; apply Hin; auto).
    split; auto. destruct Hq as ((x & Hx) & Hq). destruct (Hq x Hx) as (q & Hnq & Hs).
    assert (Eq : q = QS t (range 0 n) []) by (apply (node_of_fun f x); auto; apply Ha; specialize (Hb x Hx); lia). subst q.
    apply is_quorum_slice_iff, flat_slice in Hs. rewrite Hi in Hs by auto. lia.
  - intros [Hb Hl]. split.
    + destruct (elements S) as [|x l] eqn:E; [rewrite len_elements, E in Hl; cbn in Hl; lia|]. exists x. apply elements_spec. rewrite E. left. auto.
    + intros x Hx. exists (QS t (range 0 n) []). split; [apply Ha; specialize (Hb x Hx); lia|].
      apply is_quorum_slice_iff, flat_slice. rewrite Hi by auto. auto.
Qed.

Lemma len_diff a b : len (diff a b) + len (inter a b) = len a.
Proof.
  rewrite !len_elements. assert (H : elements (diff a b) = filter (fun x => negb (mem x b)) (elements a)).
  { apply (sorted_ext lt); [apply Nat.lt_irrefl|apply Nat.lt_trans|apply elements_sorted|apply sorted_filter, elements_sorted|].
    intros x. rewrite filter_In, !elements_spec, mem_diff, andb_true_iff. tauto. }
  assert (H' : elements (inter a b) = filter (fun x => mem x b) (elements a)).
  { apply (sorted_ext lt); [apply Nat.lt_irrefl|apply Nat.lt_trans|apply elements_sorted|apply sorted_filter, elements_sorted|].
    intros x. rewrite filter_In, !elements_spec, mem_inter, andb_true_iff. tauto. }
  rewrite H, H'. clear. induction (elements a) as [|x l IH]; auto. cbn [filter]. destruct (mem x b); cbn [negb List.length]; lia.
Qed.

Lemma flat_blocking f t n : n = number_of_nodes f -> 1 <= t <= n -> all_have f (QS t (range 0 n) []) ->
  forall B, blocking f B <-> n - t < len (inter (below n) B).
Proof.
  intros Hn Ht Ha B. pose proof (flat_quorum f t n Hn (proj1 Ht) Ha) as Hq. pose proof (len_diff (below n) B) as Hd. rewrite len_below in Hd. split.
  - intros Hb. destruct (Nat.lt_ge_cases (n - t) (len (inter (below n) B))) as [|Hge]; auto. exfalso.
    destruct (Hb (diff (below n) B)) as (x & Hx & Hx').
    + apply Hq. split; [|lia]. intros x. rewrite mem_diff, andb_true_iff, mem_below. tauto.
    + rewrite mem_diff, andb_true_iff, negb_true_iff in Hx'. destruct Hx'. congruence.
  - intros Hlt Q HQ. apply Hq in HQ. destruct HQ as [Hb Hl]. apply not_disjoint_meets.
    destruct (disjoint B Q) eqn:E; auto. exfalso.
    assert (Hle : len Q <= len (diff (below n) B)).
    { apply len_subset. intros x Hx. rewrite mem_diff, andb_true_iff, negb_true_iff, mem_below. split; auto.
      destruct (mem x B) eqn:Eb; auto. exfalso. rewrite disjoint_iff in E. eapply E; eauto. }
    lia.
Qed.

Lemma flat_intersection f t n : n = number_of_nodes f -> t <= n -> n < 2 * t -> all_have f (QS t (range 0 n) []) -> quorum_intersection f.
Proof.
  intros Hn Ht Hlt Ha. pose proof (flat_quorum f t n Hn ltac:(lia) Ha) as Hq. split.
  - exists (below n). apply Hq. rewrite len_below. split; auto. intros x. apply mem_below.
  - intros Q1 Q2 H1 H2. apply Hq in H1. apply Hq in H2. destruct H1 as [B1 L1], H2 as [B2 L2].
    apply not_disjoint_meets. destruct (disjoint Q1 Q2) eqn:E; auto. exfalso. rewrite disjoint_iff in E.
    assert (Hle : len Q1 <= len (diff (below n) Q2)).
    { apply len_subset. intros x Hx. rewrite mem_diff, andb_true_iff, negb_true_iff, mem_below. split; auto.
      destruct (mem x Q2) eqn:Eb; auto. exfalso. eapply E; eauto. }
    pose proof (len_diff (below n) Q2) as Hd. rewrite len_below in Hd.
    assert (Ei : inter (below n) Q2 = Q2).
    { apply bset_ext. intros x. rewrite mem_inter. destruct (mem x Q2) eqn:Ex; [|apply andb_false_r]. rewrite andb_true_r. apply mem_below. auto. }
    rewrite Ei in Hd. lia.
Qed.

Lemma grow_uniform_any conf s s' : grow_by_one (uniform conf) s = Ok s' ->
  number_of_nodes (sim_fbas s') = S (number_of_nodes (sim_fbas s)) /\ all_have (sim_fbas s') (conf (number_of_nodes (sim_fbas s'))).
Proof.
  intros E. destruct (uniform_faithful conf) as [HL HF]. unfold grow_by_one in E.
  destruct (add_generic_node (sim_fbas s) qset_new) as [[f1 i]|] eqn:Ea; [|discriminate]. cbn [bind] in E.
  assert (Hadd : i = number_of_nodes (sim_fbas s) /\ number_of_nodes f1 = S i).
  { unfold add_generic_node in Ea. pose proof (add_node_spec _ _ _ _ Ea) as (-> & _ & En & _). unfold number_of_nodes. rewrite En, app_length. cbn. split; auto. lia. }
  destruct Hadd as [-> L1]. destruct (uniform conf _ f1 (sim_rng s)) as [[[f2 c] r]|] eqn:EQ; [|discriminate]. cbn [bind] in E.
  pose proof (changes_only_size _ _ _ (HL _ _ _ _ _ _ EQ)) as L2.
  destruct (simulate_global_reevaluation _ _ _) as [[s2 rounds_made]|] eqn:Er; [|discriminate]. cbn in E. injection E as ->.
  apply reevaluation_ok in Er. destruct Er as (rounds & Hlen & Hle & Hpos & _ & Hall & Hv & _). cbn [sim_fbas register_event sim_log] in *.
  pose proof (visits_size _ _ _ _ HL Hv) as L3. split; [lia|].
  intros i Hi. rewrite L3 in Hi |- *. apply (proj1 (visits_uniform conf _ _ _ Hv i)). destruct rounds as [|round rounds]; [cbn in Hlen; lia|].
  cbn [concat]. rewrite map_app, in_app_iff. left. inversion Hall as [|? ? Ha]; subst. rewrite Ha. apply in_seq. lia.
Qed.
Lemma growth_uniform_any conf k : forall s s', simulate_growth (uniform conf) k s = Ok s' ->
  number_of_nodes (sim_fbas s') = k + number_of_nodes (sim_fbas s) /\ (1 <= k -> all_have (sim_fbas s') (conf (number_of_nodes (sim_fbas s')))).
Proof.
  induction k as [|k IH]; intros s s' H; cbn [simulate_growth] in H.
  - injection H as <-. split; auto. lia.
  - destruct (grow_by_one (uniform conf) s) as [s1|] eqn:E1; [|discriminate]. cbn [bind] in H. apply grow_uniform_any in E1. destruct E1 as [N1 A1].
    destruct (IH _ _ H) as [N A]. split; [lia|]. intros _. destruct k as [|k]; [|apply A; lia]. cbn in H. injection H as <-. auto.
Qed.

Lemma ideal_growth k s s' : 1 <= k -> simulate_growth ideal_qsc k s = Ok s' ->
  let f := sim_fbas s' in let n := k + number_of_nodes (sim_fbas s) in
  number_of_nodes f = n /\ ((Z.of_nat n <= 2 ^ 53)%Z ->
  all_have f (QS (n - (n - 1) / 3) (seq 0 n) []) /\
  (forall S, quorum f S <-> (forall x, mem x S = true -> x < n) /\ n - (n - 1) / 3 <= len S) /\
  quorum_intersection f /\
  (forall B, blocking f B <-> (n - 1) / 3 < len (inter B (all_nodes f)))).
Proof.
  intros Hk E. destruct (growth_uniform_any (fun n => QS (calculate_67p_threshold n) (range 0 n) []) k s s' E) as (N & A).
  cbv zeta. set (n := k + number_of_nodes (sim_fbas s)) in *. split; auto. intros Hb.
  specialize (A Hk). rewrite N, threshold_67p in A by (auto; lia).
  assert (Hd : (n - 1) / 3 <= n - 1) by (apply Nat.div_le_upper_bound; lia).
  assert (Hd' : 3 * ((n - 1) / 3) <= n - 1) by (apply Nat.mul_div_le; lia).
  symmetry in N. split; [unfold range in A; rewrite Nat.sub_0_r in A; exact A|].
  split; [apply flat_quorum; auto; lia|]. split; [apply (flat_intersection _ _ n N) with (3 := A); lia|].
  intros B. rewrite (flat_blocking _ _ n N) with (2 := A) by lia. unfold all_nodes. fold (number_of_nodes (sim_fbas s')). rewrite <- N.
  replace (n - (n - (n - 1) / 3)) with ((n - 1) / 3) by lia.
  replace (inter (below n) B) with (inter B (below n)); [tauto|]. apply bset_ext. intros x. rewrite !mem_inter. apply andb_comm.
Qed.
Lemma super_safe_growth k s s' : 1 <= k -> simulate_growth super_safe_qsc k s = Ok s' ->
  let f := sim_fbas s' in number_of_nodes f = k + number_of_nodes (sim_fbas s) /\
  (forall S, quorum f S <-> forall x, mem x S = true <-> x < number_of_nodes f).
Proof.
  intros Hk E. destruct (growth_uniform_any (fun n => QS n (range 0 n) []) k s s' E) as (N & A).
  cbv zeta. split; auto. specialize (A Hk). set (n := number_of_nodes (sim_fbas s')) in *. intros S.
  rewrite (flat_quorum _ n n eq_refl ltac:(lia) A). split.
  - intros [Hb Hl]. assert (ES : S = below n) by (apply len_subset_eq; [intros x Hx; apply mem_below; auto|rewrite len_below; auto]).
    rewrite ES. intros x. apply mem_below.
  - intros H. assert (ES : S = below n) by (apply bset_ext; intros x; apply eq_true_iff_eq; rewrite H, mem_below; tauto).
    rewrite ES, len_below. split; auto. intros x. apply mem_below.
Qed.
Lemma uniform_no_panic k s : generic_names (sim_fbas s) -> simulate_growth ideal_qsc k s <> Panic /\ simulate_growth super_safe_qsc k s <> Panic.
Proof.
  intros Hs. split.
  - destruct (growth_uniform (fun n => QS (calculate_67p_threshold n) (range 0 n) []) k s Hs) as (s' & E & _).
    change ideal_qsc with (uniform (fun n => QS (calculate_67p_threshold n) (range 0 n) [])). rewrite E. discriminate.
  - destruct (growth_uniform (fun n => QS n (range 0 n) []) k s Hs) as (s' & E & _).
    change super_safe_qsc with (uniform (fun n => QS n (range 0 n) [])). rewrite E. discriminate.
Qed.
