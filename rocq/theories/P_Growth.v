(** Proofs about growth with the other configurators. *)
From Coq Require Import ZArith.
From Verif Require Import Spec_Simulation P_List P_Builder P_QuorumSet P_Quorum P_SimGraph P_Shuffle P_Float P_Simulation.
Local Open Scope list_scope.
Local Open Scope nat_scope.

(** ** growth establishes what each visit establishes *)
Definition all_nodes_are (P : nat -> nat -> qset -> Prop) (f : fbas) : Prop := forall i q, node_of f i q -> P (number_of_nodes f) i q.

Section Growth.
Context (Q : configurator) (limit : nat -> Prop) (A B : nat -> nat -> qset -> Prop).
Context (HL : local_configurator Q).
Context (visit_ok : forall i f r q, limit (number_of_nodes f) -> all_nodes_are B f -> node_of f i q ->
  exists f' c r' q', Q i f r = Ok (f', c, r') /\ node_of f' i q' /\ A (number_of_nodes f) i q').
Context (A_B : forall n i q, A n i q -> B n i q) (B_next : forall n i q, B n i q -> B (S n) i q).
Context (B_new : forall n i, B n i qset_new) (limit_down : forall n, limit (S n) -> limit n).

Lemma visit_keeps i f r f' c r' : limit (number_of_nodes f) -> all_nodes_are B f -> Q i f r = Ok (f', c, r') -> i < number_of_nodes f ->
  number_of_nodes f' = number_of_nodes f /\ all_nodes_are B f' /\ (exists q, node_of f' i q /\ A (number_of_nodes f) i q).
Proof.
  intros Hl Hf E Hi. pose proof (HL _ _ _ _ _ _ E) as Ho. pose proof (changes_only_size _ _ _ Ho) as Hs.
  destruct (visit_ok i f r (qset_of f i) Hl Hf (qset_of_node f i Hi)) as (f1 & c1 & r1 & q1 & E1 & Hn1 & H1). rewrite E in E1. injection E1 as <- <- <-.
  split; auto. split; [|eauto]. intros j q Hj. rewrite Hs. destruct (Nat.eq_dec j i) as [->|Hne].
  - rewrite (node_of_fun _ _ _ _ Hj Hn1). auto.
  - apply (changes_only_other i j f f') in Hj; auto.
Qed.

Lemma visits_keep l f f' : visits Q l f f' -> (forall v, In v l -> fst v < number_of_nodes f) -> limit (number_of_nodes f) -> all_nodes_are B f ->
  number_of_nodes f' = number_of_nodes f /\ all_nodes_are B f' /\
  forall i, (In i (map fst l) \/ exists q, node_of f i q /\ A (number_of_nodes f) i q) -> exists q, node_of f' i q /\ A (number_of_nodes f) i q.
Proof.
  intros H. induction H as [|i c l f r f1 r1 f2 E H IH]; intros Hv Hl Hf.
  - split; auto. split; auto. intros i [[]|Hi]; auto.
  - destruct (visit_keeps i f r f1 c r1 Hl Hf E) as (Hs & Hf1 & HA); [apply (Hv (i, c)); left; auto|].
    destruct IH as (Hs2 & Hf2 & HA2); auto; [intros v Hi; rewrite Hs; apply Hv; right; auto|congruence|]. rewrite Hs in *.
    split; auto. split; auto. intros j Hj. apply HA2.
    destruct (Nat.eq_dec j i) as [->|Hne]; auto. destruct Hj as [[Hj|Hj]|(q & Hj & Hq)]; [cbn in Hj; congruence|auto|].
    right. exists q. split; auto. apply (changes_only_other i j f f1); auto. eapply HL; eauto.
Qed.

Lemma reevaluation_establishes max s : limit (number_of_nodes (sim_fbas s)) -> all_nodes_are B (sim_fbas s) ->
  exists s' k, simulate_global_reevaluation Q max s = Ok (s', k) /\ number_of_nodes (sim_fbas s') = number_of_nodes (sim_fbas s) /\
    all_nodes_are B (sim_fbas s') /\ (1 <= max -> all_nodes_are A (sim_fbas s')) /\ (generic_names (sim_fbas s) -> generic_names (sim_fbas s')).
Proof.
  intros Hl Hf. set (n := number_of_nodes (sim_fbas s)).
  destruct (reevaluation_no_panic Q (fun f => number_of_nodes f = n /\ all_nodes_are B f) max s) as (s' & k & E & Hs & HB); auto.
  - intros i f r Hi [Hn HB]. fold n in Hi. destruct (visit_ok i f r (qset_of f i)) as (f' & c & r' & q' & E & _); auto; [rewrite Hn; auto|apply qset_of_node; lia|].
    exists f', c, r'. split; auto. destruct (visit_keeps i f r f' c r') as (A1 & A2 & _); auto; [rewrite Hn; auto|lia|]. split; auto. lia.
  - exists s', k. split; auto. split; auto. split; auto.
    apply reevaluation_ok in E. destruct E as (rounds & Hlen & Hle & Hpos & _ & Hall & Hv & _). split.
    + intros Hm. destruct (visits_keep _ _ _ Hv) as (_ & _ & HA); auto.
      * intros v Hin. apply in_concat in Hin. destruct Hin as (round & Hr & Hin). rewrite Forall_forall in Hall. specialize (Hall _ Hr).
        assert (Hi : In (fst v) (map fst round)) by (apply in_map; auto). rewrite Hall in Hi. apply in_seq in Hi. lia.
      * intros i q Hi. pose proof (node_of_range _ _ _ Hi) as Hr. destruct (HA i) as (q' & Hq' & Ha).
        -- left. destruct rounds as [|round rounds]; [cbn in Hlen; lia|]. cbn [concat]. rewrite map_app, in_app_iff. left.
           inversion Hall as [|? ? Ha]; subst. rewrite Ha. apply in_seq. fold n. lia.
        -- rewrite (node_of_fun _ _ _ _ Hi Hq'), Hs. auto.
    + intros Hg. destruct (visits_names _ _ _ _ HL Hv). apply (names_keys (sim_fbas s)); auto.
Qed.

Lemma grow_establishes s : limit (S (number_of_nodes (sim_fbas s))) -> generic_names (sim_fbas s) -> all_nodes_are B (sim_fbas s) ->
  exists s', grow_by_one Q s = Ok s' /\ generic_names (sim_fbas s') /\ number_of_nodes (sim_fbas s') = S (number_of_nodes (sim_fbas s)) /\
    all_nodes_are A (sim_fbas s').
Proof.
  intros Hl [Hk Hg] HB. unfold grow_by_one. destruct (add_generic_ok (sim_fbas s) qset_new Hk Hg) as (f1 & E1 & Hk1 & Hg1 & Hn1). rewrite E1. cbn [bind].
  assert (L1 : number_of_nodes f1 = S (number_of_nodes (sim_fbas s))) by (unfold number_of_nodes; rewrite Hn1, app_length; cbn; lia).
  fold (number_of_nodes (sim_fbas s)). set (n := number_of_nodes (sim_fbas s)) in *.
  assert (B1 : all_nodes_are B f1).
  { intros i q (m & Em & Eq). rewrite Hn1, nth_error_snoc in Em. fold (number_of_nodes (sim_fbas s)) in Em. fold n in Em. rewrite L1. destruct (Nat.eqb_spec i n) as [->|Hne].
    - injection Em as <-. cbn in Eq. subst q. auto.
    - apply B_next. apply HB. exists m. auto. }
  destruct (visit_ok n f1 (sim_rng s) (qset_of f1 n)) as (f2 & c2 & r2 & q2 & E2 & _); auto; [rewrite L1; auto|apply qset_of_node; lia|].
  rewrite E2. cbn [bind]. destruct (visit_keeps n f1 (sim_rng s) f2 c2 r2) as (L2 & B2 & _); auto; [rewrite L1; auto|lia|].
  set (s2 := register_event _ _).
  assert (F2 : sim_fbas s2 = f2) by auto.
  assert (G2 : generic_names f2).
  { destruct (HL _ _ _ _ _ _ E2) as (X & Y & _). apply (names_keys f1); auto. split; auto. }
  destruct (reevaluation_establishes (number_of_nodes (sim_fbas s2)) s2) as (s3 & k & E3 & L3 & B3 & A3 & G3); rewrite ?F2 in *; auto; [rewrite L2, L1; auto|].
  rewrite E3. cbn [res_map bind fst]. exists s3. split; auto. split; auto. split; [lia|]. apply A3. lia.
Qed.

Lemma growth_establishes k : forall s, limit (k + number_of_nodes (sim_fbas s)) -> generic_names (sim_fbas s) -> all_nodes_are B (sim_fbas s) ->
  exists s', simulate_growth Q k s = Ok s' /\ generic_names (sim_fbas s') /\ number_of_nodes (sim_fbas s') = k + number_of_nodes (sim_fbas s) /\
    all_nodes_are B (sim_fbas s') /\ (1 <= k -> all_nodes_are A (sim_fbas s')).
Proof.
  induction k as [|k IH]; intros s Hl Hg HB; cbn [simulate_growth].
  - exists s. split; auto. split; auto. split; auto. split; auto. lia.
  - assert (Hl1 : limit (S (number_of_nodes (sim_fbas s)))).
    { clear IH. replace (S k + number_of_nodes (sim_fbas s)) with (k + S (number_of_nodes (sim_fbas s))) in Hl by lia.
      induction k; auto. }
    destruct (grow_establishes s Hl1 Hg HB) as (s1 & E1 & G1 & N1 & A1). rewrite E1. cbn [bind].
    destruct (IH s1) as (s' & E & G & N & B' & A'); auto.
    + replace (k + number_of_nodes (sim_fbas s1)) with (S k + number_of_nodes (sim_fbas s)) by lia. auto.
    + intros i q Hi. auto.
    + exists s'. split; auto. split; auto. split; [lia|]. split; auto. intros _. destruct k as [|k]; [|apply A'; lia]. cbn in E. injection E as <-. auto.
Qed.
End Growth.
