(** When exactly the minimal blocking sets are found: C17. *)
From Verif Require Import P_BlockingExact.
Local Open Scope list_scope.

(** Unless validators are repeated in a symmetric cluster, the conditions of [C17_find_minimal_blocking_sets_partial] are necessary
    as well as sufficient. *)
Theorem C17_exact_iff : forall (E : ext) (f : fbas), ext_ok E -> wf_fbas f ->
  (forall q, satisfiable_cluster f q -> no_repetitions q) ->
  exists l, find_minimal_blocking_sets E f = Ok l /\
    ((forall B, In B l <-> minimal_blocking f B) <-> (exists Q, quorum f Q) /\ forall q, satisfiable_cluster f q -> sane q).
Proof. exact (fun E f HE Hwf => exact_iff E HE f Hwf). Qed.
Print Assumptions C17_exact_iff.

(** With repeated validators all blocking sets are lost unless a single node is a quorum. *)
Theorem C17_repetitions_lose_all : forall (E : ext) (f : fbas) (q : qset), ext_ok E -> wf_fbas f ->
  satisfiable_cluster f q -> ~ no_repetitions q ->
  (forall x Q, mentions x q -> quorum f Q -> exists y, mem y Q = true /\ y <> x) ->
  find_minimal_blocking_sets E f = Ok [] /\ exists B, minimal_blocking f B.
Proof. exact (fun E f q HE Hwf => repeated_loses E HE f Hwf q). Qed.
Print Assumptions C17_repetitions_lose_all.

(** three of four entries, one node listed twice *)
Definition c17_twice := QS 3 [0;0;1;2] [].
Definition c17_listed_twice := sample [c17_twice; c17_twice; c17_twice].
Example C17_repetitions_example : wf_fbas c17_listed_twice /\ satisfiable_cluster c17_listed_twice c17_twice /\ ~ no_repetitions c17_twice /\
  (forall x Q, mentions x c17_twice -> quorum c17_listed_twice Q -> exists y, mem y Q = true /\ y <> x) /\
  minimal_blocking c17_listed_twice (of_list [0]).
Proof.
  assert (W : wf_fbas c17_listed_twice) by (apply wfb_ok; vm_compute; reflexivity).
  assert (M : forall x, mentions x c17_twice -> x = 0 \/ x = 1 \/ x = 2).
  { intros x H. rewrite <- contained_list_spec in H. cbn in H. intuition. }
  split; [exact W|]. split; [|split; [|split]].
  - split; [split|].
    + exists 0. left. cbn. auto.
    + intros x H. destruct (M x H) as [->|[->| ->]]; eexists; split; reflexivity.
    + apply (slice_mono (fun x => mem x (of_list [0;1;2]) = true)).
      * intros x H. apply mem_of_list in H. left. cbn in *. intuition.
      * apply is_quorum_slice_iff. vm_compute. reflexivity.
  - intro H. specialize (H 0). vm_compute in H. lia.
  - intros x Q Hx HQ. destruct (forallb (Nat.eqb x) (elements Q)) eqn:Ef.
    + exfalso. rewrite forallb_forall in Ef. assert (EQ : Q = of_list [x]).
      { apply incl_antisym; intros y Hy.
        - apply elements_spec in Hy. apply Ef, Nat.eqb_eq in Hy. apply mem_of_list. cbn. auto.
        - apply mem_of_list in Hy. destruct Hy as [<-|[]]. destruct HQ as [(z & Hz) _]. assert (Hz' := Hz). apply elements_spec, Ef, Nat.eqb_eq in Hz. subst z. exact Hz'. }
      subst Q. apply is_quorum_iff in HQ. destruct (M x Hx) as [->|[->| ->]]; vm_compute in HQ; discriminate.
    + rewrite <- not_true_iff_false, forallb_forall in Ef. destruct (existsb (fun y => negb (x =? y)) (elements Q)) eqn:Ex.
      * apply existsb_exists in Ex. destruct Ex as (y & Hy & Hn). apply negb_true_iff, Nat.eqb_neq in Hn. exists y. split; [apply elements_spec; auto|auto].
      * exfalso. apply Ef. intros y Hy. destruct (x =? y) eqn:Ey; auto. rewrite <- Ex. apply existsb_exists. exists y. rewrite Ey. auto.
  - apply minimal_blockingb_iff. vm_compute. reflexivity.
Qed.
(** the iff on both sides: [nested] meets the conditions, the network of [C17_unsatisfiable_inner_refuted] has a quorum but not the thresholds *)
Example C17_exact_example : wf_fbas inner_fbas /\ (forall q, satisfiable_cluster inner_fbas q -> no_repetitions q) /\ (exists Q, quorum inner_fbas Q) /\
  (exists q, satisfiable_cluster inner_fbas q /\ ~ sane q) /\ find_minimal_blocking_sets std_ext inner_fbas = Ok [].
Proof.
  split; [apply wfb_ok; vm_compute; reflexivity|]. split; [|split; [|split]].
  - intros q [[(x & Hx) H] _]. specialize (H x Hx). apply no_repetitions_nodup, contains_duplicates_false.
    destruct H as (n & Hn & <-). destruct x as [|[|x]]; [| |destruct x]; vm_compute in Hn; try discriminate; inversion Hn; vm_compute; reflexivity.
  - apply (has_quorum inner_fbas (of_list [0])). vm_compute. reflexivity.
  - exists (QS 1 [0] [QS 2 [1] []]). split.
    + assert (M : forall x, mentions x (QS 1 [0] [QS 2 [1] []]) -> x = 0 \/ x = 1).
      { intros x H. rewrite <- contained_list_spec in H. cbn in H. intuition. }
      split; [split|].
      * exists 0. left. cbn. auto.
      * intros x H. destruct (M x H) as [->| ->]; eexists; split; reflexivity.
      * apply (slice_mono (fun x => mem x (of_list [0]) = true)).
        -- intros x H. apply mem_of_list in H. left. cbn in *. intuition.
        -- apply is_quorum_slice_iff. vm_compute. reflexivity.
    + intro H. apply sane_inv in H. destruct H as (_ & _ & H). specialize (H _ (or_introl eq_refl)). apply sane_inv in H. cbn in H. lia.
  - vm_compute. reflexivity.
Qed.
