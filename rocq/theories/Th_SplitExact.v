(** When exactly the minimal splitting sets are found: C18. *)
From Verif Require Import P_SplitExact P_Debug.
Local Open Scope list_scope.

(** Given that no validator is repeated and all thresholds can be met, the condition of [C18_find_minimal_splitting_sets_partial]
    is necessary as well as sufficient: at every level either any two slices overlap and there are different ones, or all entries are needed
    at all levels. *)
Theorem C18_exact_iff : forall (E : ext) (f : fbas) (MQ : list bset), ext_ok E -> wf_fbas f ->
  quorum_intersection f -> NoDup MQ -> (forall Q, In Q MQ <-> minimal_quorum f Q) ->
  (forall q, satisfiable_cluster f q -> no_repetitions q /\ sane q) ->
  exists l, find_minimal_splitting_sets E f MQ = Ok l /\
    ((forall S, In S l <-> minimal_splitting f S) <-> forall q, satisfiable_cluster f q -> splittable q \/ rigid q).
Proof. exact (fun E f MQ HE Hwf => split_exact_iff E HE f Hwf MQ). Qed.
Print Assumptions C18_exact_iff.

(** three organizations, one of which needs both of its nodes: the set of these two nodes is not found *)
Definition c18_uneven_q := QS 2 [] [QS 2 [0;1] []; QS 2 [2;3;4] []; QS 2 [5;6;7] []].
Definition c18_uneven := sample (repeat c18_uneven_q 8).
Example C18_exact_example : exists MQ, wf_fbas c18_uneven /\ quorum_intersection c18_uneven /\ NoDup MQ /\ (forall Q, In Q MQ <-> minimal_quorum c18_uneven Q) /\
  (forall q, satisfiable_cluster c18_uneven q -> no_repetitions q /\ sane q) /\ satisfiable_cluster c18_uneven c18_uneven_q /\
  ~ splittable c18_uneven_q /\ ~ rigid c18_uneven_q /\ minimal_splitting c18_uneven (of_list [0;1]) /\
  res_map (map elements) (find_minimal_splitting_sets std_ext c18_uneven MQ) = Ok [[2];[3];[4];[5];[6];[7]].
Proof.
  assert (Hwf : wf_fbas c18_uneven) by (apply wfb_ok; vm_compute; reflexivity).
  destruct (find_minimal_quorums std_ext c18_uneven) as [mq|] eqn:Emq; [|vm_compute in Emq; discriminate].
  exists mq. split; auto. assert (Hmq := mq_of c18_uneven mq Hwf Emq).
  assert (Hnode : forall x q, node_of c18_uneven x q -> no_repetitions q /\ sane q) by (apply goodb_ok; vm_compute; reflexivity).
  assert (M : forall x, mentions x c18_uneven_q -> x < 8).
  { intros x H. rewrite <- contained_list_spec in H. cbn in H. lia. }
  split.
  { destruct (last_answer std_ext c18_uneven [] HasQuorumIntersection std_ext_ok Hwf (Forall_nil _) I) as (ans & a & Ea & b & -> & Hb).
    apply Hb. assert (Ev : analyze std_ext c18_uneven [HasQuorumIntersection] = Ok [ABool true]) by (vm_compute; reflexivity).
    simpl app in Ea. rewrite Ev in Ea. destruct ans as [|a0 [|a1 ans]]; inversion Ea; auto. }
  assert (Hgood : forall q, satisfiable_cluster c18_uneven q -> no_repetitions q /\ sane q).
  { intros q [[(x & Hx) H] _]. apply (Hnode x). auto. }
  split.
  { destruct (find_minimal_quorums_spec std_ext std_ext_ok c18_uneven Hwf) as (l & El & _ & _ & Hs). rewrite Emq in El. injection El as <-.
    apply before_nodup, Hs. intros q Hq. apply no_repetitions_nodup, Hgood. exact Hq. }
  split; auto. split; auto. split; [|split; [|split; [|split]]].
  - split; [split|].
    + exists 0. eright; [left; reflexivity|]. left. cbn. auto.
    + intros x H. apply M in H. unfold node_of. assert (G : nth_error (map node_qset (nodes c18_uneven)) x = Some c18_uneven_q).
      { do 8 (destruct x as [|x]; [reflexivity|]). lia. }
      rewrite nth_error_map in G. destruct (nth_error (nodes c18_uneven) x) as [n|]; [|discriminate]. exists n. split; auto. injection G as <-. reflexivity.
    + apply (slice_mono (fun x => mem x (of_list [0;1;2;3;4;5;6;7]) = true)).
      * intros x H. apply mem_of_list in H. apply contained_list_spec. exact H.
      * apply is_quorum_slice_iff. vm_compute. reflexivity.
  - intro H. apply splittable_inv in H. destruct H as (_ & _ & _ & H). specialize (H _ (or_introl eq_refl)).
    apply splittable_inv in H. destruct H as (_ & _ & [H|H] & _); cbn in H; [lia|congruence].
  - intro H. apply rigid_inv in H. cbn in H. lia.
  - apply (minimal_splitting_from_iff c18_uneven mq _ Hmq). vm_compute in Emq. inversion Emq. vm_compute. reflexivity.
  - vm_compute in Emq. inversion Emq. vm_compute. reflexivity.
Qed.
