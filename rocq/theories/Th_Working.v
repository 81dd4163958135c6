(** Theorems: exactly when a fresh [Analysis] reports the minimal blocking and splitting sets. *)
From Verif Require Import P_WorkingAnalysis P_ThAnalysis Th_SplitExact.
Local Open Scope list_scope.

(** Unless validators are repeated in a symmetric cluster of the relevant nodes, the minimal blocking sets are reported if and only if
    all thresholds in these clusters can be met. *)
Theorem C17_analysis_iff : forall (E : ext) (f : fbas) (K : bset), ext_ok E -> wf_fbas f ->
  (forall x, mem x K = true <-> relevant f x) -> (forall q, working_cluster f K q -> no_repetitions q) ->
  exists r l, analyze E f [MinimalBlockingSets] = Ok [AVec r] /\ vr_unwrap r = Ok l /\
    ((forall B, In B l <-> has_a_quorum f /\ minimal_blocking f B) <-> forall q, working_cluster f K q -> sane q).
Proof. exact (fun E f K HE Hwf => fresh_blocking E HE f Hwf K). Qed.
Print Assumptions C17_analysis_iff.

(** The minimal splitting sets are reported if and only if there are disjoint quorums or the symmetric cluster of the top tier has overlapping
    and different slices at every level or needs everything at every level. *)
Theorem C18_analysis_iff : forall (E : ext) (f : fbas) (K K2 : bset), ext_ok E -> wf_fbas f ->
  (forall x, mem x K = true <-> relevant f x) -> (forall x, mem x K2 = true <-> in_top_tier f x) -> has_a_quorum f ->
  (forall q, working_cluster f K q -> no_repetitions q) -> (forall q, working_cluster f K2 q -> no_repetitions q /\ sane q) ->
  exists r l, analyze E f [MinimalSplittingSets] = Ok [AVec r] /\ vr_unwrap r = Ok l /\
    ((forall S, In S l <-> minimal_splitting f S) <->
     (quorum_intersection f -> forall q, working_cluster f K2 q -> splittable q \/ rigid q)).
Proof. exact (fun E f K K2 HE Hwf => fresh_splitting E HE f Hwf K K2). Qed.
Print Assumptions C18_analysis_iff.

(** Three nodes with the same quorum set apart from the order of validators and a fourth node that never can be satisfied: all conditions are met.
    In the second network one inner quorum set has too high a threshold: one set that is not minimal is reported. *)
Definition c17_three := sample [QS 2 [0;1;2] [QS 0 [3] []]; QS 2 [2;1;0;3] []; QS 2 [1;2;0] []; QS 0 [] []].
Definition c17_steep_q := QS 2 [0;1;2] [QS 2 [3] []].
Definition c17_steep := sample [c17_steep_q; c17_steep_q; c17_steep_q; c17_steep_q].
Lemma relevant_by f K : wf_fbas f -> K = relevant_nodes std_ext f -> forall x, mem x K = true <-> relevant f x.
Proof. intros Hwf -> x. apply mem_relevant_iff; auto. apply std_ext_ok. Qed.
Lemma working_each f K (P : qset -> Prop) (p : qset -> bool) : (forall q, p q = true -> P q) ->
  forallb (fun x => p (pruned K (qset_of f x))) (elements K) = true -> forall q, working_cluster f K q -> P q.
Proof.
  intros Hp H q (_ & _ & (x & qx & Hx & Hq & ->) & _). rewrite forallb_forall in H. rewrite <- (node_of_qset_of f x qx Hq). apply Hp, H, elements_spec. exact Hx.
Qed.
Lemma perm_insert {A} (a : A) l1 l2 l : Permutation (l1 ++ l2) l -> Permutation (l1 ++ a :: l2) (a :: l).
Proof. intro H. rewrite <- H. symmetry. apply Permutation_middle. Qed.
Lemma three_cluster : working_cluster c17_three (of_list [0;1;2]) (QS 2 [0;1;2] []).
Proof.
  assert (M : forall x, mentions x (QS 2 [0;1;2] []) -> x = 0 \/ x = 1 \/ x = 2).
  { intros x H. rewrite <- contained_list_spec in H. cbn in H. intuition. }
  split; [exists 0; left; cbn; auto|]. split; [|split].
  - intros x Hx. exists (qset_of c17_three x). split.
    + apply qset_of_node. destruct (M x Hx) as [->|[->| ->]]; vm_compute; lia.
    + destruct (M x Hx) as [->|[->| ->]]; match goal with |- reordered ?a _ => let b := eval vm_compute in a in replace a with b by (vm_compute; reflexivity) end;
        apply (reordered_intro 2 _ _ [] [] []); auto; [|].
      * apply (perm_insert 0 [2;1] []), (perm_insert 1 [2] []). auto.
      * apply (perm_insert 0 [1;2] []). auto.
  - exists 0, (qset_of c17_three 0). split; [vm_compute; reflexivity|]. split; [apply qset_of_node; vm_compute; lia|vm_compute; reflexivity].
  - apply (slice_mono (fun x => mem x (of_list [0;1;2]) = true)).
    + intros x H. apply mem_of_list in H. left. exact H.
    + apply is_quorum_slice_iff. vm_compute. reflexivity.
Qed.
Example C17_analysis_iff_example : wf_fbas c17_three /\ (forall x, mem x (of_list [0;1;2]) = true <-> relevant c17_three x) /\
  working_cluster c17_three (of_list [0;1;2]) (QS 2 [0;1;2] []) /\
  (forall q, working_cluster c17_three (of_list [0;1;2]) q -> no_repetitions q /\ sane q) /\
  wf_fbas c17_steep /\ (forall x, mem x (of_list [0;1;2;3]) = true <-> relevant c17_steep x) /\
  (forall q, working_cluster c17_steep (of_list [0;1;2;3]) q -> no_repetitions q) /\ ~ sane c17_steep_q /\
  exists r, analyze std_ext c17_steep [MinimalBlockingSets] = Ok [AVec r] /\ res_map (map elements) (vr_unwrap r) = Ok [[0;1;2]].
Proof.
  assert (W : wf_fbas c17_three) by (apply wfb_ok; vm_compute; reflexivity). assert (W' : wf_fbas c17_steep) by (apply wfb_ok; vm_compute; reflexivity).
  split; [exact W|]. split; [apply relevant_by; [exact W|vm_compute; reflexivity]|]. split; [exact three_cluster|]. split; [|split; [exact W'|split; [|split; [|split]]]].
  - apply (working_each _ _ _ (fun q => noRepb q && saneb q)); [|vm_compute; reflexivity].
    intros q H. apply andb_true_iff in H. split; [apply noRepb_ok|apply saneb_ok]; tauto.
  - apply relevant_by; [exact W'|vm_compute; reflexivity].
  - apply (working_each _ _ _ noRepb); [exact noRepb_ok|vm_compute; reflexivity].
  - intro H. apply sane_inv in H. destruct H as (_ & _ & H). specialize (H _ (or_introl eq_refl)). apply sane_inv in H. cbn in H. lia.
  - eexists. split; vm_compute; reflexivity.
Qed.

(** the first network above, and three organizations one of which needs both of its nodes: the set of these two nodes is not reported *)
Lemma top_tier_by f K : wf_fbas f -> K = top_tier_of f -> forall x, mem x K = true <-> in_top_tier f x.
Proof.
  intros Hwf -> x. unfold top_tier_of. destruct (find_minimal_quorums_spec std_ext std_ext_ok f Hwf) as (l & El & Hl & _). rewrite El, mem_involved.
  unfold in_top_tier. split; intros (S & H1 & H2); exists S; split; auto; apply Hl; auto.
Qed.
Example C18_analysis_iff_example :
  (forall x, mem x (of_list [0;1;2]) = true <-> in_top_tier c17_three x) /\ has_a_quorum c17_three /\
  (forall q, working_cluster c17_three (of_list [0;1;2]) q -> splittable q) /\
  wf_fbas c18_uneven /\ (forall x, mem x (of_list [0;1;2;3;4;5;6;7]) = true <-> relevant c18_uneven x) /\
  (forall x, mem x (of_list [0;1;2;3;4;5;6;7]) = true <-> in_top_tier c18_uneven x) /\ has_a_quorum c18_uneven /\
  (forall q, working_cluster c18_uneven (of_list [0;1;2;3;4;5;6;7]) q -> no_repetitions q /\ sane q) /\
  minimal_splitting c18_uneven (of_list [0;1]) /\
  exists r, analyze std_ext c18_uneven [MinimalSplittingSets] = Ok [AVec r] /\ res_map (map elements) (vr_unwrap r) = Ok [[2];[3];[4];[5];[6];[7]].
Proof.
  assert (W : wf_fbas c17_three) by (apply wfb_ok; vm_compute; reflexivity). assert (W' : wf_fbas c18_uneven) by (apply wfb_ok; vm_compute; reflexivity).
  split; [apply top_tier_by; [exact W|vm_compute; reflexivity]|]. split; [apply (has_quorum c17_three (of_list [0;1])); vm_compute; reflexivity|].
  split; [apply (working_each _ _ _ splittableb); [exact splittableb_ok|vm_compute; reflexivity]|]. split; [exact W'|].
  split; [apply relevant_by; [exact W'|vm_compute; reflexivity]|]. split; [apply top_tier_by; [exact W'|vm_compute; reflexivity]|].
  split; [apply (has_quorum c18_uneven (of_list [0;1;2;3])); vm_compute; reflexivity|].
  split; [|split].
  - apply (working_each _ _ _ (fun q => noRepb q && saneb q)); [|vm_compute; reflexivity].
    intros q H. apply andb_true_iff in H. split; [apply noRepb_ok|apply saneb_ok]; tauto.
  - destruct C18_exact_example as (MQ & _ & _ & _ & _ & _ & _ & _ & _ & H & _). exact H.
  - eexists. split; vm_compute; reflexivity.
Qed.
