(** C16: when the alternative check panics. *)
From Verif Require Import P_AltExact.
Local Open Scope list_scope.

(** Without a quorum it does, whatever else was asked. *)
Theorem C16_without_quorum : forall (E : ext) (f : fbas) (cs : list call), ext_ok E -> wf_fbas f ->
  ~ has_a_quorum f -> In AlternativeCheck cs -> analyze E f cs = Panic.
Proof. exact (fun E f cs HE Hf => check_without_quorum E HE f Hf cs). Qed.
Print Assumptions C16_without_quorum.

(** If blocking sets are asked for only after a call that needs the minimal quorums, or if the symmetric clusters are as expected, then
    a sequence of calls panics exactly if it contains the alternative check and there is no quorum. *)
Theorem C16_panics_exactly : forall (E : ext) (f : fbas) (cs : list call), ext_ok E -> wf_fbas f ->
  (forall earlier later, cs = earlier ++ MinimalBlockingSets :: later -> (exists c, In c earlier /\ needs_quorums c) \/ sane_clusters f) ->
  (analyze E f cs = Panic <-> In AlternativeCheck cs /\ ~ has_a_quorum f).
Proof. exact (fun E f cs HE Hf => check_panics_exactly E HE f Hf cs). Qed.
Print Assumptions C16_panics_exactly.

(** In general the alternative check can also panic although there is a quorum. *)
Theorem C16_blocking_first_refuted : exists f, wf_fbas f /\ quorum_intersection f /\ has_a_quorum f /\
  analyze std_ext f [AlternativeCheck] = Ok [AAlternative true None] /\ analyze std_ext f [MinimalBlockingSets; AlternativeCheck] = Panic.
Proof. exact blocking_first_panics. Qed.
Print Assumptions C16_blocking_first_refuted.

(** three nodes without a quorum *)
Definition stuck : fbas := sample [QS 2 [0; 1; 2] [QS 1 [] []]; QS 3 [0; 1; 2] []; QS 4 [0; 1; 2] []].
Example C16_without_quorum_example : wf_fbas stuck /\ ~ has_a_quorum stuck /\ analyze std_ext stuck [TopTier; MinimalBlockingSets] <> Panic /\
  (forall earlier later, [TopTier; MinimalBlockingSets; AlternativeCheck] = earlier ++ MinimalBlockingSets :: later ->
     exists c, In c earlier /\ needs_quorums c).
Proof.
  split; [apply wfb_ok; vm_compute; reflexivity|]. split; [|split; [vm_compute; discriminate|]].
  - intros (Q & HQ). apply (quorum_satisfiable stuck Q) in HQ as Hi. destruct HQ as [(x & Hx) _]. apply Hi in Hx.
    assert (En : satisfiable_nodes stuck = bempty) by (vm_compute; reflexivity). rewrite En, mem_empty in Hx. discriminate.
  - intros earlier later H. exists TopTier. split; [|exact I]. destruct earlier as [|c earlier]; cbn in H; [discriminate|]. injection H as <- _. left. reflexivity.
Qed.
