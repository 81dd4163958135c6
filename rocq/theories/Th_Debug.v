(** C24 and C80: the check for minimality, and the analysis in a debug build, where
    [debug_assert!] panics if its condition does not hold and doubling a threshold panics if the result does not fit
    into 64 bits. *)
From Coq Require Import NArith.
From Verif Require Import P_DebugExact.
Local Open Scope list_scope.

(** C24: the check is exact: no set occurs twice and none contains another one. *)
Theorem C24_checker : forall l : list bset,
  is_set_of_minimal_node_sets l = true <-> NoDup l /\ forall a b, In a l -> In b l -> incl_set a b -> a = b.
Proof. exact checker_iff. Qed.
Print Assumptions C24_checker.

Example C24_checker_example :
  is_set_of_minimal_node_sets (map of_list [[0;1];[1;2];[0;2]]) = true /\
  is_set_of_minimal_node_sets (map of_list [[0;1];[1;2];[0;1]]) = false /\
  is_set_of_minimal_node_sets (map of_list [[0;1;2];[1;2]]) = false.
Proof. vm_compute. auto. Qed.

(** C80: assertions that never fail *)
Theorem C80_remove_non_minimal : forall l : list bset,
  remove_non_minimal_node_sets_d l = Ok (remove_non_minimal_node_sets l).
Proof. exact remove_non_minimal_checked. Qed.
Print Assumptions C80_remove_non_minimal.

Theorem C80_nonintersecting_quorums : forall (E : ext) (f : fbas),
  find_nonintersecting_quorums_d E f = find_nonintersecting_quorums E f.
Proof. exact nonintersecting_checked. Qed.
Print Assumptions C80_nonintersecting_quorums.

(** the lists of splitting sets: only doubling a threshold of a relevant node can panic *)
Theorem C80_splitting_sets : forall (E : ext) (f : fbas) (mq : list bset), ext_ok E -> wf_fbas f ->
  (forall x q, relevant f x -> node_of f x q -> can_double q) ->
  find_minimal_splitting_sets_d E f mq = find_minimal_splitting_sets E f mq.
Proof. exact (fun E f mq HE Hf => splitting_sets_checked E HE f Hf mq). Qed.
Print Assumptions C80_splitting_sets.

(** and it does if it belongs to a symmetric cluster *)
Theorem C80_symmetric_overflow : forall (E : ext) (f : fbas) (q : qset) (mq : list bset), ext_ok E -> wf_fbas f ->
  satisfiable_cluster f q -> ~ can_double q -> find_minimal_splitting_sets_d E f mq = Panic.
Proof. exact (fun E f q mq HE Hf => symmetric_panics E HE f Hf q mq). Qed.
Print Assumptions C80_symmetric_overflow.

(** The debug build never gives another answer than the release build, whatever the FBAS. *)
Theorem C80_same_answers : forall (E : ext) (f : fbas) (cs : list call) (answers : list answer),
  analyze_d E f cs = Ok answers -> analyze E f cs = Ok answers.
Proof. exact analyze_le. Qed.
Print Assumptions C80_same_answers.

(** the debug build panics exactly if a quorum is listed twice *)
Theorem C80_minimal_quorums : forall (E : ext) (f : fbas) (l : list bset), ext_ok E -> wf_fbas f ->
  find_minimal_quorums E f = Ok l ->
  (NoDup l -> find_minimal_quorums_d E f = Ok l) /\ (~ NoDup l -> find_minimal_quorums_d E f = Panic).
Proof. exact (fun E f l HE Hf => minimal_quorums_checked E HE f Hf l). Qed.
Print Assumptions C80_minimal_quorums.

(** the debug build panics if a listed blocking set occurs twice or contains another one; otherwise it does not, unless the list is empty *)
Theorem C80_minimal_blocking_sets : forall (E : ext) (f : fbas) (l : list bset), find_minimal_blocking_sets E f = Ok l ->
  let minimal_list := NoDup l /\ forall a b, In a l -> In b l -> incl_set a b -> a = b in
  (~ minimal_list -> find_minimal_blocking_sets_d E f = Panic) /\ (l <> [] -> minimal_list -> find_minimal_blocking_sets_d E f = Ok l).
Proof. exact blocking_sets_exact. Qed.
Print Assumptions C80_minimal_blocking_sets.

(** If it is empty, the sets of some cluster need not be minimal. *)
Theorem C80_empty_list_refuted : exists f, wf_fbas f /\ find_minimal_blocking_sets std_ext f = Ok [] /\ find_minimal_blocking_sets_d std_ext f = Panic.
Proof. exact empty_list_panics. Qed.
Print Assumptions C80_empty_list_refuted.

(** quorum sets that mention no node twice *)
Theorem C80_no_repetition_partial : forall (E : ext) (f : fbas), ext_ok E -> wf_fbas f ->
  (forall q, satisfiable_cluster f q -> no_repetitions q) ->
  find_minimal_quorums_d E f = find_minimal_quorums E f /\
  find_minimal_blocking_sets_d E f = find_minimal_blocking_sets E f.
Proof. exact (fun E f HE Hf Hn => conj (quorums_no_repetitions E HE f Hf Hn) (blocking_sets_checked E HE f Hf Hn)). Qed.
Print Assumptions C80_no_repetition_partial.

(** Every sequence of calls of the methods of an [Analysis]. Only the relevant nodes matter: those in strongly connected
    components, among the nodes in quorums, that contain a quorum. *)
Theorem C80_analysis_partial : forall (E : ext) (f : fbas) (cs : list call), ext_ok E -> wf_fbas f ->
  (forall x y q, relevant f x -> relevant f y -> node_of f x q -> times_mentioned y q <= 1) ->
  (forall x q, relevant f x -> node_of f x q -> can_double q) ->
  analyze_d E f cs = analyze E f cs.
Proof. exact analysis_checked. Qed.
Print Assumptions C80_analysis_partial.

(** three nodes, and a fourth one with a repetition and a threshold from 2^63 on *)
Example C80_example : let f := odd_outsider (N.to_nat (2 ^ 63)) in wf_fbas f /\
  (forall x y q, relevant f x -> relevant f y -> node_of f x q -> times_mentioned y q <= 1) /\
  (forall x q, relevant f x -> node_of f x q -> can_double q) /\
  (exists q, node_of f 3 q /\ ~ no_repetitions q /\ ~ can_double q) /\
  (exists a, analyze_d std_ext f [MinimalSplittingSets; MinimalBlockingSets; TopTier] = Ok a /\ List.length a = 3).
Proof. exact odd_outsider_ok. Qed.

(** A node that is mentioned twice: the debug build panics where the release build answers. *)
Theorem C80_repetition_refuted : exists f, wf_fbas f /\ analyze std_ext f [HasQuorumIntersection] = Ok [ABool true] /\
  analyze_d std_ext f [HasQuorumIntersection] = Panic /\ find_minimal_quorums_d std_ext f = Panic.
Proof. exact debug_panics. Qed.
Print Assumptions C80_repetition_refuted.

Example C80_blocking_example : exists a b c, find_minimal_blocking_sets std_ext nested3 = Ok (a :: b :: c) /\ is_set_of_minimal_node_sets (a :: b :: c) = true.
Proof. do 3 eexists. split; vm_compute; reflexivity. Qed.

(** An inner quorum set with a threshold from 2^63 on: the debug build panics where the release build answers. *)
Theorem C80_overflow_refuted : exists f, wf_fbas f /\ (forall x q, node_of f x q -> no_repetitions q) /\
  (exists r, analyze std_ext f [MinimalSplittingSets] = Ok [r]) /\ analyze_d std_ext f [MinimalSplittingSets] = Panic.
Proof. exact overflow_panics. Qed.
Print Assumptions C80_overflow_refuted.

Example C80_overflow_example : let f := big_left (N.to_nat (2 ^ 63)) in wf_fbas f /\ satisfiable_cluster f (big_qset (N.to_nat (2 ^ 63))) /\
  ~ can_double (big_qset (N.to_nat (2 ^ 63))).
Proof. exact big_cluster. Qed.
