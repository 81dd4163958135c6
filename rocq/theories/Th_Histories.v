(** Theorems about the answers of an [Analysis] without the conditions of Th_Analysis on the
    calls made before, and about what reported sets are good for when they are not minimal. *)
From Verif Require Import P_ThHistories.
Local Open Scope list_scope.

(** two of three organizations, one of which needs both of its nodes *)
Definition uneven_q := QS 2 [] [QS 2 [0;1] []; QS 2 [2;3;4] []; QS 2 [5;6;7] []].
Definition uneven := sample (repeat uneven_q 8).

(** C14, C16, C19, C30: right after all harmless calls, whatever the symmetric clusters look like *)
Theorem C14_after_harmless_calls : forall (E : ext) (f : fbas) (cs : list call), ext_ok E -> wf_fbas f -> harmless f cs ->
  exists ans b, analyze E f (cs ++ [HasQuorumIntersection]) = Ok (ans ++ [ABool b]) /\ (b = true <-> quorum_intersection f).
Proof. exact (fun E f cs HE Hwf => harmless_hqi E HE f Hwf cs). Qed.
Print Assumptions C14_after_harmless_calls.

Theorem C16_after_harmless_calls_partial : forall (E : ext) (f : fbas) (cs : list call), ext_ok E -> wf_fbas f -> harmless f cs ->
  has_a_quorum f ->
  exists ans a, analyze E f (cs ++ [AlternativeCheck]) = Ok (ans ++ [a]) /\
    ((a = AAlternative true None /\ quorum_intersection f) \/
     (exists r l, a = AAlternative false (Some r) /\ vr_unwrap r = Ok l /\ ~ quorum_intersection f /\
        2 <= List.length l /\ (forall Q, In Q l -> quorum f Q) /\ ForallOrdPairs (fun A B => ~ meets A B) l)).
Proof. exact (fun E f cs HE Hwf => harmless_alternative E HE f Hwf cs). Qed.
Print Assumptions C16_after_harmless_calls_partial.

Theorem C19_after_harmless_calls_partial : forall (E : ext) (f : fbas) (cs : list call), ext_ok E -> wf_fbas f -> harmless f cs ->
  exists ans s, analyze E f (cs ++ [TopTier]) = Ok (ans ++ [ASet s]) /\
    forall x, mem x s = true <-> exists Q, minimal_quorum f Q /\ mem x Q = true.
Proof. exact (fun E f cs HE Hwf => harmless_top_tier E HE f Hwf cs). Qed.
Print Assumptions C19_after_harmless_calls_partial.

Theorem C30_after_harmless_calls : forall (E : ext) (f : fbas) (cs : list call), ext_ok E -> wf_fbas f -> harmless f cs ->
  exists ans r l, analyze E f (cs ++ [MinimalQuorums]) = Ok (ans ++ [AVec r]) /\ vr_unwrap r = Ok l /\
    forall Q, In Q l <-> minimal_quorum f Q.
Proof. exact (fun E f cs HE Hwf => harmless_mq E HE f Hwf cs). Qed.
Print Assumptions C30_after_harmless_calls.

(** C20: all answers that do not rest on a condition themselves *)
Theorem C20_harmless_answers_partial : forall (E : ext) (f : fbas) (cs : list call), ext_ok E -> wf_fbas f -> harmless f cs ->
  exists ans, analyze E f cs = Ok ans /\ Forall2 (fun c a => allowed f c -> correct_answer E f c a) cs ans.
Proof. exact (fun E f cs HE Hwf => harmless_allowed E HE f Hwf cs). Qed.
Print Assumptions C20_harmless_answers_partial.

Theorem C20_harmless_independent_partial : forall (E : ext) (f : fbas) (cs : list call) (c : call), ext_ok E -> wf_fbas f ->
  harmless f cs -> allowed f c -> (c = MinimalQuorums -> distinct_clusters f) -> c <> AlternativeCheck ->
  exists ans a fresh, analyze E f (cs ++ [c]) = Ok (ans ++ [a]) /\ analyze E f [c] = Ok [fresh] /\ same_answer a fresh.
Proof. exact (fun E f cs c HE Hwf => harmless_independent E HE f Hwf cs c). Qed.
Print Assumptions C20_harmless_independent_partial.

(** the network of [C20_history_refuted], in an order of calls that does no harm *)
Example C20_harmless_example : wf_fbas hollow /\ harmless hollow [TopTier; MinimalBlockingSets; MinimalSplittingSets] /\
  exists r r', analyze std_ext hollow [TopTier; MinimalBlockingSets; MinimalSplittingSets; HasQuorumIntersection] =
    Ok [ASet (of_list [0]); AVec r; AVec r'; ABool true].
Proof.
  split; [exact hollow_wf|]. split.
  - split; [intros [H|[H|[H|[]]]]; discriminate|]. intros earlier later H. left. exists TopTier. split; [|exact I].
    destruct earlier as [|c earlier]; inversion H; subst. left; auto.
  - eexists. eexists. vm_compute. reflexivity.
Qed.

(** C17: under no condition at all, after any calls, what is reported intersects all quorums *)
Theorem C17_reported_sets_block : forall (E : ext) (f : fbas), ext_ok E -> wf_fbas f ->
  exists l, find_minimal_blocking_sets E f = Ok l /\ forall B, In B l -> blocking f B.
Proof. exact (fun E f HE Hwf => mbs_sound E HE f Hwf). Qed.
Print Assumptions C17_reported_sets_block.

Theorem C17_analysis_reports_blocking_sets : forall (E : ext) (f : fbas) (cs : list call) (ans : list answer), ext_ok E -> wf_fbas f ->
  analyze E f cs = Ok ans ->
  Forall2 (fun c a => c = MinimalBlockingSets -> exists r l, a = AVec r /\ vr_unwrap r = Ok l /\ forall B, In B l -> blocking f B) cs ans.
Proof. exact (fun E f cs ans HE Hwf => reported_block E HE f Hwf cs ans). Qed.
Print Assumptions C17_analysis_reports_blocking_sets.

(** the network of [C17_failed_inner_set_refuted]: not minimal, but blocking *)
Example C17_reported_example : wf_fbas crashed /\
  vec_of (analyze std_ext crashed [MinimalBlockingSets]) = [[[0;1;2];[0;1;3];[0;2;3];[1;2;3]]] /\
  blocking crashed (of_list [0;1]).
Proof. split; [exact crashed_wf|]. split; [vm_compute; reflexivity|apply blocking_iff; vm_compute; reflexivity]. Qed.

(** C17 after any calls *)
Theorem C17_any_history_partial : forall (E : ext) (f : fbas) (cs : list call), ext_ok E -> wf_fbas f ->
  (In AlternativeCheck cs -> has_a_quorum f) -> sane_clusters f ->
  exists ans r l, analyze E f (cs ++ [MinimalBlockingSets]) = Ok (ans ++ [AVec r]) /\ vr_unwrap r = Ok l /\
    StronglySorted before l /\ forall B, In B l <-> has_a_quorum f /\ minimal_blocking f B.
Proof. exact (fun E f cs HE Hwf => harmless_mbs E HE f Hwf cs). Qed.
Print Assumptions C17_any_history_partial.

(** C18: without slack in the inner quorum sets some splitting sets are missing, but all reported ones split. *)
Theorem C18_reported_sets_split_partial : forall (E : ext) (f : fbas) (MQ : list bset), ext_ok E -> wf_fbas f ->
  quorum_intersection f -> NoDup MQ -> (forall Q, In Q MQ <-> minimal_quorum f Q) ->
  (forall q, satisfiable_cluster f q -> no_repetitions q /\ sane q) ->
  exists l, find_minimal_splitting_sets E f MQ = Ok l /\ forall S, In S l -> splitting f S.
Proof. exact (fun E f MQ HE Hwf => mss_sound E HE f Hwf MQ). Qed.
Print Assumptions C18_reported_sets_split_partial.

Theorem C18_analysis_reports_splitting_sets_partial : forall (E : ext) (f : fbas) (cs : list call), ext_ok E -> wf_fbas f ->
  sane_clusters f -> has_a_quorum f ->
  exists ans, analyze E f cs = Ok ans /\
    Forall2 (fun c a => c = MinimalSplittingSets -> exists r l, a = AVec r /\ vr_unwrap r = Ok l /\ forall S, In S l -> splitting f S) cs ans.
Proof. exact (fun E f cs HE Hwf => sane_reported_split E HE f Hwf cs). Qed.
Print Assumptions C18_analysis_reports_splitting_sets_partial.

Theorem C18_after_harmless_calls_partial : forall (E : ext) (f : fbas) (cs : list call), ext_ok E -> wf_fbas f -> harmless f cs ->
  splittable_clusters f -> has_a_quorum f ->
  exists ans r l, analyze E f (cs ++ [MinimalSplittingSets]) = Ok (ans ++ [AVec r]) /\ vr_unwrap r = Ok l /\
    StronglySorted before l /\ forall S, In S l <-> minimal_splitting f S.
Proof. exact (fun E f cs HE Hwf => harmless_mss E HE f Hwf cs). Qed.
Print Assumptions C18_after_harmless_calls_partial.

Example C18_reported_example : wf_fbas uneven /\ sane_clusters uneven /\ has_a_quorum uneven /\ splitCb uneven = false /\
  skipn 1 (vec_of (analyze std_ext uneven [MinimalBlockingSets; MinimalSplittingSets])) = [[[2];[3];[4];[5];[6];[7]]].
Proof.
  split; [apply wfb_ok; vm_compute; reflexivity|]. split; [apply saneCb_ok; vm_compute; reflexivity|].
  split; [apply (has_quorum uneven (of_list [0;1;2;3])); vm_compute; reflexivity|]. split; vm_compute; reflexivity.
Qed.

(** Nodes that are mentioned twice: a reported set does not split. *)
Theorem C18_repetition_refuted : exists f MQ S, wf_fbas f /\ quorum_intersection f /\ (forall x q, node_of f x q -> sane q) /\
  find_minimal_quorums std_ext f = Ok MQ /\ (exists l, find_minimal_splitting_sets std_ext f MQ = Ok l /\ In S l) /\ ~ splitting f S.
Proof. exact repetition_splitting. Qed.
Print Assumptions C18_repetition_refuted.
