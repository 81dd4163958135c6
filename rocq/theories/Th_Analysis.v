(** Theorems about [Analysis]: correctness of its answers and independence of earlier calls. *)
From Verif Require Import P_ThAnalysis.
Local Open Scope list_scope.

(** C11, in terms of quorums and trust only *)
Theorem C11_relevant_nodes_exact : forall (E : ext) (f : fbas) (x : nat), ext_ok E -> wf_fbas f ->
  (mem x (relevant_nodes E f) = true <-> relevant f x).
Proof. exact mem_relevant_iff. Qed.
Print Assumptions C11_relevant_nodes_exact.

(** C14: quorum intersection, after any history of calls *)
Theorem C14_has_quorum_intersection : forall (E : ext) (f : fbas) (cs : list call), ext_ok E -> wf_fbas f -> Forall (allowed f) cs ->
  exists ans b, analyze E f (cs ++ [HasQuorumIntersection]) = Ok (ans ++ [ABool b]) /\ (b = true <-> quorum_intersection f).
Proof. exact hqi_after. Qed.
Print Assumptions C14_has_quorum_intersection.

Example C14_example : wf_fbas nested3 /\ Forall (allowed nested3) [MinimalBlockingSets; MinimalSplittingSets; TopTier] /\
  analyze std_ext nested3 [HasQuorumIntersection] = Ok [ABool true] /\
  analyze std_ext mixed [HasQuorumIntersection] = Ok [ABool false].
Proof.
  split; [apply wfb_ok; vm_compute; reflexivity|split; [|vm_compute; auto]].
  constructor; [apply saneCb_ok; vm_compute; reflexivity|]. constructor; [apply splitCb_ok; vm_compute; reflexivity|].
  constructor; [exact I|constructor].
Qed.

(** C15: search for disjoint quorums *)
Theorem C15_find_nonintersecting_quorums : forall (E : ext) (f : fbas), ext_ok E -> wf_fbas f -> has_a_quorum f ->
  exists o, find_nonintersecting_quorums E f = Ok o /\
    match o with
    | Some v => 2 <= List.length v /\ (forall Q, In Q v -> quorum f Q) /\ ForallOrdPairs (fun a b => ~ meets a b) v
    | None => forall Q1 Q2, quorum f Q1 -> quorum f Q2 -> meets Q1 Q2
    end.
Proof. exact (fun E f HE Hwf => find_nonintersecting_quorums_spec E HE f Hwf). Qed.
Print Assumptions C15_find_nonintersecting_quorums.

Theorem C15_panics_without_quorum : forall (E : ext) (f : fbas), ext_ok E -> wf_fbas f -> ~ has_a_quorum f ->
  find_nonintersecting_quorums E f = Panic.
Proof. exact nonintersecting_panic. Qed.
Print Assumptions C15_panics_without_quorum.

Example C15_example : wf_fbas five /\ has_a_quorum five /\ find_nonintersecting_quorums std_ext nested3 = Ok None /\
  exists v, find_nonintersecting_quorums std_ext five = Ok (Some v) /\ map elements v = [[0;1];[2;3]].
Proof.
  split; [exact five_wf|]. split; [apply (has_quorum five (of_list [0])); vm_compute; reflexivity|].
  split; [vm_compute; reflexivity|]. eexists. split; vm_compute; reflexivity.
Qed.

(** C16: the alternative check. It panics if there is no quorum. *)
Theorem C16_alternative_check_partial : forall (E : ext) (f : fbas) (cs : list call), ext_ok E -> wf_fbas f -> Forall (allowed f) cs ->
  has_a_quorum f ->
  exists ans a, analyze E f (cs ++ [AlternativeCheck]) = Ok (ans ++ [a]) /\
    ((a = AAlternative true None /\ quorum_intersection f) \/
     (exists r l, a = AAlternative false (Some r) /\ vr_unwrap r = Ok l /\ ~ quorum_intersection f /\
        2 <= List.length l /\ (forall Q, In Q l -> quorum f Q) /\ ForallOrdPairs (fun A B => ~ meets A B) l)).
Proof. exact alternative_after. Qed.
Print Assumptions C16_alternative_check_partial.

Theorem C16_agreement_partial : forall (E : ext) (f : fbas) (cs : list call), ext_ok E -> wf_fbas f -> Forall (allowed f) cs ->
  has_a_quorum f ->
  exists ans a hqi ans' b o, analyze E f (cs ++ [AlternativeCheck]) = Ok (ans ++ [a]) /\
    analyze E f (cs ++ [HasQuorumIntersection]) = Ok (ans' ++ [ABool hqi]) /\ a = AAlternative b o /\ b = hqi.
Proof. exact alternative_independent. Qed.
Print Assumptions C16_agreement_partial.

Theorem C16_no_quorum_refuted : exists f, wf_fbas f /\ analyze std_ext f [AlternativeCheck] = Panic /\
  analyze std_ext f [HasQuorumIntersection] = Ok [ABool false].
Proof. exact alternative_panics. Qed.
Print Assumptions C16_no_quorum_refuted.

Example C16_example : wf_fbas mixed /\ has_a_quorum mixed /\ Forall (allowed mixed) [TopTier; MinimalBlockingSets].
Proof.
  split; [exact mixed_wf|]. split; [apply (has_quorum mixed (of_list [2;3])); vm_compute; reflexivity|].
  constructor; [exact I|constructor; [apply saneCb_ok; vm_compute; reflexivity|constructor]].
Qed.

(** C17 through [Analysis] *)
Theorem C17_analysis_partial : forall (E : ext) (f : fbas) (cs : list call), ext_ok E -> wf_fbas f -> Forall (allowed f) cs ->
  sane_clusters f ->
  exists ans r l, analyze E f (cs ++ [MinimalBlockingSets]) = Ok (ans ++ [AVec r]) /\ vr_unwrap r = Ok l /\
    StronglySorted before l /\ forall B, In B l <-> has_a_quorum f /\ minimal_blocking f B.
Proof. exact mbs_after. Qed.
Print Assumptions C17_analysis_partial.

(** Without the condition the reported sets can be wrong, in a network in which all nodes of one
    inner quorum set failed: sets that are not minimal are reported, minimal ones are missing. *)
Theorem C17_failed_inner_set_refuted : exists f B r, wf_fbas f /\ minimal_blocking f B /\
  (forall x q, node_of f x q -> no_repetitions q) /\
  analyze std_ext f [MinimalBlockingSets] = Ok [AVec r] /\
  exists l, vr_unwrap r = Ok l /\ ~ In B l /\ exists B', In B' l /\ ~ minimal_blocking f B'.
Proof. exact crashed_blocking. Qed.
Print Assumptions C17_failed_inner_set_refuted.

(** C18: minimal splitting sets *)
Theorem C18_find_minimal_splitting_sets_partial : forall (E : ext) (f : fbas) (MQ : list bset), ext_ok E -> wf_fbas f ->
  quorum_intersection f -> NoDup MQ -> (forall Q, In Q MQ <-> minimal_quorum f Q) ->
  (forall q, satisfiable_cluster f q -> no_repetitions q /\ (splittable q \/ rigid q)) ->
  exists l, find_minimal_splitting_sets E f MQ = Ok l /\ StronglySorted before l /\
    forall S, In S l <-> minimal_splitting f S.
Proof. exact (fun E f MQ HE Hwf => find_minimal_splitting_sets_spec E HE f Hwf MQ). Qed.
Print Assumptions C18_find_minimal_splitting_sets_partial.

Theorem C18_analysis_partial : forall (E : ext) (f : fbas) (cs : list call), ext_ok E -> wf_fbas f -> Forall (allowed f) cs ->
  splittable_clusters f -> has_a_quorum f ->
  exists ans r l, analyze E f (cs ++ [MinimalSplittingSets]) = Ok (ans ++ [AVec r]) /\ vr_unwrap r = Ok l /\
    StronglySorted before l /\ forall S, In S l <-> minimal_splitting f S.
Proof. exact mss_after. Qed.
Print Assumptions C18_analysis_partial.

Example C18_example : wf_fbas nested3 /\ splittable_clusters nested3 /\ has_a_quorum nested3 /\
  vec_of (analyze std_ext fourth [MinimalSplittingSets]) = [[[0;1];[0;2];[0;3];[1;2];[1;3];[2;3]]] /\
  map (fun l => firstn 2 l) (vec_of (analyze std_ext nested3 [MinimalSplittingSets])) = [[[0];[1]]].
Proof.
  split; [apply wfb_ok; vm_compute; reflexivity|]. split; [apply splitCb_ok; vm_compute; reflexivity|].
  split; [apply (has_quorum nested3 (of_list [0;1;3;4])); vm_compute; reflexivity|]. split; vm_compute; reflexivity.
Qed.

(** A symmetric network whose inner quorum sets have no slack: nothing is reported. *)
Theorem C18_tight_inner_sets_refuted : exists f MQ S, wf_fbas f /\ quorum_intersection f /\
  (forall x q, node_of f x q -> no_repetitions q /\ sane q) /\
  find_minimal_quorums std_ext f = Ok MQ /\ minimal_splitting f S /\ find_minimal_splitting_sets std_ext f MQ = Ok [].
Proof. exact strict_splitting. Qed.
Print Assumptions C18_tight_inner_sets_refuted.

(** All nodes of one inner quorum set failed: reported sets do not split. *)
Theorem C18_failed_inner_set_refuted : exists f S S' r, wf_fbas f /\ quorum_intersection f /\ minimal_splitting f S /\
  (forall x q, node_of f x q -> no_repetitions q) /\
  analyze std_ext f [MinimalSplittingSets] = Ok [AVec r] /\
  exists l, vr_unwrap r = Ok l /\ ~ In S l /\ In S' l /\ ~ splitting f S'.
Proof. exact crashed_splitting. Qed.
Print Assumptions C18_failed_inner_set_refuted.

Theorem C18_no_quorum_refuted : exists f r, wf_fbas f /\ (forall S, ~ minimal_splitting f S) /\
  analyze std_ext f [MinimalSplittingSets] = Ok [AVec r] /\ vr_unwrap r = Ok [bempty].
Proof. exact no_quorum_splitting. Qed.
Print Assumptions C18_no_quorum_refuted.

(** C19: top tier *)
Theorem C19_top_tier_partial : forall (E : ext) (f : fbas) (cs : list call), ext_ok E -> wf_fbas f -> Forall (allowed f) cs ->
  exists ans s, analyze E f (cs ++ [TopTier]) = Ok (ans ++ [ASet s]) /\
    forall x, mem x s = true <-> exists Q, minimal_quorum f Q /\ mem x Q = true.
Proof. exact top_tier_after. Qed.
Print Assumptions C19_top_tier_partial.

Theorem C19_blocking_sets_cover_top_tier : forall (f : fbas) (x : nat),
  (exists B, minimal_blocking f B /\ mem x B = true) <-> exists Q, minimal_quorum f Q /\ mem x Q = true.
Proof. exact minimal_blocking_top_tier. Qed.
Print Assumptions C19_blocking_sets_cover_top_tier.

Example C19_example : wf_fbas mixed /\ Forall (allowed mixed) [MinimalBlockingSets; MinimalQuorums] /\
  analyze std_ext mixed [TopTier] = Ok [ASet (of_list [0;1;2;3])].
Proof.
  split; [exact mixed_wf|]. split; [|vm_compute; reflexivity].
  constructor; [apply saneCb_ok; vm_compute; reflexivity|constructor; [exact I|constructor]].
Qed.

(** C20: no call panics (the alternative check aside) ... *)
Theorem C20_no_panic : forall (E : ext) (f : fbas) (cs : list call), ext_ok E -> wf_fbas f -> ~ In AlternativeCheck cs ->
  exists ans, analyze E f cs = Ok ans.
Proof. exact (fun E f cs HE Hwf => analyze_no_panic E HE f Hwf cs). Qed.
Print Assumptions C20_no_panic.

(** ... all answers are right ... *)
Theorem C20_answers_partial : forall (E : ext) (f : fbas) (cs : list call), ext_ok E -> wf_fbas f -> Forall (allowed f) cs ->
  exists ans, analyze E f cs = Ok ans /\ Forall2 (correct_answer E f) cs ans.
Proof. exact (fun E f cs HE Hwf => analyze_ok E HE f Hwf cs). Qed.
Print Assumptions C20_answers_partial.

(** ... and independent of what was asked before. *)
Theorem C20_history_independent_partial : forall (E : ext) (f : fbas) (cs : list call) (c : call), ext_ok E -> wf_fbas f ->
  Forall (allowed f) cs -> allowed f c -> (c = MinimalQuorums -> distinct_clusters f) -> c <> AlternativeCheck ->
  exists ans a fresh, analyze E f (cs ++ [c]) = Ok (ans ++ [a]) /\ analyze E f [c] = Ok [fresh] /\ same_answer a fresh.
Proof. exact history_independent. Qed.
Print Assumptions C20_history_independent_partial.

Example C20_example : wf_fbas nested3 /\ distinct_clusters nested3 /\
  Forall (allowed nested3) [MinimalBlockingSets; MinimalSplittingSets; TopTier; AlternativeCheck; MinimalQuorums; HasQuorumIntersection] /\
  firstn 2 (concat (vec_of (analyze std_ext nested3 [MinimalBlockingSets; MinimalQuorums]))) = [[0;1;3;4];[0;1;3;5]].
Proof.
  split; [apply wfb_ok; vm_compute; reflexivity|]. split; [apply distinctb_ok; vm_compute; reflexivity|]. split; [|vm_compute; reflexivity].
  constructor; [apply saneCb_ok; vm_compute; reflexivity|]. constructor; [apply splitCb_ok; vm_compute; reflexivity|].
  constructor; [exact I|]. constructor; [apply (has_quorum nested3 (of_list [0;1;3;4])); vm_compute; reflexivity|].
  constructor; [exact I|constructor; [exact I|constructor]].
Qed.

(** In full generality the claim fails: with an inner quorum set that has no known validators,
    asking for blocking sets first changes the verdict on quorum intersection and the top tier. *)
Theorem C20_history_refuted : exists f r r', wf_fbas f /\ (forall x q, node_of f x q -> no_repetitions q) /\ quorum_intersection f /\
  analyze std_ext f [HasQuorumIntersection] = Ok [ABool true] /\
  analyze std_ext f [MinimalBlockingSets; HasQuorumIntersection] = Ok [AVec r; ABool false] /\
  analyze std_ext f [TopTier] = Ok [ASet (of_list [0])] /\
  analyze std_ext f [MinimalBlockingSets; TopTier] = Ok [AVec r'; ASet bempty].
Proof. exact history_matters. Qed.
Print Assumptions C20_history_refuted.

(** The quorums delivered by the alternative check depend on earlier calls. *)
Theorem C20_alternative_payload_refuted : exists f r r' mq l l', wf_fbas f /\
  analyze std_ext f [AlternativeCheck] = Ok [AAlternative false (Some r)] /\
  analyze std_ext f [MinimalQuorums; AlternativeCheck] = Ok [mq; AAlternative false (Some r')] /\
  vr_unwrap r = Ok l /\ vr_unwrap r' = Ok l' /\ l <> l'.
Proof. exact alternative_payload. Qed.
Print Assumptions C20_alternative_payload_refuted.

(** C21: shrinking an FBAS *)
Theorem C21_shrunken_quorums : forall (f : fbas) (K : bset),
  exists g, shrunken f K = Ok (g, sm_new K) /\ number_of_nodes g = len K /\ wf_fbas g /\
  forall S' S, unshrink_set (sm_new K) S' = Ok S -> (quorum g S' <-> quorum f S) /\ (minimal_quorum g S' <-> minimal_quorum f S).
Proof. exact shrunken_quorums. Qed.
Print Assumptions C21_shrunken_quorums.

Example C21_example : unshrink_set (sm_new (of_list [2;3])) (of_list [0;1]) = Ok (of_list [2;3]) /\
  exists g, shrunken mixed (of_list [2;3]) = Ok (g, sm_new (of_list [2;3])) /\ is_quorum g (of_list [0;1]) = true.
Proof. split; [vm_compute; reflexivity|]. eexists. split; vm_compute; reflexivity. Qed.

(** C22: shrinking sets of ids *)
Theorem C22_unshrink_after_shrink : forall (K s : bset), incl_set s K ->
  exists s', shrink_set (sm_new K) s = Ok s' /\ unshrink_set (sm_new K) s' = Ok s /\ len s' = len s.
Proof. exact shrink_unshrink. Qed.
Print Assumptions C22_unshrink_after_shrink.

Theorem C22_shrink_after_unshrink : forall (K s' : bset), (forall i, mem i s' = true -> i < len K) ->
  exists s, unshrink_set (sm_new K) s' = Ok s /\ incl_set s K /\ shrink_set (sm_new K) s = Ok s' /\
    forall x, mem x s = true <-> exists i, mem i s' = true /\ nth_error (elements K) i = Some x.
Proof. exact unshrink_shrink. Qed.
Print Assumptions C22_shrink_after_unshrink.

Theorem C22_order : forall (K a b ua ub : bset), unshrink_set (sm_new K) a = Ok ua -> unshrink_set (sm_new K) b = Ok ub ->
  (incl_set a b <-> incl_set ua ub) /\ (before a b <-> before ua ub) /\ len a = len ua.
Proof. exact unshrink_order. Qed.
Print Assumptions C22_order.

Theorem C22_reshrink : forall (new old : bset) (l : list bset),
  reshrink_sets (sm_new new) l (sm_new old) = (u <- unshrink_sets (sm_new old) l ;; shrink_sets (sm_new new) u).
Proof. exact reshrink_sets_eq. Qed.
Print Assumptions C22_reshrink.

Theorem C22_panics : forall (K s : bset),
  (shrink_set (sm_new K) s = Panic <-> ~ incl_set s K) /\
  (unshrink_set (sm_new K) s = Panic <-> ~ forall i, mem i s = true -> i < len K).
Proof. exact (fun K s => conj (shrink_set_panic K s) (unshrink_panic K s)). Qed.
Print Assumptions C22_panics.

Example C22_example : shrink_set (sm_new (of_list [2;5;9])) (of_list [9;2]) = Ok (of_list [0;2]) /\
  unshrink_set (sm_new (of_list [2;5;9])) (of_list [0;2]) = Ok (of_list [2;9]) /\
  shrink_set (sm_new (of_list [2;5;9])) (of_list [3]) = Panic.
Proof. vm_compute. auto. Qed.

(** C25: failed nodes *)
Theorem C25_blocking_without_nodes_partial : forall (E : ext) (f : fbas) (F : list nat), ext_ok E -> wf_fbas f ->
  sane_clusters f -> has_a_quorum f ->
  exists r r' l, analyze E f [MinimalBlockingSets] = Ok [AVec r] /\ vr_without_nodes r F = Ok r' /\
    vr_unwrap (vr_minimal_sets r') = Ok l /\
    StronglySorted before l /\ (forall B, In B l <-> minimal (fun B => blocking f (union B (of_list F))) B) /\
    (vr_contains_empty_set r' = true <-> blocking f (of_list F)).
Proof. exact blocking_without. Qed.
Print Assumptions C25_blocking_without_nodes_partial.

Theorem C25_splitting_without_nodes_partial : forall (E : ext) (f : fbas) (F : list nat), ext_ok E -> wf_fbas f ->
  splittable_clusters f -> has_a_quorum f ->
  exists r r' l, analyze E f [MinimalSplittingSets] = Ok [AVec r] /\ vr_without_nodes r F = Ok r' /\
    vr_unwrap (vr_minimal_sets r') = Ok l /\
    StronglySorted before l /\ (forall S, In S l <-> minimal (fun S => splitting f (union S (of_list F))) S) /\
    (vr_contains_empty_set r' = true <-> splitting f (of_list F)).
Proof. exact splitting_without. Qed.
Print Assumptions C25_splitting_without_nodes_partial.

Example C25_example : wf_fbas nested3 /\ sane_clusters nested3 /\ splittable_clusters nested3 /\ has_a_quorum nested3.
Proof.
  split; [apply wfb_ok; vm_compute; reflexivity|]. split; [apply saneCb_ok; vm_compute; reflexivity|].
  split; [apply splitCb_ok; vm_compute; reflexivity|]. apply (has_quorum nested3 (of_list [0;1;3;4])); vm_compute; reflexivity.
Qed.

(** C30: accessors report original ids; exactly [involved_nodes] does not *)
Theorem C30_accessors : forall (r : vec_result) (l : list bset), vr_unwrap r = Ok l ->
  vr_into_vec_vec r = Ok (map elements l) /\
  forall F, exists r', vr_without_nodes r F = Ok r' /\ vr_unwrap r' = Ok (map (fun s => diff s (of_list F)) l).
Proof. exact accessors. Qed.
Print Assumptions C30_accessors.

Theorem C30_minimal_quorums : forall (E : ext) (f : fbas) (cs : list call), ext_ok E -> wf_fbas f -> Forall (allowed f) cs ->
  exists ans r l, analyze E f (cs ++ [MinimalQuorums]) = Ok (ans ++ [AVec r]) /\ vr_unwrap r = Ok l /\
    forall Q, In Q l <-> minimal_quorum f Q.
Proof. exact mq_after. Qed.
Print Assumptions C30_minimal_quorums.

Theorem C30_involved_nodes_refuted : exists f r l, wf_fbas f /\ analyze std_ext f [MinimalQuorums] = Ok [AVec r] /\ vr_unwrap r = Ok l /\
  vr_involved_nodes r <> involved_nodes l.
Proof. exact involved_shrunken. Qed.
Print Assumptions C30_involved_nodes_refuted.
