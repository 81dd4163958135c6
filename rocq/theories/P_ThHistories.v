(** Examples and final forms of the lemmas about histories of calls. *)
From Verif Require Export P_ThAnalysis P_Histories.
Local Open Scope list_scope.

Lemma harmless_app f cs c : harmless f cs -> c <> MinimalBlockingSets -> (c = AlternativeCheck -> has_a_quorum f) -> harmless f (cs ++ [c]).
Proof.
  intros [H1 H2] Hc Ha. split.
  - intro H. apply in_app_iff in H. destruct H as [H|[H|[]]]; auto.
  - intros earlier later E. destruct (exists_last (l := MinimalBlockingSets :: later)) as (r & z & Hz); [discriminate|].
    rewrite Hz, app_assoc in E. apply app_inj_tail in E. destruct E as [E <-].
    destruct r as [|r0 r]; simpl in Hz; inversion Hz; subst; [contradiction|]. apply (H2 earlier r); auto.
Qed.

Section Last.
Variable E : ext. Hypothesis HE : ext_ok E.
Variable f : fbas. Hypothesis Hwf : wf_fbas f.

Lemma last_harmless cs c : harmless f (cs ++ [c]) -> allowed f c ->
  exists ans a, analyze E f (cs ++ [c]) = Ok (ans ++ [a]) /\ correct_answer E f c a.
Proof.
  intros H Hc. destruct (harmless_answers E HE f Hwf _ H) as (l & El & Hl).
  apply Forall2_app_inv_l in Hl. destruct Hl as (l1 & l2 & _ & H2 & ->). inversion H2 as [|? a ? ? Ha Hn]; subst. inversion Hn; subst.
  exists l1, a. split; auto. apply Ha; auto.
Qed.

Lemma harmless_hqi cs : harmless f cs -> exists ans b, analyze E f (cs ++ [HasQuorumIntersection]) = Ok (ans ++ [ABool b]) /\ (b = true <-> quorum_intersection f).
Proof.
  intro H. destruct (last_harmless cs HasQuorumIntersection) as (ans & a & Ea & b & -> & Hb); [apply harmless_app; auto; discriminate|exact I|]. eauto.
Qed.

Lemma harmless_top_tier cs : harmless f cs -> exists ans s, analyze E f (cs ++ [TopTier]) = Ok (ans ++ [ASet s]) /\
  forall x, mem x s = true <-> exists Q, minimal_quorum f Q /\ mem x Q = true.
Proof.
  intro H. destruct (last_harmless cs TopTier) as (ans & a & Ea & b & -> & Hb); [apply harmless_app; auto; discriminate|exact I|]. eauto.
Qed.

Lemma harmless_alternative cs : harmless f cs -> has_a_quorum f ->
  exists ans a, analyze E f (cs ++ [AlternativeCheck]) = Ok (ans ++ [a]) /\
    ((a = AAlternative true None /\ quorum_intersection f) \/
     (exists r l, a = AAlternative false (Some r) /\ vr_unwrap r = Ok l /\ ~ quorum_intersection f /\
        2 <= List.length l /\ (forall Q, In Q l -> quorum f Q) /\ ForallOrdPairs (fun A B => ~ meets A B) l)).
Proof.
  intros H Hq. apply (last_harmless cs AlternativeCheck); auto. apply harmless_app; auto. discriminate.
Qed.

Lemma harmless_mq cs : harmless f cs -> exists ans r l, analyze E f (cs ++ [MinimalQuorums]) = Ok (ans ++ [AVec r]) /\ vr_unwrap r = Ok l /\
  forall Q, In Q l <-> minimal_quorum f Q.
Proof.
  intro H. destruct (last_harmless cs MinimalQuorums) as (ans & a & Ea & r & l & -> & Hr & [_ Hl] & _); [apply harmless_app; auto; discriminate|exact I|].
  exists ans, r, l. auto.
Qed.

Lemma harmless_mss cs : harmless f cs -> splittable_clusters f -> has_a_quorum f ->
  exists ans r l, analyze E f (cs ++ [MinimalSplittingSets]) = Ok (ans ++ [AVec r]) /\ vr_unwrap r = Ok l /\
    StronglySorted before l /\ forall S, In S l <-> minimal_splitting f S.
Proof.
  intros H Hs Hq. destruct (last_harmless cs MinimalSplittingSets) as (ans & a & Ea & r & l & -> & Hr & H1 & H2); [apply harmless_app; auto; discriminate|exact Hs|].
  exists ans, r, l. split; auto. split; auto. split; auto. intro S. rewrite H2. unfold reported_splitting. tauto.
Qed.

Lemma harmless_mbs cs : (In AlternativeCheck cs -> has_a_quorum f) -> sane_clusters f ->
  exists ans r l, analyze E f (cs ++ [MinimalBlockingSets]) = Ok (ans ++ [AVec r]) /\ vr_unwrap r = Ok l /\
    StronglySorted before l /\ forall B, In B l <-> has_a_quorum f /\ minimal_blocking f B.
Proof.
  intros H Hs. destruct (last_harmless cs MinimalBlockingSets) as (ans & a & Ea & r & l & -> & Hr & H1 & H2); [|exact Hs|].
  - split; auto. intro H0. apply in_app_iff in H0. destruct H0 as [H0|[H0|[]]]; auto. discriminate.
  - exists ans, r, l. auto.
Qed.

Lemma harmless_independent cs c : harmless f cs -> allowed f c ->
  (c = MinimalQuorums -> distinct_clusters f) -> c <> AlternativeCheck ->
  exists ans a fresh, analyze E f (cs ++ [c]) = Ok (ans ++ [a]) /\ analyze E f [c] = Ok [fresh] /\ same_answer a fresh.
Proof.
  intros H Hc Hd Hn.
  assert (Hh : harmless f (cs ++ [c])).
  { assert (Hb : c = MinimalBlockingSets \/ c <> MinimalBlockingSets) by (destruct c; auto; right; discriminate). destruct Hb as [-> | Hb]; [|apply harmless_app; auto; contradiction].
    split.
    - intro H0. apply in_app_iff in H0. destruct H0 as [H0|[H0|[]]]; [apply H; auto|discriminate].
    - intros. right. exact Hc. }
  destruct (last_harmless cs c Hh Hc) as (ans & a & Ea & Ha).
  destruct (analyze_ok E HE f Hwf [c]) as (l & El & Hl); [constructor; auto|].
  inversion Hl as [|? b ? ? Hb Hnil]; subst. inversion Hnil; subst. exists ans, a, b. split; auto. split; auto.
  apply (correct_same E f c a b); auto. destruct c; auto; right; discriminate.
Qed.

Lemma harmless_allowed cs : harmless f cs ->
  exists ans, analyze E f cs = Ok ans /\ Forall2 (fun c a => allowed f c -> correct_answer E f c a) cs ans.
Proof.
  intro H. destruct (harmless_answers E HE f Hwf cs H) as (ans & Ea & Ha). exists ans. split; auto.
  revert Ha. apply Forall2_impl. intros c a [P _]. exact P.
Qed.

Lemma sane_reported_split cs : sane_clusters f -> has_a_quorum f -> exists ans, analyze E f cs = Ok ans /\
  Forall2 (fun c a => c = MinimalSplittingSets -> exists r l, a = AVec r /\ vr_unwrap r = Ok l /\ forall S, In S l -> splitting f S) cs ans.
Proof.
  intros Hs Hq. destruct (harmless_answers E HE f Hwf cs) as (ans & Ea & Ha).
  - split; auto.
  - exists ans. split; auto. revert Ha. apply Forall2_impl. intros c a [_ H] ->. apply H; auto.
Qed.
End Last.

(** two nodes that mention one of them twice *)
Definition repeated := let q := QS 2 [0;0;1] [] in sample [q;q].
Lemma repetition_splitting : exists f MQ S, wf_fbas f /\ quorum_intersection f /\ (forall x q, node_of f x q -> sane q) /\
  find_minimal_quorums std_ext f = Ok MQ /\ (exists l, find_minimal_splitting_sets std_ext f MQ = Ok l /\ In S l) /\ ~ splitting f S.
Proof.
  assert (Hwf : wf_fbas repeated) by (apply wfb_ok; vm_compute; reflexivity).
  destruct (find_minimal_quorums std_ext repeated) as [mq|] eqn:Emq; [|vm_compute in Emq; discriminate].
  assert (Hmq := mq_of repeated mq Hwf Emq).
  exists repeated, mq, (of_list [1]). split; auto. split.
  { destruct (last_answer std_ext repeated [] HasQuorumIntersection std_ext_ok Hwf (Forall_nil _) I) as (ans & a & Ea & b & -> & Hb).
    apply Hb. assert (Ev : analyze std_ext repeated [HasQuorumIntersection] = Ok [ABool true]) by (vm_compute; reflexivity).
    simpl app in Ea. rewrite Ev in Ea. destruct ans as [|a0 [|a1 ans]]; inversion Ea; auto. }
  split.
  { intros x q (n & Hn & <-). apply saneb_ok. apply nth_error_In in Hn.
    assert (H : forallb (fun n => saneb (node_qset n)) (nodes repeated) = true) by (vm_compute; reflexivity).
    rewrite forallb_forall in H. auto. }
  split; auto. vm_compute in Emq. injection Emq as Emq. subst mq. split.
  - eexists. split; [vm_compute; reflexivity|]. vm_compute. auto.
  - rewrite <- (splitting_from_iff repeated _ _ Hmq). vm_compute. discriminate.
Qed.
