(** Asking an [Analysis] the same question again, and the numbers of sets in the report of the command line tool. *)
From Verif Require Import Spec_Cli P_Sets P_List.
Local Open Scope string_scope.
Local Open Scope list_scope.
Local Open Scope nat_scope.

Section Repeat.
Context (E : ext).
Lemma mq_again a v a' : minimal_quorums_shrunken E a = Ok (v, a') -> mq_cache a' = Some v.
Proof.
  unfold minimal_quorums_shrunken. destruct (mq_cache a) as [w|] eqn:Em.
  - intro H. injection H as <- <-. auto.
  - destruct (find_minimal_quorums E (fbas_shrunken a)); cbn [bind]; [|discriminate].
    match goal with |- bind ?e _ = _ -> _ => destruct e as [b|] end; cbn [bind]; [|discriminate].
    destruct (mq_cache b) as [w|] eqn:Eb; cbn [unwrap bind]; [|discriminate]. intro H. injection H as <- <-. auto.
Qed.
Lemma mq_repeat a v a' : minimal_quorums_shrunken E a = Ok (v, a') -> minimal_quorums_shrunken E a' = Ok (v, a').
Proof. intro H. apply mq_again in H. unfold minimal_quorums_shrunken. now rewrite H. Qed.
Lemma mbs_again a v a' : minimal_blocking_sets_shrunken E a = Ok (v, a') -> mbs_cache a' = Some v.
Proof.
  unfold minimal_blocking_sets_shrunken. destruct (mbs_cache a) as [w|] eqn:Em.
  - intro H. injection H as <- <-. auto.
  - destruct (find_minimal_blocking_sets E (fbas_shrunken a)); cbn [bind]; [|discriminate].
    match goal with |- bind ?e _ = _ -> _ => destruct e as [b|] end; cbn [bind]; [|discriminate].
    destruct (mbs_cache b) as [w|] eqn:Eb; cbn [unwrap bind]; [|discriminate]. intro H. injection H as <- <-. auto.
Qed.
Lemma mbs_repeat a v a' : minimal_blocking_sets_shrunken E a = Ok (v, a') -> minimal_blocking_sets_shrunken E a' = Ok (v, a').
Proof. intro H. apply mbs_again in H. unfold minimal_blocking_sets_shrunken. now rewrite H. Qed.
Lemma hqi_again a b a' : has_quorum_intersection E a = Ok (b, a') -> hqi_cache a' = Some b /\ (forall v, mq_cache a = Some v -> mq_cache a' = Some v).
Proof.
  unfold has_quorum_intersection. destruct (hqi_cache a) as [w|] eqn:Em.
  - intro H. injection H as <- <-. auto.
  - destruct (minimal_quorums_shrunken E a) as [[q b1]|] eqn:Eq; cbn [bind]; [|discriminate]. intro H. injection H as <- <-. cbn. split; [auto|].
    intros v Hv. unfold minimal_quorums_shrunken in Eq. rewrite Hv in Eq. injection Eq as <- <-. auto.
Qed.
Lemma hqi_repeat a b a' : has_quorum_intersection E a = Ok (b, a') -> has_quorum_intersection E a' = Ok (b, a').
Proof. intro H. apply hqi_again in H. unfold has_quorum_intersection. now rewrite (proj1 H). Qed.
Lemma mss_repeat a v a' : minimal_splitting_sets_shrunken E a = Ok (v, a') -> minimal_splitting_sets_shrunken E a' = Ok (v, a').
Proof.
  unfold minimal_splitting_sets_shrunken at 1. destruct (minimal_quorums_shrunken E a) as [[q a1]|] eqn:Eq; cbn [bind]; [|discriminate].
  apply mq_again in Eq. destruct (mss_cache a1) as [w|] eqn:Es.
  - intro H. injection H as <- <-. unfold minimal_splitting_sets_shrunken, minimal_quorums_shrunken. rewrite Eq. cbn [bind]. now rewrite Es.
  - destruct (has_quorum_intersection E a1) as [[h a2]|] eqn:Eh; cbn [bind]; [|discriminate]. apply hqi_again in Eh. destruct Eh as [_ Eh]. specialize (Eh q Eq).
    match goal with |- bind ?e _ = _ -> _ => destruct e as [b|] end; cbn [bind]; [|discriminate]. cbn [set_mss mss_cache unwrap bind].
    intro H. injection H as <- <-. unfold minimal_splitting_sets_shrunken, minimal_quorums_shrunken. cbn [set_mss mq_cache]. rewrite Eh. cbn [bind mss_cache]. auto.
Qed.
Lemma tt_repeat a s a' : top_tier_shrunken E a = Ok (s, a') -> top_tier_shrunken E a' = Ok (s, a').
Proof.
  unfold top_tier_shrunken at 1. destruct (negb (is_none (mq_cache a)) || is_none (mbs_cache a)) eqn:Ec.
  - destruct (minimal_quorums_shrunken E a) as [[q a1]|] eqn:Eq; cbn [bind fst snd]; [|discriminate]. intro H. injection H as <- <-.
    unfold top_tier_shrunken. rewrite (mq_again _ _ _ Eq). cbn [is_none negb orb]. rewrite (mq_repeat _ _ _ Eq). auto.
  - destruct (minimal_blocking_sets_shrunken E a) as [[q a1]|] eqn:Eq; cbn [bind fst snd]; [|discriminate]. intro H. injection H as <- <-.
    pose proof Eq as Eq'. unfold minimal_blocking_sets_shrunken in Eq. destruct (mbs_cache a) as [w|] eqn:Em; [|rewrite orb_true_r in Ec; discriminate].
    injection Eq as <- <-. unfold top_tier_shrunken. rewrite Em, Ec, (mbs_repeat _ _ _ Eq'). auto.
Qed.
(** the same question again: the same answer, and nothing changes *)
Lemma perform_again a c x a' : perform E a c = Ok (x, a') -> perform E a' c = Ok (x, a').
Proof.
  destruct c; cbn [perform]; intro H.
  all: try (injection H as <- <-; reflexivity).
  - destruct (has_quorum_intersection E a) as [[b a1]|] eqn:Eq; cbn [bind fst snd] in H; [|discriminate]. injection H as <- <-. now rewrite (hqi_repeat _ _ _ Eq).
  - destruct (alternative_check E a) as [[b a1]|] eqn:Eq; cbn [bind fst snd] in H; [|discriminate]. injection H as <- <-. now rewrite Eq.
  - destruct (minimal_quorums_shrunken E a) as [[b a1]|] eqn:Eq; cbn [res_map bind] in H; [|discriminate]. unfold vec_answer in H. cbn [fst snd] in H. injection H as <- <-. now rewrite (mq_repeat _ _ _ Eq).
  - destruct (minimal_blocking_sets_shrunken E a) as [[b a1]|] eqn:Eq; cbn [res_map bind] in H; [|discriminate]. unfold vec_answer in H. cbn [fst snd] in H. injection H as <- <-. now rewrite (mbs_repeat _ _ _ Eq).
  - destruct (minimal_splitting_sets_shrunken E a) as [[b a1]|] eqn:Eq; cbn [res_map bind] in H; [|discriminate]. unfold vec_answer in H. cbn [fst snd] in H. injection H as <- <-. now rewrite (mss_repeat _ _ _ Eq).
  - destruct (top_tier_shrunken E a) as [[b a1]|] eqn:Eq; cbn [bind fst snd] in H; [|discriminate].
    destruct (set_result_new b (Some (a_sm a1))) eqn:Es; cbn [bind] in H; [|discriminate]. injection H as <- <-. rewrite (tt_repeat _ _ _ Eq). cbn [bind fst snd]. now rewrite Es.
Qed.
Lemma perform_all_app cs ds a : perform_all E a (cs ++ ds) = (r <- perform_all E a cs ;; r' <- perform_all E (snd r) ds ;; Ok (fst r ++ fst r', snd r')).
Proof.
  revert a. induction cs as [|c cs IH]; intro a; cbn [app perform_all bind fst snd].
  - destruct (perform_all E a ds) as [[x b]|]; reflexivity.
  - destruct (perform E a c) as [[x b]|]; cbn [bind fst snd]; [|auto]. rewrite IH. destruct (perform_all E b cs) as [[y b1]|]; cbn [bind fst snd]; [|auto].
    destruct (perform_all E b1 ds) as [[z b2]|]; reflexivity.
Qed.
Lemma perform_all_len cs a x b : perform_all E a cs = Ok (x, b) -> List.length x = List.length cs.
Proof.
  revert a x b. induction cs as [|c cs IH]; intros a x b; cbn [perform_all]; intro H; [injection H as <- <-; auto|].
  destruct (perform E a c) as [[y b1]|]; cbn [bind fst snd] in H; [|discriminate]. destruct (perform_all E b1 cs) as [[z b2]|] eqn:Ez; cbn [bind fst snd] in H; [|discriminate].
  injection H as <- <-. cbn. f_equal. eapply IH; eauto.
Qed.
(** [c] may be asked twice instead of once, whatever was asked before and is asked afterwards *)
Lemma repeated_question f cs c ds :
  (analyze E f (cs ++ c :: ds) = Panic /\ analyze E f (cs ++ c :: c :: ds) = Panic) \/
  (exists xs x ys, analyze E f (cs ++ c :: ds) = Ok (xs ++ x :: ys) /\ analyze E f (cs ++ c :: c :: ds) = Ok (xs ++ x :: x :: ys) /\
     List.length xs = List.length cs).
Proof.
  unfold analyze. destruct (analysis_new E f) as [a|]; cbn [bind]; [|left; auto]. rewrite !perform_all_app.
  destruct (perform_all E a cs) as [[x b]|] eqn:Ex; cbn [bind fst snd res_map]; [|left; auto]. apply perform_all_len in Ex.
  cbn [perform_all]. destruct (perform E b c) as [[y b1]|] eqn:Ey; cbn [bind fst snd res_map]; [|left; auto].
  rewrite (perform_again _ _ _ _ Ey). cbn [bind fst snd]. destruct (perform_all E b1 ds) as [[z b2]|]; cbn [bind fst snd res_map]; [|left; auto].
  right. exists x, y, z. auto.
Qed.
End Repeat.
