(** Calls of [Analysis] methods as made by the command line tools, whatever the quorum sets look like. *)
From Coq Require Import ZArith Reals Ascii.
From Verif Require Export P_BulkRows P_Histories P_BlockingSound.
Local Open Scope string_scope.
Local Open Scope list_scope.
Local Open Scope nat_scope.

(** ** the ids in use are ids of nodes *)
Definition keeps (N : nat) (a : analysis) : Prop := forall x, In x (unshrink_table (a_sm a)) -> x < N.
Lemma unshrink_in t s s' x : unshrink_set_with t s = Ok s' -> mem x s' = true -> In x t.
Proof.
  intros H Hx. destruct (unshrink_with_up t s s' H) as [_ ->]. apply mem_up in Hx. destruct Hx as (i & H1 & H2). first [eapply nth_error_In; exact H1 | eapply nth_error_In; exact H2].
Qed.
Lemma shrink_keeps N a a' : keeps N a -> shrink_id_space_to_top_tier a = Ok a' -> keeps N a'.
Proof.
  unfold shrink_id_space_to_top_tier. intros Hk H.
  destruct (match mq_cache a with Some mq => _ | None => _ end) as [t|]; cbn [bind] in H; [|discriminate].
  destruct (unshrink_set (a_sm a) t) as [o|] eqn:Eo; cbn [bind] in H; [|discriminate].
  destruct (shrunken (fbas_original a) o) as [[g sm]|] eqn:E; cbn [bind] in H; [|discriminate].
  unfold assert in H. destruct (_ || _); [|discriminate].
  destruct (mapM_option _ (mq_cache a)); cbn [bind] in H; [|discriminate].
  destruct (mapM_option _ (mbs_cache a)); cbn [bind] in H; [|discriminate].
  inversion H; subst. unfold keeps. cbn. rewrite (shrunken_sm (fbas_original a) o g sm E). cbn. intros x Hx. apply elements_spec in Hx.
  apply Hk. eapply unshrink_in; eauto.
Qed.
Lemma mq_keeps N E a l a' : keeps N a -> minimal_quorums_shrunken E a = Ok (l, a') -> keeps N a'.
Proof.
  unfold minimal_quorums_shrunken. intros Ha H. destruct (mq_cache a) eqn:Ec; [inversion H; subst; auto|].
  destruct (find_minimal_quorums E (fbas_shrunken a)) as [mq|]; cbn [bind] in H; [|discriminate].
  match type of H with bind ?e _ = _ => destruct e as [a2|] eqn:E2 end; cbn [bind] in H; [|discriminate].
  destruct (unwrap (mq_cache a2)); cbn [bind] in H; [|discriminate]. inversion H; subst.
  destruct (_ && _) in E2; [eapply shrink_keeps; [|eauto]|inversion E2; subst]; exact Ha.
Qed.
Lemma mbs_keeps N E a l a' : keeps N a -> minimal_blocking_sets_shrunken E a = Ok (l, a') -> keeps N a'.
Proof.
  unfold minimal_blocking_sets_shrunken. intros Ha H. destruct (mbs_cache a) eqn:Ec; [inversion H; subst; auto|].
  destruct (find_minimal_blocking_sets E (fbas_shrunken a)) as [mq|]; cbn [bind] in H; [|discriminate].
  match type of H with bind ?e _ = _ => destruct e as [a2|] eqn:E2 end; cbn [bind] in H; [|discriminate].
  destruct (unwrap (mbs_cache a2)); cbn [bind] in H; [|discriminate]. inversion H; subst.
  destruct (_ && _) in E2; [eapply shrink_keeps; [|eauto]|inversion E2; subst]; exact Ha.
Qed.
Lemma hqi_keeps N E a b a' : keeps N a -> has_quorum_intersection E a = Ok (b, a') -> keeps N a'.
Proof.
  unfold has_quorum_intersection. intros Ha H. destruct (hqi_cache a); [inversion H; subst; auto|].
  destruct (minimal_quorums_shrunken E a) as [[l a2]|] eqn:E2; cbn [bind] in H; [|discriminate]. inversion H; subst.
  apply (mq_keeps N E a l a2 Ha E2).
Qed.
Lemma mss_keeps N E a l a' : keeps N a -> minimal_splitting_sets_shrunken E a = Ok (l, a') -> keeps N a'.
Proof.
  unfold minimal_splitting_sets_shrunken. intros Ha H.
  destruct (minimal_quorums_shrunken E a) as [[mq a1]|] eqn:E1; cbn [bind] in H; [|discriminate].
  pose proof (mq_keeps N E a mq a1 Ha E1) as H1. destruct (mss_cache a1); [inversion H; subst; auto|].
  destruct (has_quorum_intersection E a1) as [[b a2]|] eqn:E2; cbn [bind] in H; [|discriminate].
  pose proof (hqi_keeps N E a1 b a2 H1 E2) as H2.
  match type of H with bind ?e _ = _ => destruct e as [s|] end; cbn [bind] in H; [|discriminate]. cbn in H.
  inversion H; subst. exact H2.
Qed.
Lemma top_tier_keeps N E a s a' : keeps N a -> top_tier_shrunken E a = Ok (s, a') -> keeps N a'.
Proof.
  unfold top_tier_shrunken. intros Ha H. destruct (_ || _).
  - destruct (minimal_quorums_shrunken E a) as [[mq a1]|] eqn:E1; cbn in H; [|discriminate]. inversion H; subst. apply (mq_keeps N E a mq); auto.
  - destruct (minimal_blocking_sets_shrunken E a) as [[mq a1]|] eqn:E1; cbn in H; [|discriminate]. inversion H; subst. apply (mbs_keeps N E a mq); auto.
Qed.
Lemma unwrap_in r l t : vr_unshrink_table r = Some t -> vr_unwrap r = Ok l -> forall s x, In s l -> mem x s = true -> In x t.
Proof.
  intros Et Hu s x Hs Hx. unfold vr_unwrap, vr_unshrink in Hu. rewrite Et in Hu.
  destruct (unshrink_sets_with t (node_sets r)) as [u|] eqn:Eu; cbn in Hu; [|discriminate]. assert (u = l) by congruence. subst u.
  apply mapM_inv in Eu. destruct (Forall2_in_r _ _ _ _ Eu Hs) as (s0 & _ & H0). eapply unshrink_in; eauto.
Qed.

Section Ask.
Context (E : ext) (HE : ext_ok E) (f : fbas) (Hwf : wf_fbas f).
Notation n := (number_of_nodes f).
Definition in_nodes (s : bset) : Prop := forall x, mem x s = true -> x < n.

(** what an answer looks like *)
Definition regular (c : call) (x : answer) : Prop :=
  match c with
  | MinimalQuorums | MinimalBlockingSets | MinimalSplittingSets =>
      exists r l, x = AVec r /\ ascending_table r /\ vr_unwrap r = Ok l /\ forall s, In s l -> in_nodes s
  | TopTier => exists s, x = ASet s /\ in_nodes s
  | _ => True
  end.
Lemma sets_regular a K l : a_sm a = sm_new K -> keeps n a -> (forall s, In s l -> in_range (elements K) s) ->
  exists r l', AVec (vec_result_new l (Some (a_sm a))) = AVec r /\ ascending_table r /\ vr_unwrap r = Ok l' /\ forall s, In s l' -> in_nodes s.
Proof.
  intros Es Hk Hl. eexists. eexists. split; [reflexivity|]. rewrite Es. split; [apply elements_sorted|].
  assert (Hu := vec_unwrap K l Hl). split; [exact Hu|]. intros s Hs x Hx. apply Hk. rewrite Es. exact (unwrap_in (vec_result_new l (Some (sm_new K))) _ (elements K) eq_refl Hu s x Hs Hx).
Qed.
Lemma w_regular a K c x a' : winv f a K -> keeps n a -> perform E a c = Ok (x, a') -> keeps n a' /\ regular c x.
Proof.
  intros Hi Hk H. destruct c; cbn [perform] in H; try solve [inversion H; subst; split; [auto|exact I]].
  - destruct (has_quorum_intersection E a) as [[b a1]|] eqn:E1; cbn in H; [|discriminate]. inversion H; subst. split; [|exact I].
    eapply hqi_keeps; eauto.
  - destruct (alternative_check E a) as [[b o]|]; cbn in H; [|discriminate]. inversion H; subst. split; [auto|exact I].
  - destruct (w_mq_step E HE f Hwf a K Hi) as (l & a1 & K1 & E1 & I1 & M1). rewrite E1 in H. cbn [res_map bind fst snd vec_answer] in H. injection H as <- <-.
    assert (Hk' := mq_keeps _ _ _ _ _ Hk E1). split; auto. apply (sets_regular a1 K1); auto; [apply I1|apply (w_mq f _ _ I1); auto].
  - destruct (w_mbs_step E HE f Hwf a K Hi) as (l & a1 & K1 & E1 & I1 & M1). rewrite E1 in H. cbn [res_map bind fst snd vec_answer] in H. injection H as <- <-.
    assert (Hk' := mbs_keeps _ _ _ _ _ Hk E1). split; auto. apply (sets_regular a1 K1); auto; [apply I1|apply (w_mbs f _ _ I1); auto].
  - destruct (w_mss_step E HE f Hwf a K Hi) as (l & a1 & K1 & E1 & I1 & M1). rewrite E1 in H. cbn [res_map bind fst snd vec_answer] in H. injection H as <- <-.
    assert (Hk' := mss_keeps _ _ _ _ _ Hk E1). split; auto. apply (sets_regular a1 K1); auto; [apply I1|apply (w_mss f _ _ I1); auto].
  - destruct (top_tier_shrunken E a) as [[s a1]|] eqn:E1; cbn [bind fst snd] in H; [|discriminate].
    destruct (set_result_new s (Some (a_sm a1))) as [o|] eqn:Eo; cbn in H; [|discriminate]. inversion H; subst.
    assert (Hk' := top_tier_keeps _ _ _ _ _ Hk E1). split; auto. exists o. split; auto. intros x Hx. apply Hk'. eapply unshrink_in; eauto.
Qed.

(** ** the state between calls: [h] tells whether nothing wrong can have been computed so far *)
Definition safe (a : analysis) : Prop := mq_cache a <> None \/ sane_clusters f.
Record state (h : Prop) (a : analysis) : Prop := {
  st_weak : exists K, winv f a K;
  st_keeps : keeps n a;
  st_block : exists K, binv f a K;
  st_harmless : h -> exists K, hinv f a K }.
Lemma state_weaken (h h' : Prop) a : (h' -> h) -> state h a -> state h' a.
Proof. intros H [S1 S2 S3 S4]. constructor; auto. Qed.

Lemma state_new : exists a, analysis_new E f = Ok a /\ state True a.
Proof.
  destruct (h_new E HE f Hwf) as (a & Ea & Hi & _). exists a. split; auto. destruct (b_new E HE f Hwf) as (a' & Ea' & Hb).
  assert (a' = a) by congruence. subst a'. constructor; eauto.
  - exists (relevant_nodes E f). apply Hi.
  - intros x Hx. rewrite (w_sm f a _ (h_weak f a _ Hi)) in Hx. cbn in Hx. apply elements_spec in Hx. apply (relevant_in E f HE Hwf) in Hx. now apply mem_all_nodes in Hx.
Qed.

(** A call; it must not be the alternative check unless there is a quorum. What follows from harmlessness is only known if blocking
    sets are not asked for too early. *)
Lemma st_perform (h : Prop) a c : state h a -> (c = AlternativeCheck -> h /\ has_a_quorum f) ->
  exists x a', perform E a c = Ok (x, a') /\ state (h /\ (c = MinimalBlockingSets -> safe a)) a' /\ regular c x /\
    (c = MinimalBlockingSets -> blocks_answer f x) /\
    (h -> (c = MinimalBlockingSets -> safe a) -> (allowed f c -> correct_answer E f c x) /\ (c = MinimalSplittingSets -> splits_answer f x) /\
       (safe a -> safe a') /\ (needs_quorums c -> safe a')).
Proof.
  intros [(K & Hw) Hk (Kb & Hb) Hh] Ha.
  assert (exists x a', perform E a c = Ok (x, a') /\ exists K', winv f a' K') as (x & a' & Ep & Hw').
  { destruct c; try (destruct (w_perform E HE f Hwf a K) with (c := AllNodes) as (x & a' & K' & E1 & I1); [auto|discriminate|]; eauto; fail);
    try (match goal with |- context [perform E a ?c] => destruct (w_perform E HE f Hwf a K c Hw) as (x & a' & K' & E1 & I1); [discriminate|]; eauto end; fail).
    destruct (Ha eq_refl) as [Hh1 Hq]. destruct (Hh Hh1) as (K1 & Hi).
    destruct (h_perform E HE f Hwf a K1 AlternativeCheck Hi) as (x & a' & K' & Ep & Hi' & _); auto; [discriminate|].
    exists x, a'. split; auto. exists K'. apply Hi'. }
  exists x, a'. split; auto. destruct (w_regular a K c x a' Hw Hk Ep) as [Hk' Hr]. destruct (b_perform E HE f Hwf a Kb c x a' Hb Ep) as (Kb' & Hb' & Hbl).
  assert (Hfull : h -> (c = MinimalBlockingSets -> safe a) -> (exists K, hinv f a' K) /\ (allowed f c -> correct_answer E f c x) /\ (c = MinimalSplittingSets -> splits_answer f x) /\
       (safe a -> safe a') /\ (needs_quorums c -> safe a')).
  { intros H1 H2. destruct (Hh H1) as (K1 & Hi). destruct (h_perform E HE f Hwf a K1 c Hi) as (x1 & a1 & K1' & Ep1 & Hi1 & H3 & H4 & H5 & H6).
    - intro H. apply Ha; auto.
    - exact H2.
    - assert (x1 = x /\ a1 = a') as [-> ->] by (split; congruence). split; eauto. split; auto. split; auto. split; [|exact H6].
      intros [H|H]; [left; auto|right; auto]. }
  split; [|split; [auto|split; [exact Hbl|]]].
  - constructor; eauto. intros [H1 H2]. apply (Hfull H1 H2).
  - intros H1 H2. apply (Hfull H1 H2).
Qed.
End Ask.
