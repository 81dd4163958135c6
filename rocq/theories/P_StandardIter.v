(** [to_standard_form] applied several times. *)
From Verif Require Export P_ThIO.
Local Open Scope list_scope.

Section Iter.
Variable E : ext.
Hypothesis HE : ext_ok E.

Lemma keys_length f : List.length (map node_pk (nodes f)) = number_of_nodes f.
Proof. apply map_length. Qed.

Lemma has_key_in f x pk : has_key f x pk -> In pk (map node_pk (nodes f)).
Proof.
  unfold has_key. intro H. destruct (nth_error (nodes f) x) as [n|] eqn:En; [|discriminate]. cbn in H. injection H as <-.
  apply in_map. eapply nth_error_In; eauto.
Qed.
Lemma has_key_lt f x pk : has_key f x pk -> x < number_of_nodes f.
Proof. unfold has_key. intro H. apply nth_error_Some. intro X. rewrite X in H. discriminate. Qed.
Lemma key_of f x : x < number_of_nodes f -> exists pk, has_key f x pk.
Proof.
  intro H. unfold has_key. destruct (nth_error (nodes f) x) as [n|] eqn:En; cbn; eauto.
  apply nth_error_None in En. unfold number_of_nodes in H. lia.
Qed.
Lemma has_key_inj f x y pk : distinct_keys f -> has_key f x pk -> has_key f y pk -> x = y.
Proof.
  intros Hd Hx Hy. apply (proj1 (NoDup_nth_error (map node_pk (nodes f))) Hd).
  - rewrite map_length. apply (has_key_lt f x pk Hx).
  - unfold has_key in *. rewrite !nth_error_map. congruence.
Qed.

Lemma sorted_distinct f : StronglySorted string_before (map node_pk (nodes f)) -> distinct_keys f.
Proof.
  unfold distinct_keys. induction 1 as [|a l Hs IH Ha]; constructor; auto. intro Hin. rewrite Forall_forall in Ha.
  exact (lex_lt_irrefl _ (Ha a Hin)).
Qed.

Lemma standard_step f s : wf_fbas f -> distinct_keys f -> to_standard_form E f = Ok s ->
  wf_fbas s /\ distinct_keys s /\ number_of_nodes s <= number_of_nodes f /\
  (number_of_nodes s = number_of_nodes f -> forall x, x < number_of_nodes f -> relevant f x).
Proof.
  intros Hf Hd H. destruct (standard_keys_thm E f s HE Hf Hd H) as (Hs & Hk & _ & Hw).
  assert (Hds := sorted_distinct s Hs).
  assert (Hi : incl (map node_pk (nodes s)) (map node_pk (nodes f))).
  { intros pk Hp. apply Hk in Hp. destruct Hp as (x & _ & Hx). exact (has_key_in f x pk Hx). }
  split; [exact Hw|]. split; [exact Hds|]. split.
  - rewrite <- !keys_length. apply NoDup_incl_length; auto.
  - intros El x Hx. destruct (key_of f x Hx) as (pk & Hp).
    assert (Hin : In pk (map node_pk (nodes s))).
    { apply (NoDup_length_incl Hds) in Hi; [|rewrite !keys_length; lia]. apply Hi. exact (has_key_in f x pk Hp). }
    apply Hk in Hin. destruct Hin as (y & Hy & Hyk). rewrite (has_key_inj f x y pk Hd Hp Hyk). exact Hy.
Qed.

Lemma fixpoint_relevant s : wf_fbas s -> distinct_keys s -> to_standard_form E s = Ok s ->
  forall x, x < number_of_nodes s -> relevant s x.
Proof. intros Hw Hd H. apply (standard_step s s Hw Hd H). auto. Qed.

Lemma same_keys_trans f S g T h U : same_keys f S g T -> same_keys g T h U -> same_keys f S h U.
Proof. unfold same_keys. intros H1 H2 pk. rewrite H1. apply H2. Qed.

Definition same_minimal_quorums f s : Prop :=
  (forall Q', minimal_quorum s Q' -> exists Q, minimal_quorum f Q /\ same_keys f Q s Q') /\
  (forall Q, minimal_quorum f Q -> exists Q', minimal_quorum s Q' /\ same_keys f Q s Q').

Lemma same_minimal_quorums_trans f g h : same_minimal_quorums f g -> same_minimal_quorums g h -> same_minimal_quorums f h.
Proof.
  intros [A1 A2] [B1 B2]. split.
  - intros Q H. destruct (B1 Q H) as (R & HR & KR). destruct (A1 R HR) as (T & HT & KT). exists T. split; auto.
    exact (same_keys_trans _ _ _ _ _ _ KT KR).
  - intros Q H. destruct (A2 Q H) as (R & HR & KR). destruct (B2 R HR) as (T & HT & KT). exists T. split; auto.
    exact (same_keys_trans _ _ _ _ _ _ KR KT).
Qed.

Lemma standard_eventually n : forall f s, number_of_nodes s <= n -> wf_fbas f -> distinct_keys f -> to_standard_form E f = Ok s ->
  exists k t, k <= n /\ standard_after E (S k) f t /\ to_standard_form E t = Ok t /\ same_minimal_quorums f t.
Proof.
  induction n as [|n IH]; intros f s Hn Hf Hd H; destruct (standard_step f s Hf Hd H) as (Hw & Hds & _ & _);
    assert (Hq : same_minimal_quorums f s) by exact (standard_minimal_quorums_thm E f s HE Hf Hd H).
  - exists 0, s. split; [lia|]. split; [|split; [|exact Hq]].
    + econstructor; [exact H|]. constructor.
    + apply (standard_idempotent E E f s HE HE Hf Hd H). intros x Hx. lia.
  - destruct (to_standard_form E s) as [s'|] eqn:Hs'; [|rewrite to_standard_form_eq in Hs'; discriminate].
    destruct (standard_step s s' Hw Hds Hs') as (_ & _ & Hle & Heq).
    destruct (Nat.eq_dec (number_of_nodes s') (number_of_nodes s)) as [El|Nl].
    + exists 0, s. split; [lia|]. split; [|split; [|exact Hq]].
      * econstructor; [exact H|]. constructor.
      * exact (standard_idempotent E E f s HE HE Hf Hd H (Heq El)).
    + destruct (IH s s' ltac:(lia) Hw Hds Hs') as (k & t & Hk & Ht & Hfix & Hqt). exists (S k), t. split; [lia|].
      split; [|split; [exact Hfix|]].
      * econstructor; [exact H|exact Ht].
      * exact (same_minimal_quorums_trans f s t Hq Hqt).
Qed.
End Iter.

Lemma standard_twice_iff E E' f s : ext_ok E -> ext_ok E' -> wf_fbas f -> distinct_keys f -> to_standard_form E f = Ok s ->
  (to_standard_form E' s = Ok s <-> forall x, x < number_of_nodes s -> relevant s x).
Proof.
  intros HE HE' Hf Hd H. split.
  - intro H'. destruct (standard_step E HE f s Hf Hd H) as (Hw & Hds & _). exact (fixpoint_relevant E' HE' s Hw Hds H').
  - exact (standard_idempotent E E' f s HE HE' Hf Hd H).
Qed.

Lemma standard_stabilises E f : ext_ok E -> wf_fbas f -> distinct_keys f ->
  exists k t, k <= number_of_nodes f /\ standard_after E (S k) f t /\ to_standard_form E t = Ok t /\
  (forall Q', minimal_quorum t Q' -> exists Q, minimal_quorum f Q /\ same_keys f Q t Q') /\
  (forall Q, minimal_quorum f Q -> exists Q', minimal_quorum t Q' /\ same_keys f Q t Q').
Proof.
  intros HE Hf Hd. destruct (to_standard_form E f) as [s|] eqn:H; [|rewrite to_standard_form_eq in H; discriminate].
  destruct (standard_step E HE f s Hf Hd H) as (_ & _ & Hle & _).
  exact (standard_eventually E HE (number_of_nodes f) f s Hle Hf Hd H).
Qed.
