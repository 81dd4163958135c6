(** Doubling of thresholds as machine words. *)
From Coq Require Import ZArith.
From Verif Require Import Spec_Analysis P_Sets P_List.
Local Open Scope list_scope.
Local Open Scope nat_scope.

Lemma no_overflow t vs is_ : (N.of_nat t < 2 ^ 63)%N -> splitting_threshold (QS t vs is_) = 2 * t - (List.length vs + List.length is_).
Proof.
  intro H. unfold splitting_threshold, doubled. set (n := List.length vs + List.length is_).
  assert (E : (if t <=? n then 2 * t else N.to_nat ((2 * N.of_nat t) mod 2 ^ 64)) = 2 * t).
  { destruct (t <=? n); auto. rewrite N.mod_small by lia. lia. }
  rewrite E. destruct (Nat.ltb_spec n (2 * t)); lia.
Qed.
(** 2^63 and a bit more *)
Definition big (k : N) : nat := N.to_nat (2 ^ 63 + k).
Lemma overflow t vs is_ (k : N) : t = big k -> (N.of_nat (List.length vs + List.length is_) < 2 ^ 63)%N -> (k < 2 ^ 63)%N ->
  splitting_threshold (QS t vs is_) = 2 * N.to_nat k - (List.length vs + List.length is_).
Proof.
  intros -> Hn Hk. unfold splitting_threshold, doubled. set (n := List.length vs + List.length is_) in *.
  assert (E : (if big k <=? n then 2 * big k else N.to_nat ((2 * N.of_nat (big k)) mod 2 ^ 64)) = 2 * N.to_nat k).
  { unfold big. destruct (Nat.leb_spec (N.to_nat (2 ^ 63 + k)) n); [lia|]. rewrite N2Nat.id.
    replace (2 * (2 ^ 63 + k))%N with (2 * k + 1 * 2 ^ 64)%N by lia. rewrite N.mod_add by discriminate. rewrite N.mod_small by lia. lia. }
  rewrite E. destruct (Nat.ltb_spec n (2 * N.to_nat k)); lia.
Qed.
(** a quorum set that nothing satisfies *)
Lemma unsatisfied T s : 2 <= T -> is_quorum_slice (QS T [2] []) s = false.
Proof.
  intro H. cbn [is_quorum_slice]. destruct (Nat.eqb_spec T 0); [reflexivity|]. apply Nat.eqb_neq. cbn [filter]. rewrite firstn_nil.
  rewrite firstn_length. destruct (mem 2 s); cbn [List.length]; lia.
Qed.
Lemma one_splitting_set T : 2 <= T -> splitting_threshold (QS T [2] []) = 1 -> to_splitting_sets (QS T [2] []) = [of_list [2]].
Proof. intros H Ht. cbn [to_splitting_sets]. rewrite Ht. pose proof (unsatisfied T) as Hs. cbn -[is_quorum_slice] in *. rewrite Hs by auto. reflexivity. Qed.
Lemma overflow_splits : exists q, (forall s, is_quorum_slice q s = false) /\ to_splitting_sets q = [of_list [2]].
Proof.
  assert (H2 : 2 <= big 1) by (unfold big; lia).
  exists (QS (big 1) [2] []). split; [intro s; apply unsatisfied, H2|]. apply one_splitting_set; [exact H2|].
  apply (overflow (big 1) [2] [] 1); [reflexivity|cbn; lia|lia].
Qed.
