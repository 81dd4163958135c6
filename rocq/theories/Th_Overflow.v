(** Thresholds that are doubled (C18). *)
From Coq Require Import ZArith.
From Verif Require Import Spec_Analysis P_Overflow.
Local Open Scope list_scope.
Local Open Scope nat_scope.

(** Twice the threshold minus the number of entries. Below 2^63 nothing overflows. *)
Theorem C18_no_overflow : forall (t : nat) (vs : list nat) (is_ : list qset), (N.of_nat t < 2 ^ 63)%N ->
  splitting_threshold (QS t vs is_) = 2 * t - (List.length vs + List.length is_).
Proof. exact no_overflow. Qed.
Print Assumptions C18_no_overflow.

(** Above, in a release build, twice 2^63 is left out. *)
Theorem C18_overflow : forall (t : nat) (vs : list nat) (is_ : list qset) (k : N), N.of_nat t = (2 ^ 63 + k)%N ->
  (N.of_nat (List.length vs + List.length is_) < 2 ^ 63)%N -> (k < 2 ^ 63)%N ->
  splitting_threshold (QS t vs is_) = 2 * N.to_nat k - (List.length vs + List.length is_).
Proof. intros t vs is_ k H. apply overflow. unfold big. rewrite <- H, Nat2N.id. reflexivity. Qed.
Print Assumptions C18_overflow.

(** A quorum set that nothing satisfies is therefore given a splitting set. *)
Theorem C18_overflow_refuted : exists q, (forall s, is_quorum_slice q s = false) /\ to_splitting_sets q = [of_list [2]].
Proof. exact overflow_splits. Qed.
Print Assumptions C18_overflow_refuted.

Example C18_no_overflow_example : splitting_threshold (QS 3 [0; 1; 2] [QS 1 [3] []]) = 2 /\ splitting_threshold (QS 5 [0; 1] []) = 8 /\
  splitting_threshold (QS 1 [0; 1] []) = 0.
Proof. repeat split; vm_compute; reflexivity. Qed.
