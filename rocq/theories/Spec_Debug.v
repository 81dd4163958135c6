(** Notions for the analysis in a debug build (C80). *)
From Coq Require Import NArith.
From Verif Require Export M_Core.
Local Open Scope list_scope.

(** twice the threshold, and twice those of all inner quorum sets, fits into 64 bits *)
Inductive can_double : qset -> Prop :=
| can_double_intro t vs is_ : (N.of_nat t < 2 ^ 63)%N -> Forall can_double is_ -> can_double (QS t vs is_).
