(** Generator, simulator and analyzer in a row: when what is simulated has a quorum. Shares only data types with the model. *)
From Coq Require Import ZArith Reals.
From Flocq Require Import IEEE754.BinarySingleNaN.
From Verif Require Export Spec_Bins Spec_CliAny Spec_CliText M_Pipeline.
Local Open Scope list_scope.

(** relative thresholds that do not ask for more nodes than there are *)
Definition a_share (relative_threshold : option f64) : Prop :=
  forall x, relative_threshold = Some x -> @is_finite 53 1024 x = true /\ (0 <= @B2R 53 1024 x <= 1)%R.
(** nodes with a rank above the average *)
Definition above_average (scores : list f64) (x : nat) : Prop := exists s, nth_error scores x = Some s /\ fltb (average scores) s = true.
(** policies for which all [n] nodes together can be satisfied, if no node of the graph is isolated;
    for ranks: some node is above the average, and such nodes have links *)
Definition satisfiable_policy (c : qsc_config) (w : inputs) (n : nat) : Prop :=
  match c with
  | SuperSafe | Ideal => True
  | Random size => 2 <= size
  | FameWeightedRandom size _ thr => 2 <= size /\ forall t, thr = Some t -> 1 <= t <= Nat.min size n
  | AllNeighbors _ thr | HigherTierNeighbors _ thr | SymmetryEnforcingHigherTierNeighbors _ thr => a_share thr
  | GlobalRank path thr => a_share thr /\ forall g scores, graph_at w path g -> get_rank_scores g = Ok scores ->
      (exists x, above_average scores x) /\ forall x, above_average scores x -> exists j, link g x j
  end.
(** every node of the simulation is linked *)
Definition all_connected (c : qsc_config) (w : inputs) (n : nat) : Prop :=
  forall path g, graph_path c = Some path -> graph_at w path g -> forall i, i < n -> connected g i.
