(** Specification of the performance experiment: known numbers of quorums, rows and updates. Shares only the
    data types with the model. *)
From Coq Require Import ZArith Reals.
From Verif Require Export Spec_Bulk M_Performance.
Local Open Scope list_scope.
Local Open Scope nat_scope.

(** in how many ways [k] out of [n] things can be chosen *)
Fixpoint binomial (n k : nat) : nat :=
  match k with
  | 0 => 1
  | S k' => match n with 0 => 0 | S n' => binomial n' k' + binomial n' k end
  end.

(** the row says that there are [number] sets, all of them of the given size *)
Definition said_of (number size : nat) (number_in_row : nat) (mean_in_row : f64) : Prop :=
  number_in_row = number /\ (number = 0 -> mean_in_row = fzero) /\
  (0 < number -> (Z.of_nat (number * size) <= 2 ^ 53)%Z -> finite mean_in_row = true /\ R_of mean_in_row = INR size).
(** there are [number] sets like this *)
Definition number_of (P : bset -> Prop) (number : nat) : Prop := exists l, lists P l /\ List.length l = number.

(** more than two thirds *)
Definition two_thirds (n : nat) : nat := n - (n - 1) / 3.
(** the organization of a node, if nodes come in groups of three *)
Definition organization (x : nat) : nat := x / 3.
(** [S] has at least [k] nodes of at least [t] organizations *)
Definition strong_in (S : bset) (k t : nat) : Prop :=
  exists orgs, NoDup orgs /\ t <= List.length orgs /\ forall o, In o orgs -> exists xs, NoDup xs /\ k <= List.length xs /\
    forall x, In x xs -> mem x S = true /\ organization x = o.

(** ** rows *)
Definition requested (max runs : nat) (stellar_like : bool) (k : experiment) : Prop :=
  1 <= x_top_tier_size k <= max /\ x_run k < runs /\ (stellar_like = true -> exists g, x_top_tier_size k = 3 * g).
Definition experiment_of (d : measurement) : experiment := mk_experiment (me_top_tier_size d) (me_run d).
(** [d] is the last row for the experiment [k] *)
Definition last_row (rows : list measurement) (k : experiment) (d : measurement) : Prop :=
  exists pre post, rows = pre ++ d :: post /\ experiment_of d = k /\ forall p, In p post -> experiment_of p <> k.
(** rows that a run finds *)
Definition rows_found (update : bool) (output : destination) (old : list measurement) : Prop :=
  match update, output with
  | true, OutputFile (Some rows) => old = rows
  | true, OutputFile None => False
  | false, OutputFile (Some _) => False
  | _, _ => old = []
  end.
(** the numbers and means in a row are those of the FBAS of its size *)
Definition measured (stellar_like : bool) (d : measurement) : Prop :=
  if stellar_like then
    exists g, let t := two_thirds g in me_top_tier_size d = 3 * g /\
      said_of (binomial g t * 3 ^ t) (2 * t) (me_mq_number d) (me_mq_mean d) /\
      said_of (binomial g (g - t + 1) * 3 ^ (g - t + 1)) (2 * (g - t + 1)) (me_mbs_number d) (me_mbs_mean d) /\
      said_of (binomial g (2 * t - g) * 3 ^ (2 * t - g)) (2 * t - g) (me_mss_number d) (me_mss_mean d)
  else
    let n := me_top_tier_size d in let t := two_thirds n in 2 <= n ->
      said_of (binomial n t) t (me_mq_number d) (me_mq_mean d) /\
      said_of (binomial n (n - t + 1)) (n - t + 1) (me_mbs_number d) (me_mbs_mean d) /\
      said_of (if n <=? 3 then 0 else binomial n (2 * t - n)) (2 * t - n) (me_mss_number d) (me_mss_mean d).
Definition by_size (rows : list measurement) : Prop := StronglySorted (fun a b => me_top_tier_size a <= me_top_tier_size b) rows.
(** rows that agree in everything that was not measured with a clock *)
Definition same_numbers (d d' : measurement) : Prop :=
  experiment_of d = experiment_of d' /\ me_mq_number d = me_mq_number d' /\ me_mbs_number d = me_mbs_number d' /\ me_mss_number d = me_mss_number d' /\
  me_mq_mean d = me_mq_mean d' /\ me_mbs_mean d = me_mbs_mean d' /\ me_mss_mean d = me_mss_mean d'.
