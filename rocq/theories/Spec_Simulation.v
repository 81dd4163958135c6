(** Specification of simulations, stated without the algorithms of the model. *)
From Verif Require Export Spec_SimGraph M_Simulation.
Local Open Scope list_scope.

(** [f'] differs from [f] at most in the quorum set of node [i] *)
Definition changes_only (i : nat) (f f' : fbas) : Prop :=
  pk_to_id f' = pk_to_id f /\ map node_pk (nodes f') = map node_pk (nodes f) /\
  forall j, j <> i -> nth_error (nodes f') j = nth_error (nodes f) j.
(** the quorum set of node [i] is not the same in both *)
Definition changed (i : nat) (f f' : fbas) : Prop := exists q q', node_of f i q /\ node_of f' i q' /\ q <> q'.

(** a configurator that touches only the quorum set of the node it is asked to configure *)
Definition local_configurator (Q : configurator) : Prop :=
  forall i f r f' c r', Q i f r = Ok (f', c, r') -> changes_only i f f'.
(** a configurator whose reports are right *)
Definition faithful (Q : configurator) : Prop :=
  forall i f r f' c r', Q i f r = Ok (f', c, r') -> (c = Change <-> changed i f f').

(** a node is visited, with what is reported *)
Definition visit := (nat * change_effect)%type.
(** successive visits lead from one FBAS to another *)
Inductive visits (Q : configurator) : list visit -> fbas -> fbas -> Prop :=
| visits_none f : visits Q [] f f
| visits_one i c l f r f1 r1 f2 : Q i f r = Ok (f1, c, r1) -> visits Q l f1 f2 -> visits Q ((i, c) :: l) f f2.
(** what the monitor should see of a round *)
Definition round_events (round : list visit) : list event :=
  StartGlobalReevaluationRound :: map (fun v => QuorumSetChange (fst v) (snd v)) round.
(** nothing changed in a round *)
Definition stable (round : list visit) : Prop := forall v, In v round -> snd v = NoChange.
(** each of [n] nodes is visited once *)
Definition visits_all (n : nat) (round : list visit) : Prop := Permutation (map fst round) (seq 0 n).

(** what the monitor should see of a growing FBAS that has [n] nodes, if the rounds after each new node are as given *)
Inductive growth_log : nat -> list (list (list visit)) -> list event -> Prop :=
| growth_none n : growth_log n [] []
| growth_one n rounds later log : Forall (visits_all (S n)) rounds -> 1 <= List.length rounds <= S n -> growth_log (S n) later log ->
    growth_log n (rounds :: later)
      (AddNode n :: StartGlobalReevaluation :: flat_map round_events rounds ++ FinishGlobalReevaluation (List.length rounds) :: log).

(** all nodes have the quorum set [q] *)
Definition all_have (f : fbas) (q : qset) : Prop := forall i, i < number_of_nodes f -> node_of f i q.
(** names of nodes are as given by [add_generic_node] *)
Definition generic_names (f : fbas) : Prop :=
  keys_ok f /\ forall i n, nth_error (nodes f) i = Some n -> node_pk n = generate_generic_node_name i.

(** ** random quorum sets *)
(** nodes without a weight have weight 1 *)
Definition weight_of (p : random_qsc_params) (x : nat) : nat := match nth_error (weights p) x with Some w => w | None => 1 end.
(** [added] can be chosen for a quorum set that has the members [old] *)
Definition choosable (p : random_qsc_params) (n : nat) (old : list nat) (added : list nat) : Prop :=
  NoDup added /\ forall x, In x added -> x < n /\ ~ In x old /\ 0 < weight_of p x.
(** the requested threshold for quorum sets of [m >= 1] nodes, by default more than two thirds *)
Definition requested_threshold (p : random_qsc_params) (m : nat) : nat :=
  match desired_threshold p with Some t => t | None => m - (m - 1) / 3 end.
(** a node is its own first validator *)
Definition members_before (i : nat) (q : qset) : list nat := if validators q then [i] else validators q.
(** a quorum set of node [i] as desired, if there are [n] nodes *)
Definition randomly_configured (p : random_qsc_params) (n i : nat) (q : qset) : Prop :=
  inner_quorum_sets q = [] /\ NoDup (validators q) /\ (forall x, In x (validators q) -> x < n) /\ In i (validators q) /\
  List.length (validators q) = Nat.max 1 (Nat.min (desired_quorum_set_size p) n) /\
  (2 <= desired_quorum_set_size p -> threshold q = requested_threshold p (Nat.min (desired_quorum_set_size p) n)).
(** a new node, or one configured when there were fewer nodes *)
Definition random_or_new (p : random_qsc_params) (n i : nat) (q : qset) : Prop := q = qset_new \/ exists m, m <= n /\ randomly_configured p m i q.

(** ** configurations from graphs *)
(** [i] has a link or is linked to *)
Definition connected (g : graph) (i : nat) : Prop := exists j, link g i j \/ link g j i.
(** the ascending list of the members of [P] *)
Definition ascending_list_of (P : nat -> Prop) (l : list nat) : Prop := StronglySorted lt l /\ forall x, In x l <-> P x.
(** a flat quorum set over the members of [P], with a threshold computed from their number (see C37, C38) *)
Definition flat_over (P : nat -> Prop) (relative_threshold : option f64) (q : qset) : Prop :=
  exists vs, ascending_list_of P vs /\ q = QS (calculate_threshold (List.length vs) relative_threshold) vs [].
(** the score of [j] is at least twice the score of [i] *)
Definition twice_the_score (scores : list f64) (i j : nat) : Prop :=
  exists si sj, nth_error scores i = Some si /\ nth_error scores j = Some sj /\ fleb (fmul (f64_of_nat 2) si) sj = true.
Definition higher_neighbor (g : graph) (scores : list f64) (i j : nat) : Prop := link g i j /\ twice_the_score scores i j.
Definition same_tier_neighbor (g : graph) (scores : list f64) (i j : nat) : Prop :=
  link g i j /\ ~ twice_the_score scores i j /\ ~ twice_the_score scores j i.
(** neighbors of a higher tier, or of the same tier if there are none *)
Definition trusted_neighbor (g : graph) (scores : list f64) (i j : nat) : Prop :=
  higher_neighbor g scores i j \/ ((forall k, ~ higher_neighbor g scores i k) /\ same_tier_neighbor g scores i j).
(** the average of the scores, in floating point arithmetic *)
Definition average (scores : list f64) : f64 := fdiv (fold_left fadd scores fzero) (f64_of_nat (List.length scores)).
(** node [i] and node [x] are in the quorum set of node [j] *)
Definition listed_by (f : fbas) (i j x : nat) : Prop := exists q, node_of f j q /\ mentions i q /\ mentions x q.
