(** The random graph constructors and the graph generator for every choice of arguments: C85. *)
From Coq Require Import ZArith Ascii.
From Verif Require Import Spec_Bins P_GraphAll P_Generator.
Local Open Scope string_scope.
Local Open Scope list_scope.
Local Open Scope nat_scope.

(** C85: which arguments panic does not depend on the random numbers *)
Theorem C85_scale_free_panics : forall (n m0 m : nat) (r : rng),
  new_random_scale_free n m0 m r = Panic <-> ~ (0 < m <= m0 /\ m0 <= n /\ (m0 = 1 -> n = 1)).
Proof. exact scale_free_panics. Qed.
Print Assumptions C85_scale_free_panics.

Theorem C85_small_world_panics : forall (n k : nat) (beta : probability) (r : rng),
  new_random_small_world n k beta r = Panic <-> Nat.Odd k \/ n < k \/ (beta = None /\ 0 < k).
Proof. exact small_world_panics_exactly. Qed.
Print Assumptions C85_small_world_panics.

(** the extreme cases of small worlds; C47 covers the others *)
Theorem C85_full : forall (n : nat) (p : N) (r : rng), Nat.Even n ->
  exists g r', new_random_small_world n n (Some p) r = Ok (g, r') /\ List.length g = n /\ ascending_links g /\
    forall i j, link g i j <-> i < n /\ j < n /\ i <> j.
Proof. exact small_world_mesh. Qed.
Print Assumptions C85_full.

Theorem C85_empty : forall (n : nat) (beta : probability) (r : rng), new_random_small_world n 0 beta r = Ok (repeat [] n, r).
Proof. exact small_world_none. Qed.
Print Assumptions C85_empty.

(** the program panics exactly if the constructor does *)
Theorem C85_generator_panics : forall (debug_f64 : probability -> string) (args : generator_args) (r : rng),
  graph_generator debug_f64 args r = Panic <-> ~ accepted (arg_algorithm args).
Proof. exact generator_panics_exactly. Qed.
Print Assumptions C85_generator_panics.

(** arguments that are accepted, but not covered by C72: the graph has no links and the text says nothing about its nodes *)
Theorem C85_nodes_lost : forall (debug_f64 : probability -> string) (args : generator_args) (r : rng),
  (forall b, free_of newline (debug_f64 b)) -> accepted (arg_algorithm args) -> ~ proper_graph (arg_algorithm args) ->
  (N.of_nat (graph_size (arg_algorithm args)) < 2 ^ 64)%N ->
  exists o g r', graph_generator debug_f64 args r = Ok o /\ goes_to args o /\ apply_graph_gen_alg (arg_algorithm args) r = Ok (g, r') /\
    List.length g = graph_size (arg_algorithm args) /\ (forall i j, ~ link g i j) /\ from_as_rel_string (output_text o) = Ok [].
Proof. exact nodes_lost. Qed.
Print Assumptions C85_nodes_lost.

(** [C72_generated_partial] speaks of the remaining arguments *)
Theorem C85_proper_accepted : forall (a : graph_algorithm), proper_graph a <-> accepted a /\
  match a with BarabasiAlbert _ m0 _ => m0 <> 1 | WattsStrogatz _ k _ => k <> 0 end.
Proof. exact proper_iff. Qed.
Print Assumptions C85_proper_accepted.

Definition graph_only (x : res (graph * rng)) : res graph := res_map fst x.
Example C85_example :
  graph_only (new_random_small_world 4 4 (Some (2 ^ 64)%N) steps) = Ok [[1; 2; 3]; [0; 2; 3]; [0; 1; 3]; [0; 1; 2]] /\
  graph_only (new_random_small_world 4 4 None steps) = Panic /\ graph_only (new_random_small_world 3 0 None steps) = Ok [[]; []; []] /\
  graph_only (new_random_scale_free 1 1 1 steps) = Ok [[]] /\ graph_only (new_random_scale_free 2 1 1 steps) = Panic /\
  accepted (BarabasiAlbert 1 1 1) /\ ~ proper_graph (BarabasiAlbert 1 1 1) /\ accepted (WattsStrogatz 3 0 None) /\ proper_graph (WattsStrogatz 4 4 (Some 0%N)) /\
  graph_generator (fun _ => "0.5") (mk_generator_args (BarabasiAlbert 1 1 1) None true) steps =
    Ok (To_stdout ("# Graph generated using BarabasiAlbert { n: 1, m0: 1, m: 1 }" ++ newline_text ++ newline_text)%string).
Proof.
  do 5 (split; [vm_compute; reflexivity|]). split; [cbn; lia|]. split; [cbn; lia|]. split; [cbn; split; [exists 0; auto|split; [lia|auto]]|].
  split; [cbn; split; [exists 2; auto|split; [lia|discriminate]]|]. vm_compute. reflexivity.
Qed.
