(** C81: the bulk programs with several threads: every schedule gives the rows of one thread. *)
From Verif Require Import P_Parallel.
Local Open Scope list_scope.

(** Whatever the threads do and in which order they finish, the rows are those of running the tasks
    one by one, in the order of tasks, and the first panic in this order stops the program. *)
Theorem C81_outcome : forall (T R M : Type) (run : T -> M -> res R) (jobs capacity : nat) (tasks : list T)
  (events : list (event M)) (rows : list R) (complete : bool), 0 < capacity ->
  pool_run run jobs (pool_start capacity tasks) events = Some (Ended rows complete) -> one_by_one run tasks rows complete.
Proof. exact (fun T R M => @pool_outcome T R M). Qed.
Print Assumptions C81_outcome.

(** at every moment *)
Theorem C81_so_far : forall (T R M : Type) (run : T -> M -> res R) (jobs capacity : nat) (tasks : list T)
  (events : list (event M)) (p : pool T R), 0 < capacity ->
  pool_run run jobs (pool_start capacity tasks) events = Some p ->
  rows_so_far run tasks (rows_of p) /\ forall upcoming slots rows, p = Working upcoming slots rows -> running slots <= jobs.
Proof.
  exact (fun T R M run jobs capacity tasks events p Hc E =>
    conj (pool_so_far run jobs capacity tasks events p Hc E)
         (fun up sl rows Ep => pool_threads run jobs capacity tasks events up sl rows Hc (eq_trans E (f_equal Some Ep)))).
Qed.
Print Assumptions C81_so_far.

(** No deadlock: every run can be continued until it ends, and none is longer than this. *)
Theorem C81_ends : forall (T R M : Type) (run : T -> M -> res R) (jobs capacity : nat) (tasks : list T)
  (events : list (event M)) (p : pool T R) (m : M), 0 < jobs ->
  pool_run run jobs (pool_start capacity tasks) events = Some p ->
  List.length events <= 3 * List.length tasks + 1 /\
  (~ ended p -> exists e p', pool_step run jobs p e = Some p') /\
  exists events' p', pool_run run jobs p events' = Some p' /\ ended p'.
Proof.
  exact (fun T R M run jobs capacity tasks events p m Hj E =>
    conj (pool_bounded run jobs capacity tasks events p E) (conj (pool_progress run jobs p m Hj) (pool_extends run jobs p m Hj))).
Qed.
Print Assumptions C81_ends.

(** Nothing is lost by more threads: every outcome of one thread is possible. *)
Theorem C81_possible : forall (T R M : Type) (run : T -> M -> res R) (jobs capacity : nat) (tasks : list T) (rows : list R) (complete : bool),
  0 < jobs -> 0 < capacity -> one_by_one run tasks rows complete ->
  exists events, pool_run run jobs (pool_start capacity tasks) events = Some (Ended rows complete).
Proof. exact (fun T R M => @pool_all T R M). Qed.
Print Assumptions C81_possible.

(** the bulk analyzer *)
Theorem C81_bulk_analyzer : forall (E : ext) (digest : json -> string) (files : path -> option json) (clock : input_data_point -> durations)
  (jobs capacity : nat) (tasks : list task) (events : list (event durations)) (rows : list output_data_point) (complete : bool), 0 < capacity ->
  pool_run (bulk_task E digest files) jobs (pool_start capacity tasks) events = Some (Ended rows complete) ->
  Forall2 same_results rows (fst (write_rows E digest files clock tasks)) /\ complete = snd (write_rows E digest files clock tasks).
Proof.
  exact (fun E digest files clock jobs capacity tasks events rows complete Hc H =>
    one_by_one_rows E digest files clock tasks rows complete (pool_outcome (bulk_task E digest files) jobs capacity tasks events rows complete Hc H)).
Qed.
Print Assumptions C81_bulk_analyzer.

Theorem C81_one_thread_possible : forall (E : ext) (digest : json -> string) (files : path -> option json) (clock : input_data_point -> durations)
  (jobs capacity : nat) (tasks : list task), 0 < jobs -> 0 < capacity ->
  exists events, pool_run (bulk_task E digest files) jobs (pool_start capacity tasks) events =
    Some (Ended (fst (write_rows E digest files clock tasks)) (snd (write_rows E digest files clock tasks))).
Proof.
  exact (fun E digest files clock jobs capacity tasks Hj Hc =>
    pool_all (bulk_task E digest files) jobs capacity tasks _ _ Hj Hc (write_rows_one_by_one E digest files clock tasks)).
Qed.
Print Assumptions C81_one_thread_possible.

(** the performance experiment *)
Theorem C81_experiment : forall (E : ext) (clock : experiment -> experiment_durations) (stellar_like : bool)
  (jobs capacity : nat) (tasks : list experiment_task) (events : list (event experiment_durations)) (rows : list measurement) (complete : bool), 0 < capacity ->
  pool_run (experiment_step E stellar_like) jobs (pool_start capacity tasks) events = Some (Ended rows complete) ->
  Forall2 same_numbers rows (fst (write_measurements E clock stellar_like tasks)) /\
  complete = snd (write_measurements E clock stellar_like tasks).
Proof.
  exact (fun E clock stellar_like jobs capacity tasks events rows complete Hc H =>
    one_by_one_measurements E clock stellar_like tasks rows complete (pool_outcome (experiment_step E stellar_like) jobs capacity tasks events rows complete Hc H)).
Qed.
Print Assumptions C81_experiment.

(** two threads, the second and third task finish before the first one *)
Example C81_example :
  let run (t m : nat) := if t =? 7 then Panic else Ok (t, m) in
  pool_run run 2 (pool_start 4 [10;11;12;13;14])
    [Pick 0; Pick 1; Finish 1 5; Pick 2; Finish 2 6; Pick 3; Finish 0 9; Take; Take; Pick 2; Finish 1 8; Take; Take; Finish 0 1; Take; Take]
    = Some (Ended [(10,9);(11,5);(12,6);(13,8);(14,1)] true) /\
  pool_run run 2 (pool_start 4 [10;7;12]) [Pick 1; Finish 1 0; Pick 0; Pick 2; Finish 2 1; Finish 0 2; Take; Take] = Some (Ended [(10,2)] false) /\
  pool_run run 2 (pool_start 4 [10;11;12]) [Pick 0; Pick 1; Pick 2] = None.
Proof. vm_compute. auto. Qed.
