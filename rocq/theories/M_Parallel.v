(** Model of how the tasks of the bulk programs are distributed to threads: [bulk_do] of
    /repo/src/bin/bulk_fbas_analyzer.rs l.216-221 and /repo/src/bin/bulk_performance_experiment.rs
    l.169-178, that is, [with_nb_threads(jobs).par_map(..)] of the crate par-map 0.1 over a pool of
    [jobs] threads: a bounded number of tasks is handed to the pool in advance, threads pick tasks
    of the pool and run them, the main thread waits for the first task that is not written yet,
    passes on a panic, and hands over a further task. No proofs here. *)
From Verif Require Export M_Bulk M_Performance.
Local Open Scope list_scope.

Section Pool.
(** tasks, rows, what the clock measures; [run] is the closure *)
Context {T R M : Type} (run : T -> M -> res R) (jobs : nat).

Inductive slot := Queued (t : T) | Running (t : T) | Finished (r : res R).
(** what can happen next: a thread picks the [i]-th task that was handed over, a thread finishes it,
    the main thread takes the first result *)
Inductive event := Pick (i : nat) | Finish (i : nat) (m : M) | Take.
(** tasks that were not handed over, tasks in the pool, rows that are written; at the end: whether
    all rows were written (otherwise a panic was passed on) *)
Inductive pool := Working (upcoming : list T) (slots : list slot) (rows : list R) | Ended (rows : list R) (complete : bool).

Definition is_running (s : slot) : bool := match s with Running _ => true | _ => false end.
Definition running (slots : list slot) : nat := List.length (filter is_running slots).

(** as many tasks are handed over in advance as [capacity]; par-map uses two per thread *)
Definition pool_start (capacity : nat) (tasks : list T) : pool :=
  Working (skipn capacity tasks) (map Queued (firstn capacity tasks)) [].

(** [None] if this cannot happen now *)
Definition pool_step (p : pool) (e : event) : option pool :=
  match p with
  | Ended _ _ => None
  | Working upcoming slots rows =>
      match e with
      | Pick i =>
          match nth_error slots i with
          | Some (Queued t) => if running slots <? jobs then Some (Working upcoming (update i (Running t) slots) rows) else None
          | _ => None
          end
      | Finish i m =>
          match nth_error slots i with
          | Some (Running t) => Some (Working upcoming (update i (Finished (run t m)) slots) rows)
          | _ => None
          end
      | Take =>
          match slots with
          | [] => Some (Ended rows true)
          | Finished (Ok r) :: slots' =>
              match upcoming with
              | [] => Some (Working [] slots' (rows ++ [r]))
              | t :: upcoming' => Some (Working upcoming' (slots' ++ [Queued t]) (rows ++ [r]))
              end
          | Finished Panic :: _ => Some (Ended rows false)
          | _ => None
          end
      end
  end.
Fixpoint pool_run (p : pool) (events : list event) : option pool :=
  match events with
  | [] => Some p
  | e :: events' => match pool_step p e with Some p' => pool_run p' events' | None => None end
  end.
End Pool.
Arguments slot : clear implicits. Arguments event : clear implicits. Arguments pool : clear implicits.

(** the tasks of the bulk analyzer and of the performance experiment, each with what the clock
    measures while it runs *)
Definition bulk_task (E : ext) (digest : json -> string) (files : path -> option json) (t : task) (m : durations) : res output_data_point :=
  analyze_or_reuse E digest files (fun _ => m) t.
Definition experiment_step (E : ext) (stellar_like : bool) (t : experiment_task) (m : experiment_durations) : res measurement :=
  perform_or_repeat E (fun _ => m) stellar_like t.
