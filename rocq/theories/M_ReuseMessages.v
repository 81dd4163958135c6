(** Model of the messages about results that are reused: [eprintln!] in [analyze_or_reuse] of
    /repo/src/bin/bulk_fbas_analyzer.rs l.222-230 and /repo/src/bin/bulk_performance_experiment.rs l.179-190, run by the
    threads of [M_Parallel]. A line is written as a whole; a task that reuses a result does nothing else, so that
    the line is written when the task finishes. No proofs here. *)
From Coq Require Import Ascii.
From Verif Require Export M_Messages M_Parallel.
Local Open Scope string_scope.
Local Open Scope list_scope.

Section Pool.
Context {T R M : Type} (run : T -> M -> res R) (jobs : nat) (said : T -> list ascii).

(** what is written to the standard error output by a step *)
Definition step_says (p : pool T R) (e : event M) : list ascii :=
  match p, e with
  | Working _ slots _, Finish i _ => match nth_error slots i with Some (Running t) => said t | _ => [] end
  | _, _ => []
  end.
(** [pool_run], with what is written *)
Fixpoint pool_run_aloud (p : pool T R) (events : list (event M)) : option (list ascii * pool T R) :=
  match events with
  | [] => Some ([], p)
  | e :: events' =>
      match pool_step run jobs p e with
      | Some p' => match pool_run_aloud p' events' with Some (text, q) => Some (step_says p e ++ text, q) | None => None end
      | None => None
      end
  end.
End Pool.

(** bulk_fbas_analyzer.rs l.225 *)
Definition task_says (t : task) : list ascii :=
  match t with
  | Reuse output => bytes "Reusing existing analysis results for " ++ bytes (out_label output) ++ bytes "." ++ new_line_text
  | Analyze _ => []
  end.
(** bulk_performance_experiment.rs l.182-185 *)
Definition experiment_says (t : experiment_task) : list ascii :=
  match t with
  | Repeat output =>
      bytes "Reusing existing analysis results for m=" ++ nat_text (me_top_tier_size output) ++ bytes ", run=" ++
      nat_text (me_run output) ++ bytes "." ++ new_line_text
  | Perform _ => []
  end.
