(** C89: what the bulk programs say about results that are reused. *)
From Coq Require Import Ascii.
From Verif Require Import P_ThReuseMessages.
Local Open Scope string_scope.
Local Open Scope list_scope.

(** Messages change nothing. *)
Theorem C89_results : forall (T R M : Type) (run : T -> M -> res R) (jobs : nat) (said : T -> list ascii) (p : pool T R) (events : list (event M)),
  match pool_run_aloud run jobs said p events with
  | Some (_, q) => pool_run run jobs p events = Some q
  | None => pool_run run jobs p events = None
  end.
Proof. exact (fun T R M run jobs said p events => aloud_run run jobs said events p). Qed.
Print Assumptions C89_results.

(** At every moment, whatever the threads do: every task has said its piece at most once, and those whose
    rows are written have said it. *)
Theorem C89_always : forall (T R M : Type) (run : T -> M -> res R) (jobs capacity : nat) (said : T -> list ascii) (tasks : list T)
  (events : list (event M)) (text : list ascii) (p : pool T R), 0 < capacity ->
  pool_run_aloud run jobs said (pool_start capacity tasks) events = Some (text, p) ->
  part_in_some_order said (firstn (List.length (rows_of p)) tasks) tasks text.
Proof. exact (fun T R M run jobs capacity said tasks events text p => said_always run jobs said capacity tasks events text p). Qed.
Print Assumptions C89_always.

(** The bulk analyzer, if all rows were written: one line for every label of the old rows, in some order. *)
Theorem C89_bulk_analyzer : forall (E : ext) (digest : json -> string) (files : path -> option json) (jobs capacity : nat)
  (inputs : list input_data_point) (old : list output_data_point) (events : list (event durations)) (text : list ascii) (rows : list output_data_point), 0 < capacity ->
  pool_run_aloud (bulk_task E digest files) jobs task_says (pool_start capacity (make_sorted_tasklist inputs (outputs_by_label old))) events
    = Some (text, Ended rows true) ->
  exists labels, NoDup labels /\ (forall L, In L labels <-> exists o, In o old /\ out_label o = L) /\ in_some_order reused_line labels text.
Proof. exact bulk_messages. Qed.
Print Assumptions C89_bulk_analyzer.

(** The performance experiment: one line for every size and run of the old rows. *)
Theorem C89_experiment : forall (E : ext) (stellar_like : bool) (jobs capacity : nat)
  (inputs : list experiment) (old : list measurement) (events : list (event experiment_durations)) (text : list ascii) (rows : list measurement), 0 < capacity ->
  pool_run_aloud (experiment_step E stellar_like) jobs experiment_says (pool_start capacity (experiment_tasklist inputs (outputs_by_experiment old))) events
    = Some (text, Ended rows true) ->
  exists keys, NoDup keys /\ (forall k, In k keys <-> exists d, In d old /\ mk_experiment (me_top_tier_size d) (me_run d) = k) /\
    in_some_order repeated_line keys text.
Proof. exact experiment_messages. Qed.
Print Assumptions C89_experiment.

(** The lines need not be in the order of rows, even though the rows are. *)
Theorem C89_order_refuted : exists (run : nat -> unit -> res nat) (events : list (event unit)) (said : nat -> list ascii),
  pool_run_aloud run 2 said (pool_start 4 [1; 2]) events = Some (said 2 ++ said 1, Ended [1; 2] true) /\ said 1 <> said 2.
Proof. exact lines_swapped. Qed.
Print Assumptions C89_order_refuted.

Example C89_example : exists events text rows,
  pool_run_aloud (bulk_task std_ext (fun _ => "") (fun _ => None)) 2 task_says
    (pool_start 4 (make_sorted_tasklist [] (outputs_by_label [plain_row "b" 1; plain_row "a" 2; plain_row "b" 3]))) events = Some (text, Ended rows true) /\
  text = reused_line "b" ++ reused_line "a" /\ map out_label rows = ["a"; "b"].
Proof. exact lines_example. Qed.
Example C89_panic_example : let run (t m : nat) := if Nat.eqb t 7 then Panic else Ok t in
  pool_run_aloud run 2 (fun t => [ascii_of_nat (48 + t)]) (pool_start 4 [1; 7; 3]) [Pick 2; Pick 1; Finish 2 0; Finish 1 0; Pick 0; Finish 0 0; Take; Take]
    = Some (["3"%char; "7"%char; "1"%char], Ended [1] false).
Proof. vm_compute. reflexivity. Qed.
Example C89_experiment_example : exists events text rows,
  pool_run_aloud (experiment_step std_ext false) 2 experiment_says
    (pool_start 4 (experiment_tasklist [mk_experiment 3 1; mk_experiment 3 0] (outputs_by_experiment [measured 3 1; measured 3 0; measured 3 1]))) events = Some (text, Ended rows true) /\
  text = repeated_line (mk_experiment 3 1) ++ repeated_line (mk_experiment 3 0) /\ map me_run rows = [0; 1].
Proof. exact repeated_example. Qed.
