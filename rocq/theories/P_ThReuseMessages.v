(** An example for the messages about reused results. *)
From Coq Require Import Ascii.
From Verif Require Export P_ReuseMessages P_ThBulk.
Local Open Scope string_scope.
Local Open Scope list_scope.

Lemma lines_example : exists events text rows,
  pool_run_aloud (bulk_task std_ext (fun _ => "") (fun _ => None)) 2 task_says
    (pool_start 4 (make_sorted_tasklist [] (outputs_by_label [plain_row "b" 1; plain_row "a" 2; plain_row "b" 3]))) events = Some (text, Ended rows true) /\
  text = reused_line "b" ++ reused_line "a" /\ map out_label rows = ["a"; "b"].
Proof.
  change (make_sorted_tasklist [] (outputs_by_label [plain_row "b" 1; plain_row "a" 2; plain_row "b" 3]))
    with [Reuse (plain_row "a" 2); Reuse (plain_row "b" 3)].
  set (d := out_durations (plain_row "a" 2)).
  exists [Pick 0; Pick 1; Finish 1 d; Finish 0 d; Take; Take; Take], (reused_line "b" ++ reused_line "a"), [plain_row "a" 2; plain_row "b" 3].
  split; [reflexivity|split; reflexivity].
Qed.
Definition measured (m run : nat) : measurement := mk_measurement m run 7 7 7 fzero fzero fzero (mk_experiment_durations fzero fzero fzero fzero fzero fzero).
Lemma repeated_example : exists events text rows,
  pool_run_aloud (experiment_step std_ext false) 2 experiment_says
    (pool_start 4 (experiment_tasklist [mk_experiment 3 1; mk_experiment 3 0] (outputs_by_experiment [measured 3 1; measured 3 0; measured 3 1]))) events = Some (text, Ended rows true) /\
  text = repeated_line (mk_experiment 3 1) ++ repeated_line (mk_experiment 3 0) /\ map me_run rows = [0; 1].
Proof.
  change (experiment_tasklist [mk_experiment 3 1; mk_experiment 3 0] (outputs_by_experiment [measured 3 1; measured 3 0; measured 3 1]))
    with [Repeat (measured 3 0); Repeat (measured 3 1)].
  set (d := me_durations (measured 3 0)).
  exists [Pick 0; Pick 1; Finish 1 d; Finish 0 d; Take; Take; Take], (repeated_line (mk_experiment 3 1) ++ repeated_line (mk_experiment 3 0)), [measured 3 0; measured 3 1].
  split; [reflexivity|split; reflexivity].
Qed.
