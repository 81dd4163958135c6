(** Specification of the files of the bulk programs. Shares only data types with the model. *)
From Coq Require Import ZArith Ascii.
From Verif Require Export Spec_FloatText Spec_Csv.

Definition double_cell (x : f64) (t : list ascii) : Prop := means_double t x.
(** the rows that the contents of an output file say *)
Definition outputs_file (reads_hex skips_mark : bool) (s : list ascii) (rows : list output_data_point) : Prop :=
  exists s', after_mark skips_mark s s' /\ says_rows (output_in double_cell reads_hex) s' rows.
Definition experiments_file (reads_hex skips_mark : bool) (s : list ascii) (rows : list measurement) : Prop :=
  exists s', after_mark skips_mark s s' /\ says_rows (experiment_in double_cell reads_hex) s' rows.
