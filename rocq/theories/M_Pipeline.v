(** Model of the text that /repo/src/bin/qsc_simulator.rs prints. No proofs here. *)
From Coq Require Import Ascii.
From Verif Require Export M_Bins M_JsonText M_CliText.
Local Open Scope list_scope.

(** qsc_simulator.rs l.167-196: [main]; the FBAS is printed by one [println!] (l.194) *)
Definition simulator_text (args : simulator_args) (w : inputs) (r : rng) : res (list ascii) :=
  res_map (fun f => fbas_to_text_pretty f ++ new_line_text) (simulated args w r).
