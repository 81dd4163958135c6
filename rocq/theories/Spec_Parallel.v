(** Running tasks one after the other, without reference to threads. *)
From Verif Require Export M_Parallel.
Local Open Scope list_scope.

Section InOrder.
Context {T R M : Type} (run : T -> M -> res R).
(** the tasks are run in this order, each result becomes a row; the first panic stops the program *)
Inductive one_by_one : list T -> list R -> bool -> Prop :=
| all_done : one_by_one [] [] true
| next_row t m r ts rows complete : run t m = Ok r -> one_by_one ts rows complete -> one_by_one (t :: ts) (r :: rows) complete
| panics t m ts : run t m = Panic -> one_by_one (t :: ts) [] false.

(** the rows written so far belong to the first tasks *)
Definition rows_so_far (tasks : list T) (rows : list R) : Prop :=
  exists done_ rest, tasks = done_ ++ rest /\ Forall2 (fun t r => exists m, run t m = Ok r) done_ rows.
Definition rows_of (p : pool T R) : list R := match p with Working _ _ rows | Ended rows _ => rows end.
Definition ended (p : pool T R) : Prop := match p with Working _ _ _ => False | Ended _ _ => True end.
End InOrder.
