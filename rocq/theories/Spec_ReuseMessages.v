(** Lines about reused results, in an order that is left open (C89). *)
From Coq Require Import Ascii.
From Coq Require Export Permutation.
From Verif Require Export M_ReuseMessages.
Local Open Scope string_scope.
Local Open Scope list_scope.

(** the text consists of one piece for every element, in some order *)
Definition in_some_order {A} (piece : A -> list ascii) (l : list A) (text : list ascii) : Prop :=
  exists order, Permutation order l /\ text = List.concat (map piece order).
(** the same for some of the elements, [some] of them being among these *)
Definition part_in_some_order {A} (piece : A -> list ascii) (some l : list A) (text : list ascii) : Prop :=
  exists more rest, Permutation (some ++ more ++ rest) l /\ in_some_order piece (some ++ more) text.

(** a line *)
Definition a_line (parts : list (list ascii)) : list ascii := List.concat parts ++ ["010"%char].
Definition reused_line (label : string) : list ascii :=
  a_line [bytes "Reusing existing analysis results for "; bytes label; bytes "."].
Definition repeated_line (x : experiment) : list ascii :=
  a_line [bytes "Reusing existing analysis results for m="; nat_text (x_top_tier_size x); bytes ", run="; nat_text (x_run x); bytes "."].
