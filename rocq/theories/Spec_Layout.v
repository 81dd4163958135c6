(** Specification of indented JSON texts: how a text without blanks is laid out on several lines, going through it byte by byte. *)
From Coq Require Import Ascii List.
Import ListNotations.
Local Open Scope char_scope.
Local Open Scope list_scope.

Inductive place := Outside | Inside | Escaped.
(** a new line at the given depth *)
Definition indent (depth : nat) : list ascii := "010" :: repeat " " (depth + depth).
Definition opening (c : ascii) : bool := Ascii.eqb c "[" || Ascii.eqb c "{".
Definition closing (c : ascii) : bool := Ascii.eqb c "]" || Ascii.eqb c "}".

(** [p] tells whether we are in a string, [depth] counts the brackets that are open: outside of strings, a line ends after each opening
    bracket, after each comma and before each closing bracket, unless there is nothing between the brackets; a blank follows each colon *)
Fixpoint laid_out (depth : nat) (p : place) (s : list ascii) : list ascii :=
  match s with
  | [] => []
  | c :: s' =>
      match p with
      | Escaped => c :: laid_out depth Inside s'
      | Inside => c :: laid_out depth (if Ascii.eqb c "\" then Escaped else if Ascii.eqb c "034" then Outside else Inside) s'
      | Outside =>
          if opening c then
            match s' with
            | [] => [c]
            | d :: s'' => if closing d then c :: d :: laid_out depth Outside s'' else c :: indent (S depth) ++ laid_out (S depth) Outside s'
            end
          else if closing c then indent (pred depth) ++ c :: laid_out (pred depth) Outside s'
          else if Ascii.eqb c "," then c :: indent depth ++ laid_out depth Outside s'
          else if Ascii.eqb c ":" then c :: " " :: laid_out depth Outside s'
          else c :: laid_out depth (if Ascii.eqb c "034" then Inside else Outside) s'
      end
  end.
