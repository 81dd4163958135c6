(** What an AS relationship file says, for any text. Stated without the algorithms of the model. *)
From Verif Require Export Spec_GraphIO.
Local Open Scope string_scope.
Local Open Scope list_scope.

(** digits, at least one, possibly with leading zeros, and the number they denote *)
Inductive digit_is : ascii -> N -> Prop :=
| is0 : digit_is "0" 0 | is1 : digit_is "1" 1 | is2 : digit_is "2" 2 | is3 : digit_is "3" 3 | is4 : digit_is "4" 4
| is5 : digit_is "5" 5 | is6 : digit_is "6" 6 | is7 : digit_is "7" 7 | is8 : digit_is "8" 8 | is9 : digit_is "9" 9.
Inductive numeral : string -> N -> Prop :=
| one_digit c d : digit_is c d -> numeral (String c "") d
| more_digits s n c d : numeral s n -> digit_is c d -> numeral (s ++ String c "") (10 * n + d).
(** a node id: there may be a plus sign *)
Definition id_text (s : string) (n : nat) : Prop :=
  numeral s (N.of_nat n) \/ exists s', s = String "+" s' /\ numeral s' (N.of_nat n).
(** 0, with or without a sign, stands for peering, -1 for the relation of a customer *)
Definition kind_text (s : string) (peering : bool) : Prop :=
  if peering then numeral s 0 \/ exists s', (s = String "+" s' \/ s = String "-" s') /\ numeral s' 0
  else exists s', s = String "-" s' /\ numeral s' 1.

(** what a line says; the size of the graph, one more than the largest id, must fit a machine word *)
Inductive line_says : string -> as_item -> Prop :=
| says_blank : line_says "" Blank
| says_comment text : line_says (String "#" text) (Comment text)
| says_relation sa a sb b sk peering rest : id_text sa a -> id_text sb b -> kind_text sk peering ->
    (N.of_nat a + 1 < 2 ^ 64)%N -> (N.of_nat b + 1 < 2 ^ 64)%N -> (rest = "" \/ exists columns, rest = String "|" columns) ->
    line_says (sa ++ "|" ++ sb ++ "|" ++ sk ++ rest) (Relation a b peering rest).

(** the lines of a text: each is ended by a newline or by a carriage return and a newline; the last line need not be ended *)
Definition ends_with_cr (s : string) : Prop := exists s', s = (s' ++ String carriage_return "")%string.
Inductive text_lines : string -> list string -> Prop :=
| no_lines : text_lines "" []
| last_line s : s <> "" -> free_of newline s -> text_lines s [s]
| lf_line s text ls : free_of newline s -> ~ ends_with_cr s -> text_lines text ls -> text_lines (s ++ String newline text) (s :: ls)
| crlf_line s text ls : free_of newline s -> text_lines text ls ->
    text_lines (s ++ String carriage_return (String newline text)) (s :: ls).
