(** The syntax of JSON texts (RFC 8259). Shares only the data types with the model. *)
From Coq Require Import ZArith Ascii.
From Verif Require Export Spec_Json M_JsonText.
Local Open Scope char_scope.
Local Open Scope list_scope.

Definition blank (w : text) : Prop := Forall (fun c => In c [" "; "009"; "010"; "013"]) w.

(** ** numbers *)
Definition decimal_digits : text := ["0"; "1"; "2"; "3"; "4"; "5"; "6"; "7"; "8"; "9"].
Definition digit_of (c : ascii) (d : nat) : Prop := nth_error decimal_digits d = Some c.
(** digits and the number they denote *)
Inductive digits_of : text -> N -> Prop :=
| digits_one c d : digit_of c d -> digits_of [c] (N.of_nat d)
| digits_more t v c d : digits_of t v -> digit_of c d -> digits_of (t ++ [c]) (10 * v + N.of_nat d).
(** no superfluous zero in front *)
Definition integer_of (t : text) (v : N) : Prop := digits_of t v /\ (t = ["0"] \/ ~ exists r, t = "0" :: r).
Definition fraction (t : text) : Prop := exists ds v, t = "." :: ds /\ digits_of ds v.
Definition exponent (t : text) : Prop :=
  exists e sign ds v, t = e :: sign ++ ds /\ In e ["e"; "E"] /\ In sign [[]; ["+"]; ["-"]] /\ digits_of ds v.
Inductive number (minus_zero : bool) : json -> text -> Prop :=
| number_natural t v : integer_of t v -> number minus_zero (JInt (Z.of_N v)) t
| number_negative t v : integer_of t v -> v <> 0%N -> number minus_zero (JInt (- Z.of_N v)) ("-" :: t)
| number_minus_zero : number minus_zero (if minus_zero then JInt 0 else JFloat) ["-"; "0"]
| number_float sign t v f e : In sign [[]; ["-"]] -> integer_of t v -> f = [] \/ fraction f -> e = [] \/ exponent e -> f ++ e <> [] ->
    number minus_zero JFloat (sign ++ t ++ f ++ e).

(** ** strings *)
Definition hex_digits_lower : text := decimal_digits ++ ["a"; "b"; "c"; "d"; "e"; "f"].
Definition hex_digits_upper : text := decimal_digits ++ ["A"; "B"; "C"; "D"; "E"; "F"].
Definition hex_of (c : ascii) (d : nat) : Prop := nth_error hex_digits_lower d = Some c \/ nth_error hex_digits_upper d = Some c.
(** four hexadecimal digits *)
Definition hex4_of (t : text) (n : N) : Prop :=
  exists a b c d w x y z, t = [a; b; c; d] /\ hex_of a w /\ hex_of b x /\ hex_of c y /\ hex_of d z /\
    n = (N.of_nat w * 4096 + N.of_nat x * 256 + N.of_nat y * 16 + N.of_nat z)%N.
(** the bytes of a character: the shortest possible UTF-8 encoding *)
Definition char_bytes (n : N) (bytes : text) : Prop :=
  exists bs, bytes = map ascii_of_N bs /\
  ((n < 128 /\ bs = [n]) \/
   (exists x y, 128 <= n /\ x < 32 /\ y < 64 /\ n = x * 64 + y /\ bs = [192 + x; 128 + y]) \/
   (exists x y z, 2048 <= n /\ x < 16 /\ y < 64 /\ z < 64 /\ n = (x * 64 + y) * 64 + z /\ bs = [224 + x; 128 + y; 128 + z]) \/
   (exists w x y z, 65536 <= n /\ w < 8 /\ x < 64 /\ y < 64 /\ z < 64 /\ n = ((w * 64 + x) * 64 + y) * 64 + z /\
      bs = [240 + w; 128 + x; 128 + y; 128 + z]))%N.
Definition plain (c : ascii) : Prop := c <> quote /\ c <> backslash /\ (32 <= N_of_ascii c)%N.
Definition short_escapes : list (ascii * ascii) :=
  [(quote, quote); (backslash, backslash); ("/", "/"); ("b", "008"); ("f", "012"); ("n", "010"); ("r", "013"); ("t", "009")].
Definition high_surrogate (n : N) : Prop := (0xD800 <= n <= 0xDBFF)%N.
Definition low_surrogate (n : N) : Prop := (0xDC00 <= n <= 0xDFFF)%N.
(** the text between quotes and the bytes of the string it denotes *)
Inductive denotes : text -> text -> Prop :=
| denotes_nil : denotes [] []
| denotes_plain c t b : plain c -> denotes t b -> denotes (c :: t) (c :: b)
| denotes_short e c t b : In (e, c) short_escapes -> denotes t b -> denotes (backslash :: e :: t) (c :: b)
| denotes_unicode h n bs t b : hex4_of h n -> ~ high_surrogate n -> ~ low_surrogate n -> char_bytes n bs -> denotes t b ->
    denotes (backslash :: "u" :: h ++ t) (bs ++ b)
| denotes_pair h n h' n' bs t b : hex4_of h n -> hex4_of h' n' -> high_surrogate n -> low_surrogate n' ->
    char_bytes ((n - 0xD800) * 1024 + (n' - 0xDC00) + 0x10000) bs -> denotes t b ->
    denotes (backslash :: "u" :: h ++ backslash :: "u" :: h' ++ t) (bs ++ b).
(** the text between quotes, whether or not it denotes a string *)
Inductive string_syntax : text -> Prop :=
| syntax_nil : string_syntax []
| syntax_plain c t : plain c -> string_syntax t -> string_syntax (c :: t)
| syntax_short e c t : In (e, c) short_escapes -> string_syntax t -> string_syntax (backslash :: e :: t)
| syntax_unicode h n t : hex4_of h n -> string_syntax t -> string_syntax (backslash :: "u" :: h ++ t).
Definition string_text (t : text) (o : option text) : Prop :=
  match o with
  | Some b => denotes t b
  | None => string_syntax t /\ ~ exists b, denotes t b
  end.

(** ** values *)
Definition object_is (l : list (option text * json)) (j : json) : Prop :=
  (exists fs, l = map (fun e => (Some (list_ascii_of_string (fst e)), snd e)) fs /\ j = JObj fs) \/
  ((exists v, In (None, v) l) /\ j = JIgnorable).
Inductive value (minus_zero : bool) : json -> text -> Prop :=
| value_null : value minus_zero JNull ["n"; "u"; "l"; "l"]
| value_true : value minus_zero (JBool true) ["t"; "r"; "u"; "e"]
| value_false : value minus_zero (JBool false) ["f"; "a"; "l"; "s"; "e"]
| value_number j t : number minus_zero j t -> value minus_zero j t
| value_string t s : string_text t (Some (list_ascii_of_string s)) -> value minus_zero (JStr s) (quote :: t ++ [quote])
| value_undecodable t : string_text t None -> value minus_zero JIgnorable (quote :: t ++ [quote])
| value_empty_array w : blank w -> value minus_zero (JArr []) ("[" :: w ++ ["]"])
| value_array l t : array_items minus_zero l t -> value minus_zero (JArr l) ("[" :: t ++ ["]"])
| value_empty_object w : blank w -> value minus_zero (JObj []) ("{" :: w ++ ["}"])
| value_object l t j : members minus_zero l t -> object_is l j -> value minus_zero j ("{" :: t ++ ["}"])
with array_items (minus_zero : bool) : list json -> text -> Prop :=
| elements_one j w t w' : blank w -> value minus_zero j t -> blank w' -> array_items minus_zero [j] (w ++ t ++ w')
| elements_more j w t w' l u : blank w -> value minus_zero j t -> blank w' -> array_items minus_zero l u ->
    array_items minus_zero (j :: l) (w ++ t ++ w' ++ "," :: u)
with members (minus_zero : bool) : list (option text * json) -> text -> Prop :=
| members_one k j w kt w1 w2 t w' : blank w -> string_text kt k -> blank w1 -> blank w2 -> value minus_zero j t -> blank w' ->
    members minus_zero [(k, j)] (w ++ quote :: kt ++ quote :: w1 ++ ":" :: w2 ++ t ++ w')
| members_more k j w kt w1 w2 t w' l u : blank w -> string_text kt k -> blank w1 -> blank w2 -> value minus_zero j t -> blank w' ->
    members minus_zero l u ->
    members minus_zero ((k, j) :: l) (w ++ quote :: kt ++ quote :: w1 ++ ":" :: w2 ++ t ++ w' ++ "," :: u).
(** [s] is a text of the document [j] *)
Definition document (minus_zero : bool) (j : json) (s : text) : Prop :=
  exists w t w', blank w /\ value minus_zero j t /\ blank w' /\ s = w ++ t ++ w'.

(** how deeply quorum sets are nested *)
Inductive nesting_at_most : nat -> raw_qset -> Prop :=
| nesting_intro k t vs is_ : Forall (nesting_at_most k) is_ -> nesting_at_most (S k) (RQ t vs is_).
Inductive qset_nesting_at_most : nat -> qset -> Prop :=
| qset_nesting_intro k t vs is_ : Forall (qset_nesting_at_most k) is_ -> qset_nesting_at_most (S k) (QS t vs is_).
