(** Specification of CSV texts: which records a text consists of and what they say. Shares only data types with the model. *)
From Coq Require Import ZArith Ascii.
From Verif Require Export Spec_CliText Spec_Performance M_Csv.
Local Open Scope string_scope.
Local Open Scope list_scope.
Local Open Scope nat_scope.

(** ** records *)
Definition the_comma : ascii := ",".
Definition the_quote : ascii := "034".
Definition ends_lines (c : ascii) : Prop := c = ascii_of_nat 10 \/ c = ascii_of_nat 13.
(** bytes without commas and line breaks that do not begin with a quotation mark stand for themselves *)
Definition bare (t : list ascii) : Prop :=
  (forall c, In c t -> c <> the_comma /\ ~ ends_lines c) /\ (forall t', t <> the_quote :: t').
(** between quotation marks: quotation marks are doubled *)
Inductive doubled_quotes : list ascii -> list ascii -> Prop :=
| dq_nil : doubled_quotes [] []
| dq_other c f t : c <> the_quote -> doubled_quotes f t -> doubled_quotes (c :: f) (c :: t)
| dq_quote f t : doubled_quotes f t -> doubled_quotes (the_quote :: f) (the_quote :: the_quote :: t).
(** a field and its text; what follows a closing quotation mark belongs to the field *)
Inductive field_text : list ascii -> list ascii -> Prop :=
| field_bare f : bare f -> field_text f f
| field_quoted f t r : doubled_quotes f t -> bare r -> field_text (f ++ r) (the_quote :: t ++ the_quote :: r).
(** at the end of the text the closing quotation mark may be missing *)
Inductive last_field_text : list ascii -> list ascii -> Prop :=
| last_closed f t : field_text f t -> last_field_text f t
| last_open f t : doubled_quotes f t -> last_field_text f (the_quote :: t).
Fixpoint comma_separated (l : list (list ascii)) : list ascii :=
  match l with
  | [] => []
  | [t] => t
  | t :: l' => t ++ the_comma :: comma_separated l'
  end.
(** a record and its text *)
Definition record_text (r : list (list ascii)) (t : list ascii) : Prop :=
  t <> [] /\ exists ts, r <> [] /\ Forall2 field_text r ts /\ t = comma_separated ts.
Definition last_record_text (r : list (list ascii)) (t : list ascii) : Prop :=
  t <> [] /\ exists r' f ts u, r = r' ++ [f] /\ Forall2 field_text r' ts /\ last_field_text f u /\ t = comma_separated (ts ++ [u]).
(** the records of a text; empty lines are skipped *)
Inductive records_of : list (list (list ascii)) -> list ascii -> Prop :=
| records_end : records_of [] []
| records_empty_line c s rs : ends_lines c -> records_of rs s -> records_of rs (c :: s)
| records_line r t c s rs : record_text r t -> ends_lines c -> records_of rs s -> records_of (r :: rs) (t ++ c :: s)
| records_last r t : last_record_text r t -> records_of [r] t.

(** RFC 4180: fields are quoted as a whole if at all, quoted if needed, every line is terminated *)
Inductive strict_field : list ascii -> list ascii -> Prop :=
| strict_bare f : (forall c, In c f -> c <> the_comma /\ c <> the_quote /\ ~ ends_lines c) -> strict_field f f
| strict_quoted f t : doubled_quotes f t -> strict_field f (the_quote :: t ++ [the_quote]).
Definition strict_line (r : list (list ascii)) (line : list ascii) : Prop :=
  exists ts, Forall2 strict_field r ts /\ line = comma_separated ts ++ [ascii_of_nat 10].
Definition strict_csv (rs : list (list (list ascii))) (s : list ascii) : Prop := exists lines, Forall2 strict_line rs lines /\ s = concat lines.

(** ** cells *)
Definition usize_limit : N := (2 ^ 64)%N.
Definition hex_digit_of (c : ascii) (d : nat) : Prop := nth_error hex_digits_lower d = Some c \/ nth_error hex_digits_upper d = Some c.
(** hexadecimal digits and the number they denote *)
Inductive hex_digits_of : list ascii -> N -> Prop :=
| hex_one c d : hex_digit_of c d -> hex_digits_of [c] (N.of_nat d)
| hex_more t v c d : hex_digits_of t v -> hex_digit_of c d -> hex_digits_of (t ++ [c]) (16 * v + N.of_nat d).
Definition plus_sign (t : list ascii) : Prop := t = [] \/ t = bytes "+".
Definition number_cell (reads_hex : bool) (n : nat) (s : list ascii) : Prop :=
  (N.of_nat n < usize_limit)%N /\ exists sign ds, plus_sign sign /\
  (digits_of ds (N.of_nat n) /\ s = sign ++ ds \/ reads_hex = true /\ hex_digits_of ds (N.of_nat n) /\ s = bytes "0x" ++ sign ++ ds).
Definition flag_cell (b : bool) (s : list ascii) : Prop := s = bytes (if b then "true" else "false").
Definition text_cell (t : string) (s : list ascii) : Prop := s = bytes t.

(** ** columns *)
Definition column (header r : list (list ascii)) (name : string) (i : nat) (s : list ascii) : Prop :=
  nth_error header i = Some (bytes name) /\ nth_error r i = Some s.
(** there is exactly one column of this name *)
Definition the_column (header r : list (list ascii)) (name : string) (s : list ascii) : Prop :=
  (exists i, column header r name i s) /\ forall i j, nth_error header i = Some (bytes name) -> nth_error header j = Some (bytes name) -> i = j.
Definition value_in {A} (cell : A -> list ascii -> Prop) (header r : list (list ascii)) (name : string) (a : A) : Prop :=
  exists s, the_column header r name s /\ cell a s.
(** an empty field or no such column: no value *)
Definition option_in {A} (cell : A -> list ascii -> Prop) (header r : list (list ascii)) (name : string) (o : option A) : Prop :=
  match o with
  | Some a => exists s, the_column header r name s /\ s <> [] /\ cell a s
  | None => the_column header r name [] \/ ~ In (bytes name) header
  end.

Section Rows.
Context (reads_float : f64 -> list ascii -> Prop) (reads_hex : bool).
Notation number := (number_cell reads_hex).

(** ** rows of the bulk analyzer *)
Definition group_in (header r : list (list ascii)) (prefix : string) (g : analysis_results) : Prop :=
  option_in number header r (prefix ++ "top_tier_size") (gr_top_tier_size g) /\
  option_in number header r (prefix ++ "mbs_min") (gr_mbs_min g) /\ option_in number header r (prefix ++ "mbs_max") (gr_mbs_max g) /\
  option_in reads_float header r (prefix ++ "mbs_mean") (gr_mbs_mean g) /\
  option_in number header r (prefix ++ "mss_min") (gr_mss_min g) /\ option_in number header r (prefix ++ "mss_max") (gr_mss_max g) /\
  option_in reads_float header r (prefix ++ "mss_mean") (gr_mss_mean g) /\
  option_in number header r (prefix ++ "mq_min") (gr_mq_min g) /\ option_in number header r (prefix ++ "mq_max") (gr_mq_max g) /\
  option_in reads_float header r (prefix ++ "mq_mean") (gr_mq_mean g).
Definition output_in (header r : list (list ascii)) (o : output_data_point) : Prop :=
  value_in text_cell header r "label" (out_label o) /\
  value_in flag_cell header r "has_quorum_intersection" (out_has_quorum_intersection o) /\
  value_in number header r "top_tier_size" (out_top_tier_size o) /\
  value_in number header r "mbs_min" (out_mbs_min o) /\ value_in number header r "mbs_max" (out_mbs_max o) /\
  value_in reads_float header r "mbs_mean" (out_mbs_mean o) /\
  value_in number header r "mss_min" (out_mss_min o) /\ value_in number header r "mss_max" (out_mss_max o) /\
  value_in reads_float header r "mss_mean" (out_mss_mean o) /\
  value_in number header r "mq_min" (out_mq_min o) /\ value_in number header r "mq_max" (out_mq_max o) /\
  value_in reads_float header r "mq_mean" (out_mq_mean o) /\
  group_in header r "orgs_" (out_orgs o) /\ group_in header r "isps_" (out_isps o) /\ group_in header r "ctries_" (out_ctries o) /\
  value_in text_cell header r "standard_form_hash" (out_standard_form_hash o) /\
  value_in reads_float header r "analysis_duration_mq" (du_mq (out_durations o)) /\
  value_in reads_float header r "analysis_duration_mbs" (du_mbs (out_durations o)) /\
  value_in reads_float header r "analysis_duration_mss" (du_mss (out_durations o)) /\
  value_in reads_float header r "analysis_duration_total" (du_total (out_durations o)).
(** ** rows of the performance experiment *)
Definition experiment_in (header r : list (list ascii)) (d : measurement) : Prop :=
  value_in number header r "top_tier_size" (me_top_tier_size d) /\ value_in number header r "run" (me_run d) /\
  value_in number header r "mq_number" (me_mq_number d) /\ value_in number header r "mbs_number" (me_mbs_number d) /\
  value_in number header r "mss_number" (me_mss_number d) /\ value_in reads_float header r "mq_mean" (me_mq_mean d) /\
  value_in reads_float header r "mbs_mean" (me_mbs_mean d) /\ value_in reads_float header r "mss_mean" (me_mss_mean d) /\
  value_in reads_float header r "analysis_duration_mq" (ed_mq (me_durations d)) /\
  value_in reads_float header r "analysis_duration_mbs" (ed_mbs (me_durations d)) /\
  value_in reads_float header r "analysis_duration_mss" (ed_mss (me_durations d)) /\
  value_in reads_float header r "analysis_duration_hqi_after_mq" (ed_hqi_after_mq (me_durations d)) /\
  value_in reads_float header r "analysis_duration_hqi_alt_check" (ed_hqi_alt_check (me_durations d)) /\
  value_in reads_float header r "analysis_duration_total" (ed_total (me_durations d)).
End Rows.

(** the rows that a text says: none, or a header and records of the same length *)
Definition says_rows {A} (row_in : list (list ascii) -> list (list ascii) -> A -> Prop) (s : list ascii) (rows : list A) : Prop :=
  records_of [] s /\ rows = [] \/
  exists header records, records_of (header :: records) s /\ Forall2 (fun r a => List.length r = List.length header /\ row_in header r a) records rows.
(** a byte order mark in front of the text *)
Definition after_mark (skips_mark : bool) (s s' : list ascii) : Prop :=
  let mark := map ascii_of_nat [239; 187; 191] in
  skips_mark = true /\ s = mark ++ s' \/ (skips_mark = false \/ forall t, s <> mark ++ t) /\ s' = s.

(** numbers of a row are numbers of the machine *)
Definition fits (n : nat) : Prop := (N.of_nat n < usize_limit)%N.
Definition option_fits (o : option nat) : Prop := match o with Some n => fits n | None => True end.
Definition group_fits (g : analysis_results) : Prop :=
  option_fits (gr_top_tier_size g) /\ option_fits (gr_mbs_min g) /\ option_fits (gr_mbs_max g) /\ option_fits (gr_mss_min g) /\
  option_fits (gr_mss_max g) /\ option_fits (gr_mq_min g) /\ option_fits (gr_mq_max g).
Definition output_fits (o : output_data_point) : Prop :=
  fits (out_top_tier_size o) /\ fits (out_mbs_min o) /\ fits (out_mbs_max o) /\ fits (out_mss_min o) /\ fits (out_mss_max o) /\
  fits (out_mq_min o) /\ fits (out_mq_max o) /\ group_fits (out_orgs o) /\ group_fits (out_isps o) /\ group_fits (out_ctries o).
Definition experiment_fits (d : measurement) : Prop :=
  fits (me_top_tier_size d) /\ fits (me_run d) /\ fits (me_mq_number d) /\ fits (me_mbs_number d) /\ fits (me_mss_number d).
(** the text of a floating point number is not empty and is read as this number *)
Definition readable_format (float_text : f64 -> list ascii) (parse_float : list ascii -> option f64) : Prop :=
  forall x, float_text x <> [] /\ parse_float (float_text x) = Some x.
(** what the contents of an output file say *)
Definition says_outputs (parse_float : list ascii -> option f64) (reads_hex skips_mark : bool) (s : list ascii) (rows : list output_data_point) : Prop :=
  exists s', after_mark skips_mark s s' /\ says_rows (output_in (fun x t => parse_float t = Some x) reads_hex) s' rows.
Definition says_experiments (parse_float : list ascii -> option f64) (reads_hex skips_mark : bool) (s : list ascii) (rows : list measurement) : Prop :=
  exists s', after_mark skips_mark s s' /\ says_rows (experiment_in (fun x t => parse_float t = Some x) reads_hex) s' rows.
(** rows that agree except for the last column *)
Definition same_but_total (o o' : output_data_point) : Prop :=
  same_results o o' /\ du_mq (out_durations o) = du_mq (out_durations o') /\ du_mbs (out_durations o) = du_mbs (out_durations o') /\
  du_mss (out_durations o) = du_mss (out_durations o').
Definition same_experiment_but_total (d d' : measurement) : Prop :=
  same_numbers d d' /\ ed_mq (me_durations d) = ed_mq (me_durations d') /\ ed_mbs (me_durations d) = ed_mbs (me_durations d') /\
  ed_mss (me_durations d) = ed_mss (me_durations d') /\ ed_hqi_after_mq (me_durations d) = ed_hqi_after_mq (me_durations d') /\
  ed_hqi_alt_check (me_durations d) = ed_hqi_alt_check (me_durations d').
(** the first of the rows, the last of these perhaps with another last column *)
Definition first_rows {A} (same : A -> A -> Prop) (rows rows' : list A) : Prop :=
  exists k, rows' = firstn k rows \/ exists a a', nth_error rows k = Some a /\ same a a' /\ rows' = firstn k rows ++ [a'].
(** runs that end alike, with texts that say the same except for durations *)
Definition same_text_outcome (says : list ascii -> list output_data_point -> Prop) (r r' : res (option (list ascii * bool))) : Prop :=
  match r, r' with
  | Ok (Some (s, complete)), Ok (Some (s', complete')) =>
      complete = complete' /\ exists rows rows', says s rows /\ says s' rows' /\ Forall2 same_results rows rows'
  | Ok None, Ok None | Panic, Panic => True
  | _, _ => False
  end.
