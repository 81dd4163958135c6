(** Model of the CSV texts written and read by /repo/src/bin/bulk_fbas_analyzer.rs (l.75-123, l.182-196, l.355-372, l.456-485) and
    /repo/src/bin/bulk_performance_experiment.rs (l.88-104, l.135-148, l.249-266, l.317-347), that is, of the used parts of csv 1.1
    ([Writer::serialize], [Reader::deserialize], both with default settings). No proofs here.
    Texts are lists of bytes (UTF-8). How floating point numbers are written and read is a parameter. /repo has no Cargo.lock:
    what depends on the version of csv is a parameter, too. *)
From Coq Require Import ZArith Ascii.
From Verif Require Export M_CliText M_Performance.
Local Open Scope string_scope.
Local Open Scope list_scope.

Definition delimiter : ascii := ",".
Definition is_line_break (c : ascii) : bool := Ascii.eqb c "010" || Ascii.eqb c "013".
Notation record := (list (list ascii)).

(** ** writing *)
(** a field is quoted if necessary *)
Definition needs_quotes (f : list ascii) : bool := existsb (fun c => Ascii.eqb c delimiter || Ascii.eqb c quote || is_line_break c) f.
Definition write_field (f : list ascii) : list ascii :=
  if needs_quotes f then quote :: flat_map (fun c => if Ascii.eqb c quote then [quote; quote] else [c]) f ++ [quote] else f.
(** for records of more than one field *)
Definition write_record (r : record) : list ascii := join [delimiter] (map write_field r) ++ ["010"%char].
(** the header is written together with the first record *)
Definition write_csv (header : list string) (records : list record) : list ascii :=
  match records with [] => [] | _ => flat_map write_record (map bytes header :: records) end.

(** ** reading: the automaton of csv-core *)
Inductive csv_state := StartRecord | StartField | InField | InQuotedField | QuoteInQuotedField.
(** [field] and [fields]: what was read of the current field and the current record, in reverse. After [\r] a following [\n] is dropped
    like an empty line. *)
Fixpoint read_records (state : csv_state) (field : list ascii) (fields : record) (s : list ascii) : list record :=
  match s with
  | [] => match state with StartRecord => [] | _ => [rev (rev field :: fields)] end
  | c :: s' =>
      let end_field := read_records StartField [] (rev field :: fields) s' in
      let end_record := rev (rev field :: fields) :: read_records StartRecord [] [] s' in
      match state with
      | StartRecord =>
          if is_line_break c then read_records StartRecord [] [] s'
          else if Ascii.eqb c quote then read_records InQuotedField [] [] s'
          else if Ascii.eqb c delimiter then read_records StartField [] [[]] s'
          else read_records InField [c] [] s'
      | StartField =>
          if Ascii.eqb c quote then read_records InQuotedField [] fields s'
          else if Ascii.eqb c delimiter then end_field
          else if is_line_break c then end_record
          else read_records InField [c] fields s'
      | InField =>
          if Ascii.eqb c delimiter then end_field
          else if is_line_break c then end_record
          else read_records InField (c :: field) fields s'
      | InQuotedField =>
          if Ascii.eqb c quote then read_records QuoteInQuotedField field fields s'
          else read_records InQuotedField (c :: field) fields s'
      | QuoteInQuotedField =>
          if Ascii.eqb c quote then read_records InQuotedField (c :: field) fields s'
          else if Ascii.eqb c delimiter then end_field
          else if is_line_break c then end_record
          else read_records InField (c :: field) fields s'
      end
  end.
Definition byte_order_mark : list ascii := map ascii_of_N [239; 187; 191]%N.

(** ** values *)
(** [usize::from_str_radix] *)
Fixpoint digits_value (base : N) (value : N) (s : list ascii) : option N :=
  match s with
  | [] => Some value
  | c :: s' =>
      match hex_value c with
      | Some d => if ((d <? base) && (value * base + d <? 2 ^ 64))%N then digits_value base (value * base + d)%N s' else None
      | None => None
      end
  end.
Definition parse_radix (base : N) (s : list ascii) : option nat :=
  let s' := match s with c :: d :: s' => if Ascii.eqb c "+" then d :: s' else s | _ => s end in
  match s' with [] => None | _ => option_map N.to_nat (digits_value base 0 s') end.
Definition parse_bool (s : list ascii) : option bool :=
  if string_dec (string_of_list_ascii s) "true" then Some true
  else if string_dec (string_of_list_ascii s) "false" then Some false
  else None.
Definition parse_string (s : list ascii) : option string := Some (string_of_list_ascii s).

Local Notation "x <-? e ;; k" := (match e with Some x => k | None => None end) (at level 61, e at next level, right associativity).

Section Csv.
(** ryu's text of an [f64] and [str::parse::<f64>] *)
Context (float_text : f64 -> list ascii) (parse_float : list ascii -> option f64).
(** whether numbers may be written as [0x]… and whether a byte order mark is skipped *)
Context (reads_hex skips_mark : bool).

Definition parse_cell_usize (s : list ascii) : option nat :=
  match s with
  | a :: b :: s' => if reads_hex && Ascii.eqb a "0" && Ascii.eqb b "x" then parse_radix 16 s' else parse_radix 10 s
  | _ => parse_radix 10 s
  end.
Definition skip_mark (s : list ascii) : list ascii :=
  match (if skips_mark then drop_prefix byte_order_mark s else None) with Some s' => s' | None => s end.

(** ** columns: derived [Deserialize] of a struct *)
Definition cells_of (name : string) (columns : list (string * list ascii)) : list (list ascii) :=
  map snd (filter (fun c => String.eqb (fst c) name) columns).
Definition required_cell {A} (parse : list ascii -> option A) (name : string) (columns : list (string * list ascii)) : option A :=
  match cells_of name columns with [v] => parse v | _ => None end.
Definition optional_cell {A} (parse : list ascii -> option A) (name : string) (columns : list (string * list ascii)) : option (option A) :=
  match cells_of name columns with
  | [] | [[]] => Some None
  | [v] => option_map Some (parse v)
  | _ => None
  end.
Fixpoint all_some {A B} (g : A -> option B) (l : list A) : option (list B) :=
  match l with [] => Some [] | a :: l' => b <-? g a ;; bs <-? all_some g l' ;; Some (b :: bs) end.
(** l.456-463: [read_csv_from_file]; [None] is an error. All records must be as long as the first. *)
Definition read_csv {A} (from_columns : list (string * list ascii) -> option A) (s : list ascii) : option (list A) :=
  match read_records StartRecord [] [] (skip_mark s) with
  | [] => Some []
  | header :: records =>
      all_some (fun r => if (List.length r =? List.length header)%nat then from_columns (combine (map string_of_list_ascii header) r) else None) records
  end.

(** ** rows of the bulk analyzer *)
Definition group_header (prefix : string) : list string :=
  map (append prefix) ["top_tier_size"; "mbs_min"; "mbs_max"; "mbs_mean"; "mss_min"; "mss_max"; "mss_mean"; "mq_min"; "mq_max"; "mq_mean"].
Definition output_header : list string :=
  ["label"; "has_quorum_intersection"; "top_tier_size"; "mbs_min"; "mbs_max"; "mbs_mean"; "mss_min"; "mss_max"; "mss_mean"; "mq_min"; "mq_max"; "mq_mean"]
  ++ group_header "orgs_" ++ group_header "isps_" ++ group_header "ctries_"
  ++ ["standard_form_hash"; "analysis_duration_mq"; "analysis_duration_mbs"; "analysis_duration_mss"; "analysis_duration_total"].
Definition text_or_empty {A} (text_of : A -> list ascii) (o : option A) : list ascii := match o with Some a => text_of a | None => [] end.
Definition group_record (g : analysis_results) : record :=
  [text_or_empty nat_text (gr_top_tier_size g);
   text_or_empty nat_text (gr_mbs_min g); text_or_empty nat_text (gr_mbs_max g); text_or_empty float_text (gr_mbs_mean g);
   text_or_empty nat_text (gr_mss_min g); text_or_empty nat_text (gr_mss_max g); text_or_empty float_text (gr_mss_mean g);
   text_or_empty nat_text (gr_mq_min g); text_or_empty nat_text (gr_mq_max g); text_or_empty float_text (gr_mq_mean g)].
Definition output_record (o : output_data_point) : record :=
  [bytes (out_label o); bytes (if out_has_quorum_intersection o then "true" else "false"); nat_text (out_top_tier_size o);
   nat_text (out_mbs_min o); nat_text (out_mbs_max o); float_text (out_mbs_mean o);
   nat_text (out_mss_min o); nat_text (out_mss_max o); float_text (out_mss_mean o);
   nat_text (out_mq_min o); nat_text (out_mq_max o); float_text (out_mq_mean o)]
  ++ group_record (out_orgs o) ++ group_record (out_isps o) ++ group_record (out_ctries o)
  ++ [bytes (out_standard_form_hash o); float_text (du_mq (out_durations o)); float_text (du_mbs (out_durations o));
      float_text (du_mss (out_durations o)); float_text (du_total (out_durations o))].
Definition group_from_columns (prefix : string) (columns : list (string * list ascii)) : option analysis_results :=
  top_tier_size <-? optional_cell parse_cell_usize (append prefix "top_tier_size") columns ;;
  mbs_min <-? optional_cell parse_cell_usize (append prefix "mbs_min") columns ;;
  mbs_max <-? optional_cell parse_cell_usize (append prefix "mbs_max") columns ;;
  mbs_mean <-? optional_cell parse_float (append prefix "mbs_mean") columns ;;
  mss_min <-? optional_cell parse_cell_usize (append prefix "mss_min") columns ;;
  mss_max <-? optional_cell parse_cell_usize (append prefix "mss_max") columns ;;
  mss_mean <-? optional_cell parse_float (append prefix "mss_mean") columns ;;
  mq_min <-? optional_cell parse_cell_usize (append prefix "mq_min") columns ;;
  mq_max <-? optional_cell parse_cell_usize (append prefix "mq_max") columns ;;
  mq_mean <-? optional_cell parse_float (append prefix "mq_mean") columns ;;
  Some (mk_results top_tier_size mbs_min mbs_max mbs_mean mss_min mss_max mss_mean mq_min mq_max mq_mean).
Definition output_from_columns (columns : list (string * list ascii)) : option output_data_point :=
  label <-? required_cell parse_string "label" columns ;;
  has_quorum_intersection <-? required_cell parse_bool "has_quorum_intersection" columns ;;
  top_tier_size <-? required_cell parse_cell_usize "top_tier_size" columns ;;
  mbs_min <-? required_cell parse_cell_usize "mbs_min" columns ;;
  mbs_max <-? required_cell parse_cell_usize "mbs_max" columns ;;
  mbs_mean <-? required_cell parse_float "mbs_mean" columns ;;
  mss_min <-? required_cell parse_cell_usize "mss_min" columns ;;
  mss_max <-? required_cell parse_cell_usize "mss_max" columns ;;
  mss_mean <-? required_cell parse_float "mss_mean" columns ;;
  mq_min <-? required_cell parse_cell_usize "mq_min" columns ;;
  mq_max <-? required_cell parse_cell_usize "mq_max" columns ;;
  mq_mean <-? required_cell parse_float "mq_mean" columns ;;
  orgs <-? group_from_columns "orgs_" columns ;;
  isps <-? group_from_columns "isps_" columns ;;
  ctries <-? group_from_columns "ctries_" columns ;;
  standard_form_hash <-? required_cell parse_string "standard_form_hash" columns ;;
  analysis_duration_mq <-? required_cell parse_float "analysis_duration_mq" columns ;;
  analysis_duration_mbs <-? required_cell parse_float "analysis_duration_mbs" columns ;;
  analysis_duration_mss <-? required_cell parse_float "analysis_duration_mss" columns ;;
  analysis_duration_total <-? required_cell parse_float "analysis_duration_total" columns ;;
  Some (mk_output label has_quorum_intersection top_tier_size mbs_min mbs_max mbs_mean mss_min mss_max mss_mean mq_min mq_max mq_mean
          orgs isps ctries standard_form_hash
          (mk_durations analysis_duration_mq analysis_duration_mbs analysis_duration_mss analysis_duration_total)).
Definition write_outputs (rows : list output_data_point) : list ascii := write_csv output_header (map output_record rows).
Definition read_outputs (s : list ascii) : option (list output_data_point) := read_csv output_from_columns s.

(** where the output goes: to the terminal or to a file, with the text it contains if it exists *)
Inductive text_target := To_terminal | To_path (contents : option (list ascii)).
(** [main] of the bulk analyzer with the text of the output *)
Definition bulk_csv_main (E : ext) (digest : json -> string) (files : path -> option json) (clock : input_data_point -> durations)
  (input_paths : list path) (ignored : string) (output : text_target) (update : bool) : res (option (list ascii * bool)) :=
  let run target := res_map (option_map (fun p => (write_outputs (fst p), snd p))) (bulk_main E digest files clock input_paths ignored target update) in
  match output with
  | To_terminal => run Stdout
  | To_path None => run (File None)
  | To_path (Some s) =>
      if update then
        match read_outputs s with
        | Some rows => run (File (Some rows))
        | None => res_map (fun _ => None) (extract_inputs input_paths ignored)
        end
      else run (File (Some []))
  end.

(** ** rows of the performance experiment *)
Definition experiment_header : list string :=
  ["top_tier_size"; "run"; "mq_number"; "mbs_number"; "mss_number"; "mq_mean"; "mbs_mean"; "mss_mean"; "analysis_duration_mq";
   "analysis_duration_mbs"; "analysis_duration_mss"; "analysis_duration_hqi_after_mq"; "analysis_duration_hqi_alt_check";
   "analysis_duration_total"].
Definition experiment_record (d : measurement) : record :=
  [nat_text (me_top_tier_size d); nat_text (me_run d); nat_text (me_mq_number d); nat_text (me_mbs_number d); nat_text (me_mss_number d);
   float_text (me_mq_mean d); float_text (me_mbs_mean d); float_text (me_mss_mean d); float_text (ed_mq (me_durations d));
   float_text (ed_mbs (me_durations d)); float_text (ed_mss (me_durations d)); float_text (ed_hqi_after_mq (me_durations d));
   float_text (ed_hqi_alt_check (me_durations d)); float_text (ed_total (me_durations d))].
Definition experiment_from_columns (columns : list (string * list ascii)) : option measurement :=
  top_tier_size <-? required_cell parse_cell_usize "top_tier_size" columns ;;
  run <-? required_cell parse_cell_usize "run" columns ;;
  mq_number <-? required_cell parse_cell_usize "mq_number" columns ;;
  mbs_number <-? required_cell parse_cell_usize "mbs_number" columns ;;
  mss_number <-? required_cell parse_cell_usize "mss_number" columns ;;
  mq_mean <-? required_cell parse_float "mq_mean" columns ;;
  mbs_mean <-? required_cell parse_float "mbs_mean" columns ;;
  mss_mean <-? required_cell parse_float "mss_mean" columns ;;
  analysis_duration_mq <-? required_cell parse_float "analysis_duration_mq" columns ;;
  analysis_duration_mbs <-? required_cell parse_float "analysis_duration_mbs" columns ;;
  analysis_duration_mss <-? required_cell parse_float "analysis_duration_mss" columns ;;
  analysis_duration_hqi_after_mq <-? required_cell parse_float "analysis_duration_hqi_after_mq" columns ;;
  analysis_duration_hqi_alt_check <-? required_cell parse_float "analysis_duration_hqi_alt_check" columns ;;
  analysis_duration_total <-? required_cell parse_float "analysis_duration_total" columns ;;
  Some (mk_measurement top_tier_size run mq_number mbs_number mss_number mq_mean mbs_mean mss_mean
          (mk_experiment_durations analysis_duration_mq analysis_duration_mbs analysis_duration_mss analysis_duration_hqi_after_mq
             analysis_duration_hqi_alt_check analysis_duration_total)).
Definition write_experiments (rows : list measurement) : list ascii := write_csv experiment_header (map experiment_record rows).
Definition read_experiments (s : list ascii) : option (list measurement) := read_csv experiment_from_columns s.
(** [main] of the performance experiment with the text of the output *)
Definition experiment_csv_main (E : ext) (clock : experiment -> experiment_durations) (max_top_tier_size runs : nat) (stellar_like update : bool)
  (output : text_target) : option (list ascii * bool) :=
  let run destination := option_map (fun p => (write_experiments (fst p), snd p)) (experiment_main E clock max_top_tier_size runs stellar_like update destination) in
  match output with
  | To_terminal => run Terminal
  | To_path None => run (OutputFile None)
  | To_path (Some s) =>
      if update then match read_experiments s with Some rows => run (OutputFile (Some rows)) | None => None end
      else run (OutputFile (Some []))
  end.
End Csv.
