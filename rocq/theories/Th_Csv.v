(** The CSV files of the bulk programs: C75. *)
From Coq Require Import ZArith Ascii.
From Flocq Require Import IEEE754.BinarySingleNaN.
From Verif Require Import P_Performance P_Experiments P_ThBulk P_CsvRows P_Csv P_CsvFile M_CliText.
Local Open Scope string_scope.
Local Open Scope list_scope.
Local Open Scope nat_scope.

(** C75: reading *)
Theorem C75_records : forall (s : list ascii), records_of (read_records StartRecord [] [] s) s /\
  forall rs, records_of rs s -> rs = read_records StartRecord [] [] s.
Proof. exact (fun s => conj (proj2 (records_spec _ s) eq_refl) (fun rs H => eq_sym (proj1 (records_spec rs s) H))). Qed.
Print Assumptions C75_records.

Theorem C75_read : forall (reads_hex skips_mark : bool) (s : list ascii),
  (forall rows, read_outputs parse_f64 reads_hex skips_mark s = Some rows <-> outputs_file reads_hex skips_mark s rows) /\
  (forall rows, read_experiments parse_f64 reads_hex skips_mark s = Some rows <-> experiments_file reads_hex skips_mark s rows).
Proof. exact (fun h m s => conj (P_CsvFile.read_file h m s) (read_file' h m s)). Qed.
Print Assumptions C75_read.

(** writing: texts as in RFC 4180 *)
Theorem C75_strict : forall (rows : list output_data_point) (measurements : list measurement),
  (rows <> [] -> strict_csv (map bytes output_header :: map (output_record ryu_text) rows) (write_outputs ryu_text rows)) /\
  (measurements <> [] -> strict_csv (map bytes experiment_header :: map (experiment_record ryu_text) measurements) (write_experiments ryu_text measurements)) /\
  write_outputs ryu_text [] = [] /\ write_experiments ryu_text [] = [].
Proof. exact written_strictly. Qed.
Print Assumptions C75_strict.

(** what was written is read back *)
Theorem C75_round_trip : forall (reads_hex skips_mark : bool) (rows : list output_data_point) (measurements : list measurement),
  (Forall output_fits rows -> outputs_file reads_hex skips_mark (write_outputs ryu_text rows) rows) /\
  (Forall experiment_fits measurements -> experiments_file reads_hex skips_mark (write_experiments ryu_text measurements) measurements).
Proof. exact (fun h m rows rows' => conj (written_file h m rows) (written_file' h m rows')). Qed.
Print Assumptions C75_round_trip.

(** runs of the bulk analyzer, as in C62 but with the texts of the files *)
Theorem C75_fresh : forall (reads_hex skips_mark : bool) (E : ext) (digest : json -> string) (files : path -> option json) (clock : input_data_point -> durations)
  (paths : list path) (ignored : string) (inputs : list input_data_point) (output : text_target),
  extract_inputs paths ignored = Ok (Some inputs) ->
  (forall i, In i inputs -> exists row, bulk_analyze E digest files clock i = Ok row /\ output_fits row) -> output = To_terminal \/ output = To_path None ->
  exists s rows, bulk_csv_main ryu_text parse_f64 reads_hex skips_mark E digest files clock paths ignored output false = Ok (Some (s, true)) /\
  outputs_file reads_hex skips_mark s rows /\ by_label out_label rows /\
  forall L, Forall2 (fun i row => bulk_analyze E digest files clock i = Ok row) (with_label in_label L inputs) (with_label out_label L rows).
Proof. exact fresh_file. Qed.
Print Assumptions C75_fresh.

Theorem C75_update : forall (reads_hex skips_mark : bool) (E : ext) (digest : json -> string) (files : path -> option json) (clock : input_data_point -> durations)
  (paths : list path) (ignored : string) (inputs : list input_data_point) (s : list ascii) (old : list output_data_point),
  extract_inputs paths ignored = Ok (Some inputs) -> outputs_file reads_hex skips_mark s old -> distinct_labels out_label old ->
  (forall i, In i inputs -> (forall o, In o old -> out_label o <> in_label i) -> exists row, bulk_analyze E digest files clock i = Ok row /\ output_fits row) ->
  Forall output_fits old ->
  exists s' rows, bulk_csv_main ryu_text parse_f64 reads_hex skips_mark E digest files clock paths ignored (To_path (Some s)) true = Ok (Some (s', true)) /\
  outputs_file reads_hex skips_mark s' rows /\ by_label out_label rows /\
  (forall o, In o old -> with_label out_label (out_label o) rows = [o]) /\
  (forall L, (forall o, In o old -> out_label o <> L) ->
     Forall2 (fun i row => bulk_analyze E digest files clock i = Ok row) (with_label in_label L inputs) (with_label out_label L rows)).
Proof. exact update_file. Qed.
Print Assumptions C75_update.

Theorem C75_incremental : forall (reads_hex skips_mark : bool) (E : ext) (digest : json -> string) (files : path -> option json)
  (clock1 clock2 clock3 : input_data_point -> durations) (paths1 paths2 : list path) (ign1 ign2 : string) (inputs1 inputs2 : list input_data_point)
  (s : list ascii) (complete : bool),
  extract_inputs paths1 ign1 = Ok (Some inputs1) -> extract_inputs paths2 ign2 = Ok (Some inputs2) -> incl inputs1 inputs2 -> distinct_labels in_label inputs2 ->
  (forall clock i row, In i inputs2 -> bulk_analyze E digest files clock i = Ok row -> output_fits row) ->
  bulk_csv_main ryu_text parse_f64 reads_hex skips_mark E digest files clock1 paths1 ign1 (To_path None) false = Ok (Some (s, complete)) ->
  same_text_outcome (outputs_file reads_hex skips_mark)
    (bulk_csv_main ryu_text parse_f64 reads_hex skips_mark E digest files clock2 paths2 ign2 (To_path (Some s)) true)
    (bulk_csv_main ryu_text parse_f64 reads_hex skips_mark E digest files clock3 paths2 ign2 To_terminal false).
Proof. exact incremental_file. Qed.
Print Assumptions C75_incremental.

(** files that cannot be read, or that exist though there is nothing to update, are left alone *)
Theorem C75_refused : forall (reads_hex skips_mark : bool) (s : list ascii) (update : bool),
  (update = false \/ (forall rows, ~ outputs_file reads_hex skips_mark s rows) -> forall E digest files clock paths ignored,
     bulk_csv_main ryu_text parse_f64 reads_hex skips_mark E digest files clock paths ignored (To_path (Some s)) update = Panic \/
     bulk_csv_main ryu_text parse_f64 reads_hex skips_mark E digest files clock paths ignored (To_path (Some s)) update = Ok None) /\
  (update = false \/ (forall rows, ~ experiments_file reads_hex skips_mark s rows) -> forall E clock max runs stellar_like,
     experiment_csv_main ryu_text parse_f64 reads_hex skips_mark E clock max runs stellar_like update (To_path (Some s)) = None).
Proof. exact refused_files. Qed.
Print Assumptions C75_refused.

(** a file of which only the beginning was written: the first rows, except for the last column of the last of them *)
Theorem C75_interrupted : forall (reads_hex skips_mark : bool) (s t : list ascii),
  (forall rows rows', Forall output_fits rows -> write_outputs ryu_text rows = s ++ t -> outputs_file reads_hex skips_mark s rows' ->
     first_rows same_but_total rows rows') /\
  (forall rows rows', Forall experiment_fits rows -> write_experiments ryu_text rows = s ++ t -> experiments_file reads_hex skips_mark s rows' ->
     first_rows same_experiment_but_total rows rows').
Proof. exact (fun h m s t => conj (fun rows => interrupted_file h m rows s t) (fun rows => interrupted_file' h m rows s t)). Qed.
Print Assumptions C75_interrupted.

(** going on with such a file, or with the file of a run that failed, either is refused or yields the results of a run from the start *)
Theorem C75_resume : forall (reads_hex skips_mark : bool) (E : ext) (digest : json -> string) (files : path -> option json)
  (clock1 clock2 clock3 : input_data_point -> durations) (paths1 paths2 : list path) (ign1 ign2 : string) (inputs1 inputs2 : list input_data_point)
  (s t : list ascii) (complete : bool),
  extract_inputs paths1 ign1 = Ok (Some inputs1) -> extract_inputs paths2 ign2 = Ok (Some inputs2) -> incl inputs1 inputs2 -> distinct_labels in_label inputs2 ->
  (forall clock i row, In i inputs2 -> bulk_analyze E digest files clock i = Ok row -> output_fits row) ->
  bulk_csv_main ryu_text parse_f64 reads_hex skips_mark E digest files clock1 paths1 ign1 (To_path None) false = Ok (Some (s ++ t, complete)) ->
  (forall rows, ~ outputs_file reads_hex skips_mark s rows) /\
    bulk_csv_main ryu_text parse_f64 reads_hex skips_mark E digest files clock2 paths2 ign2 (To_path (Some s)) true = Ok None \/
  same_text_outcome (outputs_file reads_hex skips_mark)
    (bulk_csv_main ryu_text parse_f64 reads_hex skips_mark E digest files clock2 paths2 ign2 (To_path (Some s)) true)
    (bulk_csv_main ryu_text parse_f64 reads_hex skips_mark E digest files clock3 paths2 ign2 To_terminal false).
Proof. exact resume_file. Qed.
Print Assumptions C75_resume.

(** the performance experiment, as in C69 but with the texts of the files *)
Theorem C75_experiments : forall (reads_hex skips_mark : bool) (E : ext) (clock : experiment -> experiment_durations) (max runs : nat) (stellar_like update : bool)
  (output : text_target) (old : list measurement), ext_ok E -> (Z.of_nat max <= 2 ^ 53)%Z ->
  match update, output with
  | true, To_path (Some s) => experiments_file reads_hex skips_mark s old
  | false, To_path (Some _) | true, To_path None => False
  | _, _ => old = []
  end -> Forall experiment_fits old ->
  (forall k row, requested max runs stellar_like k -> run_experiment E clock k stellar_like = Ok row -> experiment_fits row) ->
  exists s rows, experiment_csv_main ryu_text parse_f64 reads_hex skips_mark E clock max runs stellar_like update output = Some (s, true) /\
    experiments_file reads_hex skips_mark s rows /\ by_size rows /\ NoDup (map experiment_of rows) /\
    (forall d, In d rows -> last_row old (experiment_of d) d \/
       (requested max runs stellar_like (experiment_of d) /\ (forall d', In d' old -> experiment_of d' <> experiment_of d) /\ measured stellar_like d)) /\
    (forall k d, last_row old k d -> In d rows) /\
    (forall k, requested max runs stellar_like k -> exists d, In d rows /\ experiment_of d = k).
Proof. exact experiments_run_file. Qed.
Print Assumptions C75_experiments.

Theorem C75_resume_experiments : forall (reads_hex skips_mark : bool) (E : ext) (clock1 clock2 clock3 : experiment -> experiment_durations)
  (max1 runs1 max2 runs2 : nat) (stellar_like : bool) (s t : list ascii), ext_ok E ->
  (Z.of_nat max2 <= 2 ^ 53)%Z -> max1 <= max2 -> runs1 <= runs2 ->
  (forall clock k row, requested max2 runs2 stellar_like k -> run_experiment E clock k stellar_like = Ok row -> experiment_fits row) ->
  experiment_csv_main ryu_text parse_f64 reads_hex skips_mark E clock1 max1 runs1 stellar_like false (To_path None) = Some (s ++ t, true) ->
  (forall rows, ~ experiments_file reads_hex skips_mark s rows) /\
    experiment_csv_main ryu_text parse_f64 reads_hex skips_mark E clock2 max2 runs2 stellar_like true (To_path (Some s)) = None \/
  exists s2 s3 rows2 rows rows',
    experiment_csv_main ryu_text parse_f64 reads_hex skips_mark E clock2 max2 runs2 stellar_like true (To_path (Some s)) = Some (s2, true) /\
    experiment_csv_main ryu_text parse_f64 reads_hex skips_mark E clock3 max2 runs2 stellar_like false (To_path None) = Some (s3, true) /\
    experiments_file reads_hex skips_mark s2 rows2 /\ experiments_file reads_hex skips_mark s3 rows /\ Permutation rows2 rows' /\ Forall2 same_numbers rows' rows.
Proof. exact resume_experiments_file. Qed.
Print Assumptions C75_resume_experiments.

(** a duration may be cut off so that another one is read, and a file may be cut off so that nothing is read *)
Theorem C75_changed_total_refuted : exists rows s t rows' d, Forall experiment_fits rows /\ write_experiments ryu_text rows = s ++ t /\
  experiments_file false false s rows' /\ In d rows' /\ ~ In d rows.
Proof. exact changed_total. Qed.
Print Assumptions C75_changed_total_refuted.
Theorem C75_nothing_left_refuted : exists rows s t, Forall experiment_fits rows /\ write_experiments ryu_text rows = s ++ t /\
  forall rows', ~ experiments_file false false s rows'.
Proof. exact nothing_left. Qed.
Print Assumptions C75_nothing_left_refuted.

Definition shown_text (r : option (list ascii * bool)) : option (string * bool) := option_map (fun p => (string_of_list_ascii (fst p), snd p)) r.
Definition experiment_columns : string :=
  "top_tier_size,run,mq_number,mbs_number,mss_number,mq_mean,mbs_mean,mss_mean,analysis_duration_mq,analysis_duration_mbs,analysis_duration_mss,analysis_duration_hqi_after_mq,analysis_duration_hqi_alt_check,analysis_duration_total".
Definition two_rows : string := (experiment_columns ++ "
1,0,1,2,0,1.0,1.0,0.0,0.0,0.0,0.0,0.0,0.0,0.0
2,0,1,2,0,2.0,1.0,0.0,0.0,0.0,0.0,0.0,0.0,0.0
")%string.
Example C75_experiment_example :
  shown_text (experiment_csv_main ryu_text parse_f64 false false std_ext no_watch 2 1 false false (To_path None)) = Some (two_rows, true) /\
  (exists t, list_ascii_of_string two_rows = firstn 280 (list_ascii_of_string two_rows) ++ t) /\
  shown_text (experiment_csv_main ryu_text parse_f64 false false std_ext no_watch 2 1 false true (To_path (Some (firstn 271 (list_ascii_of_string two_rows))))) = Some (two_rows, true) /\
  shown_text (experiment_csv_main ryu_text parse_f64 false false std_ext no_watch 2 1 false true (To_path (Some (firstn 280 (list_ascii_of_string two_rows))))) = None.
Proof.
  split; [vm_compute; reflexivity|]. split; [eexists; symmetry; apply firstn_skipn|]. split; vm_compute; reflexivity.
Qed.
(** a label with a comma, a quotation mark and a line break *)
Example C75_quoted : let row := plain_row "a,""b
c" 3 in output_fits row /\
  (exists rest, write_outputs ryu_text [row] = bytes (String.concat "," output_header) ++ [ascii_of_nat 10] ++ bytes """a,""""b
c"",true,3," ++ rest) /\
  option_map (map out_label) (read_outputs parse_f64 false false (write_outputs ryu_text [row])) = Some ["a,""b
c"].
Proof.
  intro row. split; [repeat split|]. split; [|vm_compute; reflexivity]. eexists. vm_compute. reflexivity.
Qed.
(** the bulk analyzer with the files of C62: a new file, and the same file cut off and completed *)
Definition shown_res (r : res (option (list ascii * bool))) : option (string * bool) := match r with Ok r => shown_text r | Panic => None end.
Definition bulk_of_x (output : text_target) (update : bool) : option (string * bool) :=
  shown_res (bulk_csv_main ryu_text parse_f64 false false std_ext (fun _ => "") three_files no_clock ["data/x_nodes.json"; "data/x_organizations.json"] "" output update).
Definition x_text : string := (String.concat "," output_header ++ "
x,true,3,2,2,2.0,1,1,1.0,2,2,2.0,2,1,1,1.0,1,1,1.0,1,1,1.0,2,1,1,1.0,1,1,1.0,1,1,1.0,,,,,,,,,,,,0.0,0.0,0.0,0.0
")%string.
Example C75_bulk_example : bulk_of_x (To_path None) false = Some (x_text, true) /\
  bulk_of_x (To_path (Some (list_ascii_of_string (String.substring 0 (String.length x_text - 2) x_text)))) true = Some (x_text, true) /\
  bulk_of_x (To_path (Some (list_ascii_of_string (String.substring 0 (String.length x_text - 9) x_text)))) true = None /\
  bulk_of_x (To_path (Some [])) true = Some (x_text, true).
Proof. repeat split; vm_compute; reflexivity. Qed.
