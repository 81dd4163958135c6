(** Model of /repo/src/bin/bulk_fbas_analyzer.rs. Simplified: files are JSON trees (see [M_IO.v]), the CSV
    output is the list of its rows (their text is in [M_Csv.v]), the hash function and what the clock measures are
    parameters, the fields of a row are grouped. Worker threads only compute; [par_map] delivers results in the order of tasks.
    Texts are byte strings (UTF-8). No proofs here. *)
From Coq Require Import ZArith Ascii.
From Verif Require Export M_IO M_Float M_GraphIO.
Local Open Scope string_scope.
Local Open Scope list_scope.

Definition path := string.

(** ** Rust's standard library *)

(** [Path::file_name] on Unix: the last component, unless it is [..] or a leading [.]; empty components
    and other [.] are skipped *)
Definition path_components (p : path) : list string :=
  match split_on "/" p with
  | [] => []
  | first :: rest =>
      (if String.eqb first "" then [] else [first]) ++ filter (fun c => negb (String.eqb c "" || String.eqb c ".")) rest
  end.
Definition file_name (p : path) : option string :=
  match rev (path_components p) with
  | [] => None
  | c :: _ => if String.eqb c "." || String.eqb c ".." then None else Some c
  end.
(** [str::starts_with], [contains], [ends_with] *)
Fixpoint starts_with (p s : string) : bool :=
  match p, s with
  | "", _ => true
  | String a p', String b s' => Ascii.eqb a b && starts_with p' s'
  | _, "" => false
  end.
Fixpoint contains (p s : string) : bool :=
  starts_with p s || match s with "" => false | String _ s' => contains p s' end.
Fixpoint ends_with (p s : string) : bool :=
  String.eqb p s || match s with "" => false | String _ s' => ends_with p s' end.
(** [s.replace(pattern, "")]: the leftmost occurrence is removed, then the search goes on behind it; [skip]
    bytes remain of the last occurrence found *)
Fixpoint remove_all (pattern : string) (skip : nat) (s : string) : string :=
  match s with
  | "" => ""
  | String a s' =>
      match skip with
      | S k => remove_all pattern k s'
      | 0 => if starts_with pattern s then remove_all pattern (String.length pattern - 1) s' else String a (remove_all pattern 0 s')
      end
  end.
(** [str::split_terminator]: an empty last part is dropped *)
Definition split_terminator (c : ascii) (s : string) : list string :=
  match rev (split_on c s) with
  | "" :: l => rev l
  | l => rev l
  end.
(** [BTreeMap]: ascending keys; inserting replaces *)
Fixpoint bt_insert {V} (k : string) (v : V) (m : list (string * V)) : list (string * V) :=
  match m with
  | [] => [(k, v)]
  | (k', v') :: m' =>
      match string_compare k k' with
      | Lt => (k, v) :: m
      | Eq => (k, v) :: m'
      | Gt => (k', v') :: bt_insert k v m'
      end
  end.
Definition bt_collect {V} (l : list (string * V)) : list (string * V) := fold_left (fun m p => bt_insert (fst p) (snd p) m) l [].
Definition bt_get {V} (k : string) (m : list (string * V)) : option V := assoc String.eqb k m.

(** ** data *)

(** l.69-73: [InputDataPoint] *)
Record input_data_point := mk_input { in_label : string; nodes_path : path; organizations_path : option path }.
(** l.124-135: [AnalysisResults] *)
Record analysis_results := mk_results {
  gr_top_tier_size : option nat;
  gr_mbs_min : option nat; gr_mbs_max : option nat; gr_mbs_mean : option f64;
  gr_mss_min : option nat; gr_mss_max : option nat; gr_mss_mean : option f64;
  gr_mq_min : option nat; gr_mq_max : option nat; gr_mq_mean : option f64 }.
Definition no_results : analysis_results := mk_results None None None None None None None None None None.
(** l.119-122: how long the analyses took *)
Record durations := mk_durations { du_mq : f64; du_mbs : f64; du_mss : f64; du_total : f64 }.
(** l.75-123: [OutputDataPoint]; groups of fields are grouped *)
Record output_data_point := mk_output {
  out_label : string;
  out_has_quorum_intersection : bool;
  out_top_tier_size : nat;
  out_mbs_min : nat; out_mbs_max : nat; out_mbs_mean : f64;
  out_mss_min : nat; out_mss_max : nat; out_mss_mean : f64;
  out_mq_min : nat; out_mq_max : nat; out_mq_mean : f64;
  out_orgs : analysis_results;
  out_isps : analysis_results;
  out_ctries : analysis_results;
  out_standard_form_hash : string;
  out_durations : durations }.
(** l.145-149: [Task] *)
Inductive task := Reuse (output : output_data_point) | Analyze (input : input_data_point).
(** l.151-156: [label] *)
Definition task_label (t : task) : string := match t with Reuse o => out_label o | Analyze i => in_label i end.

(** ** inputs *)

(** l.412-418: [extract_file_name] *)
Definition extract_file_name (p : path) : res string := unwrap (file_name p).
(** l.419-428: [extract_label] *)
Definition extract_label (p : path) (substring_to_ignore_for_label : string) : res string :=
  name <- extract_file_name p ;;
  let ignore_list := ["nodes"; "organizations"; substring_to_ignore_for_label] in
  let label_parts := filter (fun s => negb (existsb (String.eqb s) ignore_list)) (split_terminator "_" (remove_all ".json" 0 name)) in
  Ok (String.concat "_" label_parts).
(** [filter] with a closure that may panic *)
Fixpoint filterM {A} (p : A -> res bool) (l : list A) : res (list A) :=
  match l with
  | [] => Ok []
  | a :: l' => b <- p a ;; r <- filterM p l' ;; Ok (if b : bool then a :: r else r)
  end.
Definition is_nodes_file (p : path) : res bool :=
  name <- extract_file_name p ;; Ok (ends_with ".json" name && negb (contains "organizations" name)).
Definition is_organizations_file (p : path) : res bool :=
  name <- extract_file_name p ;; Ok (ends_with ".json" name && contains "organizations" name).
(** l.374-381: [extract_nodes_paths] *)
Definition extract_nodes_paths (input_paths : list path) : res (list path) := filterM is_nodes_file input_paths.
(** l.382-392: [extract_organizations_paths_by_label] *)
Definition extract_organizations_paths_by_label (input_paths : list path) (ignored : string) : res (list (string * path)) :=
  ps <- filterM is_organizations_file input_paths ;;
  res_map bt_collect (mapM (fun p => label <- extract_label p ignored ;; Ok (label, p)) ps).
(** l.393-411: [build_inputs] *)
Definition build_inputs (nodes_paths : list path) (organizations_paths_by_label : list (string * path)) (ignored : string)
  : res (list input_data_point) :=
  mapM (fun p => label <- extract_label p ignored ;; Ok (mk_input label p (bt_get label organizations_paths_by_label))) nodes_paths.
(** l.159-180: [extract_inputs]; [None] is [Err] *)
Definition extract_inputs (input_paths : list path) (ignored : string) : res (option (list input_data_point)) :=
  nodes_paths <- extract_nodes_paths input_paths ;;
  organizations_paths_by_label <- extract_organizations_paths_by_label input_paths ignored ;;
  if (List.length nodes_paths + List.length organizations_paths_by_label <? List.length input_paths)%nat then Ok None
  else res_map Some (build_inputs nodes_paths organizations_paths_by_label ignored).

(** ** tasks *)

(** l.182-196: [load_existing_outputs], given the rows of the file *)
Definition outputs_by_label (data_points : list output_data_point) : list (string * output_data_point) :=
  bt_collect (map (fun d => (out_label d, d)) data_points).
(** l.197-214: [make_sorted_tasklist] *)
Definition make_sorted_tasklist (inputs : list input_data_point) (existing_outputs : list (string * output_data_point)) : list task :=
  let tasks := filter_map (fun input => if is_none (bt_get (in_label input) existing_outputs) then Some (Analyze input) else None) inputs
               ++ map Reuse (map snd existing_outputs) in
  sort_by (fun a b => string_compare (task_label a) (task_label b)) tasks.

(** ** analysis *)
Local Notation "' p <- e ;; k" := (bind e (fun p => k)) (at level 61, p pattern, e at next level, right associativity).
Section Bulk.
Context (E : ext) (digest : json -> string) (files : path -> option json) (clock : input_data_point -> durations).

(** a file that cannot be read or parsed panics *)
Definition read_file (p : path) : res json := unwrap (files p).
(** l.430-432 *)
Definition load_fbas (nodes_path : path) : res fbas := j <- read_file nodes_path ;; fbas_from_json j.
(** l.433-438 *)
Definition maybe_load_organizations (organizations_path : option path) (f : fbas) : res (option groupings) :=
  match organizations_path with
  | Some p => j <- read_file p ;; res_map Some (groupings_from_json j f)
  | None => Ok None
  end.
Definition unless_empty (g : groupings) : option groupings := if (number_of_groupings g =? 0)%nat then None else Some g.
(** l.439-446 *)
Definition maybe_load_isps (nodes_path : path) (f : fbas) : res (option groupings) :=
  j <- read_file nodes_path ;; res_map unless_empty (isps_from_json j f).
(** l.447-454 *)
Definition maybe_load_countries (nodes_path : path) (f : fbas) : res (option groupings) :=
  j <- read_file nodes_path ;; res_map unless_empty (countries_from_json j f).

(** calls of the methods of [Analysis] by kind of result *)
Definition ask_sets (c : call) (a : analysis) : res (vec_result * analysis) :=
  r <- perform E a c ;; match fst r with AVec v => Ok (v, snd r) | _ => Panic end.
Definition ask_set (c : call) (a : analysis) : res (bset * analysis) :=
  r <- perform E a c ;; match fst r with ASet s => Ok (s, snd r) | _ => Panic end.
Definition ask_bool (c : call) (a : analysis) : res (bool * analysis) :=
  r <- perform E a c ;; match fst r with ABool b => Ok (b, snd r) | _ => Panic end.

(** l.292-324: [maybe_merge_sets] *)
Definition merge_fix (sets : vec_result) (group : groupings) : res (nat * nat * f64) :=
  merged <- vr_merged_by_group sets group ;; Ok (vr_minmaxmean (vr_minimal_sets merged)).
Definition maybe_merge_sets (a : analysis) (grouping : option groupings) : res (analysis_results * analysis) :=
  match grouping with
  | None => Ok (no_results, a)
  | Some group =>
      '(top_tier, a) <- ask_set TopTier a ;;
      top_tier <- sr_merged_by_group top_tier group ;;
      '(mq, a) <- ask_sets MinimalQuorums a ;;
      mq <- merge_fix mq group ;;
      '(mbs, a) <- ask_sets MinimalBlockingSets a ;;
      mbs <- merge_fix mbs group ;;
      '(mss, a) <- ask_sets MinimalSplittingSets a ;;
      mss <- merge_fix mss group ;;
      let '(mq_min, mq_max, mq_mean) := mq in
      let '(mbs_min, mbs_max, mbs_mean) := mbs in
      let '(mss_min, mss_max, mss_mean) := mss in
      Ok (mk_results (Some (len top_tier)) (Some mbs_min) (Some mbs_max) (Some mbs_mean)
            (Some mss_min) (Some mss_max) (Some mss_mean) (Some mq_min) (Some mq_max) (Some mq_mean), a)
  end.

(** l.231-290: [analyze] *)
Definition bulk_analyze (input : input_data_point) : res output_data_point :=
  f <- load_fbas (nodes_path input) ;;
  organizations <- maybe_load_organizations (organizations_path input) f ;;
  isps <- maybe_load_isps (nodes_path input) f ;;
  countries <- maybe_load_countries (nodes_path input) f ;;
  a <- analysis_new E f ;;
  '(mq, a) <- ask_sets MinimalQuorums a ;;
  let '(mq_min, mq_max, mq_mean) := vr_minmaxmean mq in
  '(has_quorum_intersection, a) <- ask_bool HasQuorumIntersection a ;;
  '(top_tier, a) <- ask_set TopTier a ;;
  '(mbs, a) <- ask_sets MinimalBlockingSets a ;;
  let '(mbs_min, mbs_max, mbs_mean) := vr_minmaxmean mbs in
  '(mss, a) <- ask_sets MinimalSplittingSets a ;;
  let '(mss_min, mss_max, mss_mean) := vr_minmaxmean mss in
  '(orgs_output, a) <- maybe_merge_sets a organizations ;;
  '(isps_output, a) <- maybe_merge_sets a isps ;;
  '(ctries_output, a) <- maybe_merge_sets a countries ;;
  standard_form <- to_standard_form E f ;;
  Ok (mk_output (in_label input) has_quorum_intersection (len top_tier) mbs_min mbs_max mbs_mean mss_min mss_max mss_mean
        mq_min mq_max mq_mean orgs_output isps_output ctries_output (digest (fbas_to_json standard_form)) (clock input)).

(** l.222-230: [analyze_or_reuse] *)
Definition analyze_or_reuse (t : task) : res output_data_point :=
  match t with Reuse output => Ok output | Analyze input => bulk_analyze input end.

(** l.216-221 and 477-485: [bulk_do], [write_csv_via_writer]: rows are written one by one until a task
    panics. The second component tells whether all were written. *)
Fixpoint write_rows (tasks : list task) : list output_data_point * bool :=
  match tasks with
  | [] => ([], true)
  | t :: tasks' =>
      match analyze_or_reuse t with
      | Ok row => let '(rows, complete) := write_rows tasks' in (row :: rows, complete)
      | Panic => ([], false)
      end
  end.

(** where the output goes: to the terminal or to a file, with the rows it contains if it exists *)
Inductive target := Stdout | File (rows : option (list output_data_point)).
(** l.49-66: [main], with l.182-196 and l.355-372. [None] is an error that is reported. Otherwise the
    result is what is written; a file is overwritten. *)
Definition bulk_main (input_paths : list path) (ignored : string) (output : target) (update : bool)
  : res (option (list output_data_point * bool)) :=
  inputs <- extract_inputs input_paths ignored ;;
  match inputs with
  | None => Ok None
  | Some inputs =>
      let existing_outputs :=
        if update then match output with
                       | Stdout => Some []
                       | File None => None
                       | File (Some rows) => Some (outputs_by_label rows)
                       end
        else Some [] in
      match existing_outputs with
      | None => Ok None
      | Some existing_outputs =>
          let tasks := make_sorted_tasklist inputs existing_outputs in
          match output, update with
          | File (Some _), false => Ok None
          | _, _ => Ok (Some (write_rows tasks))
          end
      end
  end.
End Bulk.
