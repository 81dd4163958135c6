(** Model of /repo/src/bin/fbas_analyzer.rs and of [AnalysisResult] (/repo/src/io/results.rs l.12-115).
    Simplified: files and the standard input are JSON trees (see [M_IO.v]); what is printed to the standard output is a
    list of [item]s: the values behind the printed JSON texts, the positions of the durations without their values,
    comments as text with numbers. The messages on the standard error output are in [M_Messages.v]. No proofs here. *)
From Verif Require Export M_Bulk.
Local Open Scope string_scope.
Local Open Scope list_scope.

(** l.10-74: [Cli], without the verbosity *)
Record cli := mk_cli {
  cli_nodes_path : option path;
  cli_minimal_quorums : bool;
  cli_minimal_blocking_sets : bool;
  cli_minimal_splitting_sets : bool;
  cli_all : bool;
  cli_alternative_check : bool;
  cli_dont_check : bool;
  cli_describe : bool;
  cli_pretty : bool;
  cli_results_only : bool;
  cli_organizations_path : option path;
  cli_isp_merge : bool;
  cli_ctry_merge : bool }.

(** ** io/results.rs *)

(** the types with the trait [AnalysisResult], l.24-115 *)
Inductive result :=
| RBool (b : bool)
| RNat (n : nat)
| RQsets (l : list qset)
| RSet (s : bset)
| RSets (r : vec_result).
(** the values that are printed, as JSON or with [to_string] *)
Inductive value :=
| VBool (b : bool)
| VNat (n : nat)
| VIds (ids : list nat)
| VNames (names : list string)
| VIdLists (ids : list (list nat))
| VNameLists (names : list (list string))
| VQsets (l : list qset)
| VPrettyQsets (l : list pretty_qset)
| VStatistics (number distinct : nat) (minmaxmean : nat * nat * f64) (histogram : list nat).

(** l.34-36, l.44-46, l.65-67, l.81-83, l.101-103: [into_id_string] *)
Definition into_id (r : result) : res value :=
  match r with
  | RBool b => Ok (VBool b)
  | RNat n => Ok (VNat n)
  | RQsets l => Ok (VQsets l)
  | RSet s => Ok (VIds (sr_into_vec s))
  | RSets v => res_map VIdLists (vr_into_vec_vec v)
  end.
(** l.26-28, l.68-74, l.84-86, l.104-106: [into_pretty_string] *)
Definition into_pretty (r : result) (f : fbas) (g : option groupings) : res value :=
  match r with
  | RQsets l => res_map VPrettyQsets (mapM (fun q => into_pretty_quorum_set q f g) l)
  | RSet s => res_map VNames (sr_into_pretty_vec s f g)
  | RSets v => res_map VNameLists (vr_into_pretty_vec_vec v f g)
  | _ => into_id r
  end.
(** l.37-39, l.47-49, l.75-77, l.87-89, l.107-109: [into_describe_string] *)
Definition into_describe (r : result) : res value :=
  match r with
  | RSet s => Ok (VNat (len s))
  | RSets v => res_map (fun '(number, distinct, minmaxmean, histogram) => VStatistics number distinct minmaxmean histogram) (vr_describe v)
  | _ => into_id r
  end.

(** ** fbas_analyzer.rs: output *)

(** what is printed: comments (texts with numbers printed in them), results, durations *)
Inductive item :=
| Message (texts : list (string + nat))
| Line (name : string) (v : value)
| Duration (name : string).

(** l.349-356: [Output] *)
Record output := mk_out {
  o_results_only : bool;
  o_pretty : bool;
  o_describe : bool;
  o_fbas : fbas;
  o_groupings : option groupings }.
Definition text (s : string) : string + nat := inl s.
(** l.385-394: [comment], [comment_newline] *)
Definition out_comment (o : output) (texts : list (string + nat)) : list item := if o_results_only o then [] else [Message texts].
Definition out_comment_newline (o : output) : list item := out_comment o [].
(** l.415-422: [result_uncondensed] *)
Definition out_result_uncondensed (o : output) (name : string) (r : result) : res (list item) :=
  v <- (if o_pretty o then into_pretty r (o_fbas o) (o_groupings o) else into_id r) ;; Ok [Line name v].
(** l.408-414: [result] *)
Definition out_result (o : output) (name : string) (r : result) : res (list item) :=
  if o_describe o then v <- into_describe r ;; Ok [Line name v] else out_result_uncondensed o name r.
(** l.395-407: [timed_result] *)
Definition out_timed_result (o : output) (name : string) (r : result) : res (list item) :=
  l <- out_result o name r ;; Ok (l ++ [Duration name]).
(** l.358-384: [init] *)
Definition out_init (args : cli) (f : fbas) (g : option groupings) : output * list item :=
  (mk_out (cli_results_only args) (cli_pretty args) (cli_describe args) f g,
   if cli_results_only args then []
   else (if cli_pretty args then []
         else [Message [text "In the following dumps, nodes are identified by node IDs corresponding to their index in the input file."]]) ++
        (if cli_describe args
         then [Message [text """Set of sets""-type results are described as: [#sets, #distinct_nodes, [min_set_size, max_set_size, mean_set_size], [#sets_with_size_0, #sets_with_size_1, ..., #sets_with_max_set_size]]"]]
         else [])).

Local Notation "' p <- e ;; k" := (bind e (fun p => k)) (at level 61, p pattern, e at next level, right associativity).
Section Cli.
Variable E : ext.
(** the contents of files and of the standard input *)
Variable files : path -> option json.
Variable stdin : option json.

(** l.125-135: [load_fbas] *)
Definition cli_load_fbas (nodes_path : option path) : res fbas :=
  match nodes_path with
  | Some p => load_fbas files p
  | None => j <- unwrap stdin ;; fbas_from_json j
  end.
(** l.136-148: [maybe_load_organizations] is as in the bulk analyzer. l.149-159: [maybe_load_isps] *)
Definition cli_maybe_load_isps (nodes_path : option path) (f : fbas) : res (option groupings) :=
  match nodes_path with
  | Some p => j <- read_file files p ;; res_map Some (isps_from_json j f)
  | None => Ok None
  end.
(** l.160-173: [maybe_load_countries] *)
Definition cli_maybe_load_countries (nodes_path : option path) (f : fbas) : res (option groupings) :=
  match nodes_path with
  | Some p => j <- read_file files p ;; res_map Some (countries_from_json j f)
  | None => Ok None
  end.
(** l.174-184: [extract_main_todos] *)
Definition extract_main_todos (args : cli) : bool * bool * bool :=
  if cli_all args then (true, true, true)
  else (cli_minimal_quorums args, cli_minimal_blocking_sets args, cli_minimal_splitting_sets args).
(** l.185-201: [extract_groupings_todos] *)
Definition extract_groupings_todos (args : cli) : bool * bool * bool :=
  if cli_ctry_merge args then (true, false, false)
  else if cli_isp_merge args then (false, true, false)
  else match cli_organizations_path args with Some _ => (false, false, true) | None => (false, false, false) end.

Definition merge_if (g : option groupings) (r : vec_result) : res vec_result :=
  match g with
  | Some orgs => merged <- vr_merged_by_group r orgs ;; Ok (vr_minimal_sets merged)
  | None => Ok r
  end.
(** l.209-217: [do_time_maybe_merge_and_report] with the comment that follows; the number in it is asked for again *)
Definition report_sets (c : call) (name before after : string) (g : option groupings) (o : output) (a : analysis) : res (list item * analysis) :=
  '(r, a) <- ask_sets E c a ;;
  r <- merge_if g r ;;
  l <- out_timed_result o name (RSets r) ;;
  '(r', a) <- ask_sets E c a ;;
  Ok (l ++ out_comment o [inl before; inr (vr_len r'); inl after], a).

(** l.219-228: [report_overview] *)
Definition report_overview (g : option groupings) (o : output) (a : analysis) : res (list item * analysis) :=
  '(s, a) <- ask_set E AllNodes a ;;
  l <- out_result o "nodes_total" (RNat (len s)) ;;
  l' <- match g with
        | Some orgs =>
            s' <- sr_merged_by_group s orgs ;;
            l' <- out_result o "nodes_total_merged" (RNat (len s')) ;;
            Ok (l' ++ out_comment o [text "(Nodes belonging to the same grouping will be counted as one.)"])
        | None => Ok []
        end ;;
  Ok (l ++ l', a).
(** l.229-259: [check_and_report_if_has_quorum_intersection] *)
Definition line_break : string := String (Ascii.ascii_of_nat 10) "".
Definition report_quorum_intersection (alternative : bool) (o : output) (a : analysis) : res (list item * analysis) :=
  '(b, l, a) <-
    (if alternative then
       r <- perform E a AlternativeCheck ;;
       match fst r with
       | AAlternative b quorums =>
           l <- out_timed_result o "has_quorum_intersection" (RBool b) ;;
           l' <- match quorums with Some q => out_result o "nonintersecting_quorums" (RSets q) | None => Ok [] end ;;
           Ok (b, out_comment o [text "Alternative quorum intersection check..."] ++ l ++ l', snd r)
       | _ => Panic
       end
     else
       '(b, a) <- ask_bool E HasQuorumIntersection a ;;
       l <- out_timed_result o "has_quorum_intersection" (RBool b) ;;
       '(b, a) <- ask_bool E HasQuorumIntersection a ;;
       Ok (b, l, a)) ;;
  Ok (l ++ out_comment o [text (line_break ++ if (b : bool) then "All quorums intersect 👍" ++ line_break
                                else "Some quorums don't intersect 👎 Safety severely threatened for some nodes!" ++ line_break ++
                                     "(Also, the remaining results here might not make much sense.)" ++ line_break)], a).
(** l.260-277: [find_and_report_symmetric_clusters] *)
Definition report_symmetric_clusters (g : option groupings) (o : output) (a : analysis) : res (list item * analysis) :=
  r <- perform E a SymmetricClusters ;;
  match fst r with
  | AQsets clusters =>
      clusters <- match g with Some orgs => merge_quorum_sets orgs clusters | None => Ok clusters end ;;
      l <- out_timed_result (mk_out (o_results_only o) (o_pretty o) false (o_fbas o) (o_groupings o)) "symmetric_clusters" (RQsets clusters) ;;
      Ok (l ++ out_comment_newline o, snd r)
  | _ => Panic
  end.
(** l.278-293 *)
Definition report_minimal_quorums := report_sets MinimalQuorums "minimal_quorums"
  (line_break ++ "We found ") (" minimal quorums." ++ line_break).
(** l.294-311 *)
Definition report_minimal_blocking_sets := report_sets MinimalBlockingSets "minimal_blocking_sets"
  (line_break ++ "We found ") (" minimal blocking sets (minimal indispensable sets for global liveness). Control over any of these sets is sufficient to compromise the liveness of all nodes and to censor future transactions." ++ line_break).
(** l.312-330 *)
Definition report_minimal_splitting_sets := report_sets MinimalSplittingSets "minimal_splitting_sets"
  (line_break ++ "We found ") (" minimal splitting sets (minimal indispensable sets for safety). Control over any of these sets is sufficient to compromise safety by undermining the quorum intersection of at least two quorums." ++ line_break).
(** l.331-347: [report_top_tier_uncondensed] *)
Definition report_top_tier (g : option groupings) (o : output) (a : analysis) : res (list item * analysis) :=
  '(s, a) <- ask_set E TopTier a ;;
  s <- match g with Some orgs => sr_merged_by_group s orgs | None => Ok s end ;;
  l <- out_result_uncondensed o "top_tier" (RSet s) ;;
  Ok (l ++ out_comment o [text (line_break ++ "There is a total of "); inr (len s);
                          text (" distinct nodes involved in all of these sets (this is the ""top tier"")." ++ line_break)], a).

Definition when (b : bool) (report : analysis -> res (list item * analysis)) (a : analysis) : res (list item * analysis) :=
  if b then report a else Ok ([], a).
(** which groups are merged, l.81-90 *)
Definition cli_groupings (args : cli) (f : fbas) : res (option groupings) :=
  let '(ctry, isp, org) := extract_groupings_todos args in
  if ctry then cli_maybe_load_countries (cli_nodes_path args) f
  else if isp then cli_maybe_load_isps (cli_nodes_path args) f
  else if org then maybe_load_organizations files (cli_organizations_path args) f
  else Ok None.
(** l.91-122: what [main] does with the FBAS and the groups *)
Definition cli_report (args : cli) (f : fbas) (g : option groupings) : res (list item) :=
  a <- analysis_new E f ;;
  let '(q, b, s) := extract_main_todos args in
  let '(o, l0) := out_init args f g in
  '(l1, a) <- report_overview g o a ;;
  '(l2, a) <- report_symmetric_clusters g o a ;;
  '(l3, a) <- when q (report_minimal_quorums g o) a ;;
  '(l4, a) <- when (negb (cli_dont_check args)) (report_quorum_intersection (cli_alternative_check args) o) a ;;
  '(l5, a) <- when b (report_minimal_blocking_sets g o) a ;;
  '(l6, a) <- when s (report_minimal_splitting_sets g o) a ;;
  '(l7, a) <- when (q || b || s) (report_top_tier g o) a ;;
  Ok (l0 ++ l1 ++ out_comment_newline o ++ l2 ++ l3 ++ l4 ++ l5 ++ l6 ++ l7).
(** l.76-123: [main] *)
Definition cli_main (args : cli) : res (list item) :=
  f <- cli_load_fbas (cli_nodes_path args) ;;
  g <- cli_groupings args f ;;
  cli_report args f g.
End Cli.
