(** Model of /repo/src/bin/bulk_performance_experiment.rs. Simplified as in [M_Bulk.v]: the CSV output is the
    list of its rows, what the clock measures is a parameter, results arrive in the order of tasks. No proofs here. *)
From Verif Require Export M_Bulk.
Local Open Scope list_scope.

(** l.75-79: [InputDataPoint] *)
Record experiment := mk_experiment { x_top_tier_size : nat; x_run : nat }.
(** l.98-103: how long the analyses took *)
Record experiment_durations := mk_experiment_durations {
  ed_mq : f64; ed_mbs : f64; ed_mss : f64; ed_hqi_after_mq : f64; ed_hqi_alt_check : f64; ed_total : f64 }.
(** l.88-104: [OutputDataPoint] *)
Record measurement := mk_measurement {
  me_top_tier_size : nat; me_run : nat;
  me_mq_number : nat; me_mbs_number : nat; me_mss_number : nat;
  me_mq_mean : f64; me_mbs_mean : f64; me_mss_mean : f64;
  me_durations : experiment_durations }.
(** l.80-87: [from_output_data_point] *)
Definition from_output_data_point (d : measurement) : experiment := mk_experiment (me_top_tier_size d) (me_run d).
(** l.105-109: [Task] *)
Inductive experiment_task := Repeat (output : measurement) | Perform (input : experiment).
(** l.111-118: [label] *)
Definition experiment_label (t : experiment_task) : nat :=
  match t with Repeat output => me_top_tier_size output | Perform input => x_top_tier_size input end.

(** l.75: derived [Ord] *)
Definition experiment_compare (a b : experiment) : comparison :=
  match Nat.compare (x_top_tier_size a) (x_top_tier_size b) with
  | Eq => Nat.compare (x_run a) (x_run b)
  | c => c
  end.
(** [BTreeMap<InputDataPoint, OutputDataPoint>]: ascending keys; inserting replaces *)
Fixpoint experiment_insert (k : experiment) (v : measurement) (m : list (experiment * measurement)) : list (experiment * measurement) :=
  match m with
  | [] => [(k, v)]
  | (k', v') :: m' =>
      match experiment_compare k k' with
      | Lt => (k, v) :: m
      | Eq => (k, v) :: m'
      | Gt => (k', v') :: experiment_insert k v m'
      end
  end.
Definition contains_experiment (k : experiment) (m : list (experiment * measurement)) : bool :=
  existsb (fun p => match experiment_compare k (fst p) with Eq => true | _ => false end) m.

(** l.120-133: [generate_inputs] *)
Definition generate_inputs (max_top_tier_size runs : nat) (make_stellarlike_fbas : bool) : list experiment :=
  flat_map (fun m => map (mk_experiment m) (seq 0 runs))
    (filter (fun m => negb make_stellarlike_fbas || (m mod 3 =? 0)) (seq 1 max_top_tier_size)).
(** l.135-148: [load_existing_outputs], given the rows of the file *)
Definition outputs_by_experiment (data_points : list measurement) : list (experiment * measurement) :=
  fold_left (fun m d => experiment_insert (from_output_data_point d) d m) data_points [].
(** l.150-167: [make_sorted_tasklist] *)
Definition experiment_tasklist (inputs : list experiment) (existing_outputs : list (experiment * measurement)) : list experiment_task :=
  let tasks := filter_map (fun input => if negb (contains_experiment input existing_outputs) then Some (Perform input) else None) inputs
               ++ map Repeat (map snd existing_outputs) in
  sort_by (fun a b => Nat.compare (experiment_label a) (experiment_label b)) tasks.

(** adding [n] nodes with the same quorum set *)
Fixpoint add_nodes (n : nat) (q : qset) (f : fbas) : res fbas :=
  match n with
  | 0 => Ok f
  | S n' => r <- add_generic_node f q ;; add_nodes n' q (fst r)
  end.
(** l.279-283 and l.308-312: one more mention of node 0 and a threshold that is larger by one *)
Definition with_extra_mention (q : qset) : qset := let 'QS t vs is_ := q in QS (t + 1) (vs ++ [0]) is_.
(** l.268-286: [make_almost_ideal_fbas] *)
Definition make_almost_ideal_fbas (top_tier_size : nat) : res fbas :=
  let q := QS (calculate_67p_threshold top_tier_size) (seq 0 top_tier_size) [] in
  f <- add_nodes top_tier_size q fbas_new ;;
  res_map fst (swap_quorum_set f 0 (with_extra_mention q)).
(** l.288-315: [make_almost_ideal_stellarlike_fbas] *)
Definition make_almost_ideal_stellarlike_fbas (top_tier_size : nat) : res fbas :=
  assert (top_tier_size mod 3 =? 0)
  (let organizations := map (fun org_id => QS 2 [org_id * 3; org_id * 3 + 1; org_id * 3 + 2] []) (seq 0 (top_tier_size / 3)) in
   let q := QS (calculate_67p_threshold (top_tier_size / 3)) [] organizations in
   f <- add_nodes top_tier_size q fbas_new ;;
   res_map fst (swap_quorum_set f 0 (with_extra_mention q))).

Section Experiment.
Context (E : ext) (clock : experiment -> experiment_durations).
Local Notation "' p <- e ;; k" := (bind e (fun p => k)) (at level 61, p pattern, e at next level, right associativity).

(** l.191-247: [analyze] *)
Definition run_experiment (input : experiment) (make_stellarlike_fbas : bool) : res measurement :=
  f <- (if make_stellarlike_fbas then make_almost_ideal_stellarlike_fbas (x_top_tier_size input)
        else make_almost_ideal_fbas (x_top_tier_size input)) ;;
  assert (number_of_nodes f =? x_top_tier_size input)
  (a <- analysis_new E f ;;
   '(mq, a) <- ask_sets E MinimalQuorums a ;;
   '(hqi, a) <- ask_bool E HasQuorumIntersection a ;;
   assert hqi
   ('(alternative, a) <- perform E a AlternativeCheck ;;
    assert (match alternative with AAlternative true None => true | _ => false end)
    ('(mbs, a) <- ask_sets E MinimalBlockingSets a ;;
     '(mss, a) <- ask_sets E MinimalSplittingSets a ;;
     Ok (mk_measurement (x_top_tier_size input) (x_run input) (vr_len mq) (vr_len mbs) (vr_len mss)
           (vr_mean mq) (vr_mean mbs) (vr_mean mss) (clock input))))).
(** l.179-190: [analyze_or_reuse] *)
Definition perform_or_repeat (make_stellarlike_fbas : bool) (t : experiment_task) : res measurement :=
  match t with Repeat output => Ok output | Perform input => run_experiment input make_stellarlike_fbas end.
(** l.169-178, l.338-347: as in [M_Bulk.write_rows] *)
Fixpoint write_measurements (make_stellarlike_fbas : bool) (tasks : list experiment_task) : list measurement * bool :=
  match tasks with
  | [] => ([], true)
  | t :: tasks' =>
      match perform_or_repeat make_stellarlike_fbas t with
      | Ok row => let '(rows, complete) := write_measurements make_stellarlike_fbas tasks' in (row :: rows, complete)
      | Panic => ([], false)
      end
  end.

(** where the output goes, with the rows of the file if it exists *)
Inductive destination := Terminal | OutputFile (rows : option (list measurement)).
(** l.54-73: [main], with l.249-266. [None] is an error that is reported. *)
Definition experiment_main (max_top_tier_size runs : nat) (stellar_like update : bool) (output : destination)
  : option (list measurement * bool) :=
  let inputs := generate_inputs max_top_tier_size runs stellar_like in
  let existing_outputs :=
    if update then match output with
                   | Terminal => Some []
                   | OutputFile None => None
                   | OutputFile (Some rows) => Some (outputs_by_experiment rows)
                   end
    else Some [] in
  match existing_outputs with
  | None => None
  | Some existing_outputs =>
      let tasks := experiment_tasklist inputs existing_outputs in
      match output, update with
      | OutputFile (Some _), false => None
      | _, _ => Some (write_measurements stellar_like tasks)
      end
  end.
End Experiment.
