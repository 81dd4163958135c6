(** What the clock shows has no influence on other results. *)
From Coq Require Import ZArith Reals Permutation.
From Verif Require Export P_ThBulk P_Experiments P_StandardForm.
Local Open Scope string_scope.
Local Open Scope list_scope.
Local Open Scope nat_scope.

Lemma filter_map_map {A B C} (g : A -> option B) (h : B -> C) l : map h (filter_map g l) = filter_map (fun a => option_map h (g a)) l.
Proof. induction l as [|a l IH]; cbn; auto. destruct (g a); cbn; rewrite IH; auto. Qed.
Lemma filter_map_ext {A B} (g g' : A -> option B) l : (forall a, g a = g' a) -> filter_map g l = filter_map g' l.
Proof. intro H. induction l as [|a l IH]; cbn; auto. rewrite H, IH. auto. Qed.

Lemma cons_eq {A} (a b : A) l m : a :: l = b :: m -> a = b /\ l = m.
Proof. intro H. split; congruence. Qed.

(** ** the bulk analyzer *)
Definition untimed (o : output_data_point) : output_data_point :=
  mk_output (out_label o) (out_has_quorum_intersection o) (out_top_tier_size o) (out_mbs_min o) (out_mbs_max o) (out_mbs_mean o)
    (out_mss_min o) (out_mss_max o) (out_mss_mean o) (out_mq_min o) (out_mq_max o) (out_mq_mean o) (out_orgs o) (out_isps o) (out_ctries o)
    (out_standard_form_hash o) (mk_durations fzero fzero fzero fzero).
Lemma untimed_same o o' : untimed o = untimed o' -> same_results o o'.
Proof. unfold untimed. intro H. inversion H. unfold same_results. repeat split; assumption. Qed.
Definition untimed_task (t : task) : task := match t with Reuse o => Reuse (untimed o) | Analyze i => Analyze i end.
Definition untimed_target (t : target) : target := match t with Stdout => Stdout | File r => File (option_map (map untimed) r) end.

Lemma bt_insert_untimed k v m : bt_insert k (untimed v) (map (fun p => (fst p, untimed (snd p))) m) = map (fun p => (fst p, untimed (snd p))) (bt_insert k v m).
Proof. induction m as [|[k' v'] m IH]; cbn; auto. destruct (string_compare k k'); cbn; auto. rewrite IH. auto. Qed.
Lemma outputs_untimed rows : outputs_by_label (map untimed rows) = map (fun p => (fst p, untimed (snd p))) (outputs_by_label rows).
Proof.
  unfold outputs_by_label, bt_collect. rewrite map_map. change (@nil (string * output_data_point)) with (map (fun p : string * output_data_point => (fst p, untimed (snd p))) []) at 1.
  generalize (@nil (string * output_data_point)). induction rows as [|r rows IH]; intro m; cbn [fold_left map fst snd]; auto.
  rewrite <- IH. f_equal. apply bt_insert_untimed.
Qed.
Lemma bt_get_untimed k m : bt_get k (map (fun p => (fst p, untimed (snd p))) m) = option_map untimed (bt_get k m).
Proof. unfold bt_get. induction m as [|[k' v'] m IH]; cbn; auto. destruct (String.eqb k k'); cbn; auto. Qed.
Lemma tasks_untimed inputs m : make_sorted_tasklist inputs (map (fun p => (fst p, untimed (snd p))) m) = map untimed_task (make_sorted_tasklist inputs m).
Proof.
  unfold make_sorted_tasklist. rewrite (map_sort_key untimed_task task_label task_label) by (intros []; auto). f_equal.
  rewrite map_app, filter_map_map. f_equal.
  - apply filter_map_ext. intro i. rewrite bt_get_untimed. destruct (bt_get (in_label i) m); auto.
  - rewrite !map_map. apply map_ext. auto.
Qed.

Section Bulk.
Context (E : ext) (digest : json -> string) (files : path -> option json) (clock : input_data_point -> durations).
Lemma analyze_untimed i : bulk_analyze E digest files no_clock i = res_map untimed (bulk_analyze E digest files clock i).
Proof.
  unfold bulk_analyze.
  repeat match goal with
  | |- bind ?x _ = _ => destruct x as [?|]; cbn [bind]; [|reflexivity]
  | |- (let '_ := ?p in _) = _ => destruct p
  | |- (let (_, _) := ?p in _) = _ => destruct p
  end. reflexivity.
Qed.
Lemma write_untimed tasks : write_rows E digest files no_clock (map untimed_task tasks) =
  (map untimed (fst (write_rows E digest files clock tasks)), snd (write_rows E digest files clock tasks)).
Proof.
  induction tasks as [|t tasks IH]; cbn [map write_rows]; auto. destruct t as [o|i]; cbn [untimed_task analyze_or_reuse].
  - rewrite IH. destruct (write_rows E digest files clock tasks) as [rows c]. reflexivity.
  - rewrite analyze_untimed. destruct (bulk_analyze E digest files clock i) as [row|]; cbn [res_map bind]; auto.
    rewrite IH. destruct (write_rows E digest files clock tasks) as [rows c]. reflexivity.
Qed.
Lemma main_untimed paths ignored out update : bulk_main E digest files no_clock paths ignored (untimed_target out) update =
  res_map (option_map (fun p => (map untimed (fst p), snd p))) (bulk_main E digest files clock paths ignored out update).
Proof.
  unfold bulk_main. destruct (extract_inputs paths ignored) as [[inputs|]|]; cbn [bind res_map option_map]; auto.
  destruct update, out as [|[rows|]]; cbn [untimed_target option_map res_map bind]; auto; try (rewrite outputs_untimed, tasks_untimed, write_untimed; auto).
  - rewrite <- write_untimed, <- tasks_untimed. auto.
  - rewrite <- write_untimed, <- tasks_untimed. auto.
  - rewrite <- write_untimed, <- tasks_untimed. auto.
Qed.
End Bulk.
Lemma untimed_outcome r r' : res_map (option_map (fun p => (map untimed (fst p), snd p))) r = res_map (option_map (fun p => (map untimed (fst p), snd p))) r' ->
  same_outcome r r'.
Proof.
  destruct r as [[[rows c]|]|], r' as [[[rows' c']|]|]; cbn; intro H; try discriminate; auto. injection H as H ->. split; auto.
  revert rows' H. induction rows as [|o rows IH]; intros [|o' rows'] H; try discriminate; [constructor|]. cbn [map] in H. apply cons_eq in H. destruct H as [H1 H2].
  constructor; auto. now apply untimed_same.
Qed.
(** the clock may show something else at every run *)
Lemma incremental_any_clock E digest files clock1 clock2 clock3 paths1 paths2 ign1 ign2 inputs1 inputs2 rows1 :
  extract_inputs paths1 ign1 = Ok (Some inputs1) -> extract_inputs paths2 ign2 = Ok (Some inputs2) ->
  incl inputs1 inputs2 -> distinct_labels in_label inputs1 -> distinct_labels in_label inputs2 ->
  bulk_main E digest files clock1 paths1 ign1 (File None) false = Ok (Some (rows1, true)) ->
  same_outcome (bulk_main E digest files clock2 paths2 ign2 (File (Some rows1)) true) (bulk_main E digest files clock3 paths2 ign2 Stdout false).
Proof.
  intros H1 H2 Hi D1 D2 Hr. apply untimed_outcome. rewrite <- !main_untimed. cbn [untimed_target option_map].
  apply (incremental_run E digest files no_clock paths1 paths2 ign1 ign2 inputs1 inputs2); auto.
  change (File None) with (untimed_target (File None)). rewrite (main_untimed E digest files clock1), Hr. reflexivity.
Qed.

(** ** the performance experiment *)
Definition untimed_row (d : measurement) : measurement :=
  mk_measurement (me_top_tier_size d) (me_run d) (me_mq_number d) (me_mbs_number d) (me_mss_number d) (me_mq_mean d) (me_mbs_mean d) (me_mss_mean d)
    (mk_experiment_durations fzero fzero fzero fzero fzero fzero).
Lemma untimed_row_same d d' : untimed_row d = untimed_row d' -> same_numbers d d'.
Proof. unfold untimed_row. intro H. inversion H. unfold same_numbers, experiment_of. repeat split; try assumption. congruence. Qed.
Definition untimed_experiment_task (t : experiment_task) : experiment_task := match t with Repeat o => Repeat (untimed_row o) | Perform i => Perform i end.
Definition untimed_destination (t : destination) : destination := match t with Terminal => Terminal | OutputFile r => OutputFile (option_map (map untimed_row) r) end.
Notation on_rows := (map (fun p : experiment * measurement => (fst p, untimed_row (snd p)))).
Lemma experiment_insert_untimed k v m : experiment_insert k (untimed_row v) (on_rows m) = on_rows (experiment_insert k v m).
Proof. induction m as [|[k' v'] m IH]; cbn; auto. destruct (experiment_compare k k'); cbn; auto. rewrite IH. auto. Qed.
Lemma experiments_untimed rows : outputs_by_experiment (map untimed_row rows) = on_rows (outputs_by_experiment rows).
Proof.
  unfold outputs_by_experiment. change (@nil (experiment * measurement)) with (on_rows []) at 1.
  generalize (@nil (experiment * measurement)). induction rows as [|r rows IH]; intro m; cbn [fold_left map]; auto.
  rewrite <- IH. f_equal. apply experiment_insert_untimed.
Qed.
Lemma contains_untimed k m : contains_experiment k (on_rows m) = contains_experiment k m.
Proof. unfold contains_experiment. induction m as [|[k' v'] m IH]; cbn; auto. rewrite IH. auto. Qed.
Lemma experiment_tasks_untimed inputs m : experiment_tasklist inputs (on_rows m) = map untimed_experiment_task (experiment_tasklist inputs m).
Proof.
  unfold experiment_tasklist. rewrite (map_sort_key untimed_experiment_task experiment_label experiment_label) by (intros []; auto). f_equal.
  rewrite map_app, filter_map_map. f_equal.
  - apply filter_map_ext. intro i. rewrite contains_untimed. destruct (contains_experiment i m); auto.
  - rewrite !map_map. apply map_ext. auto.
Qed.
Section Experiment.
Context (E : ext) (clock : experiment -> experiment_durations).
Lemma run_untimed k stellar : run_experiment E no_watch k stellar = res_map untimed_row (run_experiment E clock k stellar).
Proof.
  unfold run_experiment. destruct (if stellar then _ else _) as [f|]; cbn [bind res_map]; auto.
  destruct (_ =? _); cbn [assert bind res_map]; auto.
  repeat match goal with
  | |- bind ?x _ = _ => destruct x as [?|]; cbn [bind]; [|reflexivity]
  | |- (let '_ := ?p in _) = _ => destruct p
  | |- (let (_, _) := ?p in _) = _ => destruct p
  | |- assert ?b _ = _ => destruct b; cbn [assert]; [|reflexivity]
  end. reflexivity.
Qed.
Lemma write_rows_untimed stellar tasks : write_measurements E no_watch stellar (map untimed_experiment_task tasks) =
  (map untimed_row (fst (write_measurements E clock stellar tasks)), snd (write_measurements E clock stellar tasks)).
Proof.
  induction tasks as [|t tasks IH]; cbn [map write_measurements]; auto. destruct t as [o|i]; cbn [untimed_experiment_task perform_or_repeat].
  - rewrite IH. destruct (write_measurements E clock stellar tasks) as [rows c]. reflexivity.
  - rewrite run_untimed. destruct (run_experiment E clock i stellar) as [row|]; cbn [res_map bind]; auto.
    rewrite IH. destruct (write_measurements E clock stellar tasks) as [rows c]. reflexivity.
Qed.
Lemma experiment_main_untimed max runs stellar update out : experiment_main E no_watch max runs stellar update (untimed_destination out) =
  option_map (fun p => (map untimed_row (fst p), snd p)) (experiment_main E clock max runs stellar update out).
Proof.
  unfold experiment_main. destruct update, out as [|[rows|]]; cbn [untimed_destination option_map]; auto; try (rewrite experiments_untimed, experiment_tasks_untimed, write_rows_untimed; auto).
  - rewrite <- write_rows_untimed, <- experiment_tasks_untimed. auto.
  - rewrite <- write_rows_untimed, <- experiment_tasks_untimed. auto.
  - rewrite <- write_rows_untimed, <- experiment_tasks_untimed. auto.
Qed.
End Experiment.
Lemma incremental_any_watch E : ext_ok E -> forall clock1 clock2 clock3 max1 runs1 max2 runs2 stellar rows1 rows2,
  (Z.of_nat max2 <= 2 ^ 53)%Z -> max1 <= max2 -> runs1 <= runs2 ->
  experiment_main E clock1 max1 runs1 stellar false (OutputFile None) = Some (rows1, true) ->
  experiment_main E clock2 max2 runs2 stellar true (OutputFile (Some rows1)) = Some (rows2, true) ->
  exists rows rows', experiment_main E clock3 max2 runs2 stellar false (OutputFile None) = Some (rows, true) /\ Permutation rows2 rows' /\ Forall2 same_numbers rows' rows.
Proof.
  intros HE clock1 clock2 clock3 max1 runs1 max2 runs2 stellar rows1 rows2 Hz Hm Hr H1 H2.
  assert (U1 := experiment_main_untimed E clock1 max1 runs1 stellar false (OutputFile None)). rewrite H1 in U1. cbn [untimed_destination option_map fst snd] in U1.
  assert (U2 := experiment_main_untimed E clock2 max2 runs2 stellar true (OutputFile (Some rows1))). rewrite H2 in U2. cbn [untimed_destination option_map fst snd] in U2.
  destruct (incremental E HE no_watch max1 runs1 max2 runs2 stellar _ _ Hz Hm Hr U1 U2) as (rows & U3 & P).
  assert (U4 := experiment_main_untimed E clock3 max2 runs2 stellar false (OutputFile None)). cbn [untimed_destination option_map fst snd] in U4. rewrite U3 in U4.
  destruct (experiment_main E clock3 max2 runs2 stellar false (OutputFile None)) as [[rows' c]|]; [|discriminate]. cbn in U4. injection U4 as -> <-.
  destruct (Permutation_map_inv untimed_row rows2 (Permutation_sym P)) as (l & El & Pl). exists rows', l. split; auto. split; [exact Pl|].
  clear -El. revert l El. induction rows' as [|d rows' IH]; intros [|d' l] El; try discriminate; [constructor|]. cbn [map] in El. apply cons_eq in El. destruct El as [E1 E2].
  constructor; auto. apply untimed_row_same. auto.
Qed.
