(** Lemmas about the pool of threads. *)
From Verif Require Export Spec_Parallel P_Durations.
Local Open Scope list_scope.
Local Open Scope nat_scope.

Section Pool.
Context {T R M : Type} (run : T -> M -> res R) (jobs : nat).
Notation step := (@pool_step T R M run jobs).
Notation exec := (@pool_run T R M run jobs).
Implicit Types (p : pool T R) (sl : list (slot T R)) (rows : list R) (es : list (event M)).

Definition slot_ok (t : T) (s : slot T R) : Prop :=
  s = Queued t \/ s = Running t \/ exists m, s = Finished (run t m).
Definition good (tasks : list T) p : Prop :=
  match p with
  | Working up sl rows => exists done_ inside, tasks = done_ ++ inside ++ up /\
      Forall2 (fun t r => exists m, run t m = Ok r) done_ rows /\ Forall2 slot_ok inside sl /\ (sl = [] -> up = []) /\ running sl <= jobs
  | Ended rows c => one_by_one run tasks rows c
  end.

Lemma one_by_one_app done_ rows rest rows' c : Forall2 (fun t r => exists m, run t m = Ok r) done_ rows ->
  one_by_one run rest rows' c -> one_by_one run (done_ ++ rest) (rows ++ rows') c.
Proof. intros H Ho. induction H as [|t r l l' (m & Hm) H IH]; cbn; auto. econstructor; eauto. Qed.
Lemma one_by_one_so_far tasks rows c : one_by_one run tasks rows c -> rows_so_far run tasks rows.
Proof.
  unfold rows_so_far. induction 1 as [|t m r ts rows c Hr H (d & rest & E1 & E2)|t m ts Hr].
  - exists [], []. auto.
  - exists (t :: d), rest. subst ts. split; auto. constructor; eauto.
  - exists [], (t :: ts). auto.
Qed.
Lemma forall2_update {A B} (P : A -> B -> Prop) la lb i a b b' : Forall2 P la lb -> nth_error lb i = Some b ->
  nth_error la i = Some a -> P a b' -> Forall2 P la (update i b' lb).
Proof. intro H. revert i. induction H as [|x y la lb Hxy H IH]; intros [|i] E1 E2 Hp; cbn in *; try discriminate; constructor; auto; congruence. Qed.
Lemma forall2_nth {A B} (P : A -> B -> Prop) la lb i b : Forall2 P la lb -> nth_error lb i = Some b -> exists a, nth_error la i = Some a /\ P a b.
Proof. intro H. revert i. induction H as [|x y la lb Hxy H IH]; intros [|i] E; cbn in *; try discriminate; eauto. injection E as <-. eauto. Qed.
Lemma running_update sl i s s' : nth_error sl i = Some s -> running (update i s' sl) + (if is_running s then 1 else 0) = running sl + (if is_running s' then 1 else 0).
Proof.
  unfold running. revert i. induction sl as [|x sl IH]; intros [|i] E; cbn in *; try discriminate.
  - injection E as ->. destruct (is_running s), (is_running s'); cbn; lia.
  - specialize (IH i E). destruct (is_running x); cbn; lia.
Qed.
Lemma update_nil {A} i (x : A) l : update i x l = [] -> l = [].
Proof. destruct i, l; cbn; auto; discriminate. Qed.

Lemma good_start capacity tasks : 0 < capacity -> good tasks (pool_start capacity tasks).
Proof.
  intro Hc. cbn. exists [], (firstn capacity tasks). split; [symmetry; apply firstn_skipn|]. split; auto. split.
  - induction (firstn capacity tasks); cbn; constructor; auto. left. auto.
  - split.
    + intro E. apply map_eq_nil in E. destruct tasks; [apply skipn_nil|]. destruct capacity; [lia|discriminate].
    + unfold running. replace (filter is_running (map Queued (firstn capacity tasks))) with (@nil (slot T R)); cbn; [lia|].
      induction (firstn capacity tasks); cbn; auto.
Qed.

Lemma good_step tasks p e p' : good tasks p -> step p e = Some p' -> good tasks p'.
Proof.
  destruct p as [up sl rows|rows c]; [|discriminate]. intros (d & ins & Et & Hd & Hs & He & Hr). destruct e as [i|i m|]; cbn [pool_step].
  - destruct (nth_error sl i) as [[t| |]|] eqn:En; try discriminate. destruct (running sl <? jobs) eqn:Ej; [|discriminate]. intros [= <-].
    apply Nat.ltb_lt in Ej. destruct (forall2_nth _ _ _ _ _ Hs En) as (t' & Et' & [Eq|[Eq|(m & Eq)]]); try discriminate. injection Eq as ->.
    exists d, ins. repeat split; auto.
    + eapply forall2_update; eauto. right. left. auto.
    + intro E. apply update_nil in E. auto.
    + assert (H := running_update sl i (Queued t') (Running t') En). cbn in H. lia.
  - destruct (nth_error sl i) as [[|t|]|] eqn:En; try discriminate. intros [= <-].
    destruct (forall2_nth _ _ _ _ _ Hs En) as (t' & Et' & [Eq|[Eq|(m' & Eq)]]); try discriminate. injection Eq as ->.
    exists d, ins. repeat split; auto.
    + eapply forall2_update; eauto. right. right. eauto.
    + intro E. apply update_nil in E. auto.
    + assert (H := running_update sl i (Running t') (Finished (run t' m)) En). cbn in H. lia.
  - destruct sl as [|[t|t|[r|]] sl]; try discriminate.
    + intros [= <-]. inversion Hs; subst. rewrite (He eq_refl) in *. cbn in *. rewrite <- (app_nil_r rows).
      apply one_by_one_app; auto. constructor.
    + inversion Hs as [|t0 s0 ins' sl' Ht Hs' Ei Es]; subst. destruct Ht as [Eq|[Eq|(m & Eq)]]; try discriminate.
      injection Eq as Eq. assert (Hd' : Forall2 (fun t r => exists m, run t m = Ok r) (d ++ [t0]) (rows ++ [r])).
      { apply Forall2_app; auto. constructor; eauto. }
      assert (Hr' : running sl <= jobs) by exact Hr.
      destruct up as [|t up]; intros [= <-].
      * exists (d ++ [t0]), ins'. rewrite <- app_assoc. repeat split; auto.
      * exists (d ++ [t0]), (ins' ++ [t]). rewrite <- !app_assoc. cbn. repeat split; auto.
        -- apply Forall2_app; auto. constructor; auto. left. auto.
        -- intro E. destruct sl; discriminate.
        -- unfold running in *. rewrite filter_app, app_length. cbn. lia.
    + intros [= <-]. inversion Hs as [|t0 s0 ins' sl' Ht Hs' Ei Es]; subst. destruct Ht as [Eq|[Eq|(m & Eq)]]; try discriminate.
      injection Eq as Eq. cbn. rewrite <- (app_nil_r rows). apply one_by_one_app; auto. econstructor; eauto.
Qed.
Lemma good_run tasks es : forall p p', good tasks p -> exec p es = Some p' -> good tasks p'.
Proof.
  induction es as [|e es IH]; cbn; intros p p' Hg E; [injection E as <-; auto|].
  destruct (step p e) as [q|] eqn:Es; [|discriminate]. exact (IH q p' (good_step tasks p e q Hg Es) E).
Qed.

Lemma pool_outcome capacity tasks es rows c : 0 < capacity -> exec (pool_start capacity tasks) es = Some (Ended rows c) -> one_by_one run tasks rows c.
Proof. intros Hc E. exact (good_run tasks es _ _ (good_start capacity tasks Hc) E). Qed.
Lemma pool_so_far capacity tasks es p : 0 < capacity -> exec (pool_start capacity tasks) es = Some p -> rows_so_far run tasks (rows_of p).
Proof.
  intros Hc E. apply (good_run tasks es _ _ (good_start capacity tasks Hc)) in E. destruct p as [up sl rows|rows c]; cbn in *.
  - destruct E as (d & ins & Et & Hd & _). exists d, (ins ++ up). auto.
  - eapply one_by_one_so_far; eauto.
Qed.
Lemma pool_threads capacity tasks es up sl rows : 0 < capacity -> exec (pool_start capacity tasks) es = Some (Working up sl rows) -> running sl <= jobs.
Proof. intros Hc E. apply (good_run tasks es _ _ (good_start capacity tasks Hc)) in E. destruct E as (d & ins & _ & _ & _ & _ & H). exact H. Qed.

(** no deadlock *)
Lemma pool_progress p (m : M) : 0 < jobs -> ~ ended p -> exists e p', step p e = Some p'.
Proof.
  intros Hj Hn. destruct p as [up sl rows|]; [|destruct Hn; exact I].
  destruct (existsb is_running sl) eqn:Ex.
  - apply existsb_exists in Ex. destruct Ex as (s & Hi & Hs). apply In_nth_error in Hi. destruct Hi as (i & Hi). destruct s as [|t|]; try discriminate.
    exists (Finish i m). cbn. rewrite Hi. eauto.
  - assert (Hr : running sl = 0).
    { unfold running. clear -Ex. induction sl as [|s sl IH]; cbn in *; auto. apply orb_false_iff in Ex. destruct Ex as [-> Ex]. auto. }
    destruct sl as [|[t|t|[r|]] sl].
    + exists Take. cbn. eauto.
    + exists (Pick 0). cbn [pool_step nth_error]. rewrite Hr. destruct jobs; [lia|]. cbn. eauto.
    + discriminate.
    + exists Take. destruct up; cbn; eauto.
    + exists Take. cbn. eauto.
Qed.

(** every run ends *)
Definition slot_work (s : slot T R) : nat := match s with Queued _ => 3 | Running _ => 2 | Finished _ => 1 end.
Definition work p : nat := match p with Working up sl _ => 1 + 3 * List.length up + list_sum (map slot_work sl) | Ended _ _ => 0 end.
Lemma work_update sl i s s' : nth_error sl i = Some s -> list_sum (map slot_work (update i s' sl)) + slot_work s = list_sum (map slot_work sl) + slot_work s'.
Proof. revert i. induction sl as [|x sl IH]; intros [|i] E; cbn [nth_error update map] in *; try discriminate.
  - injection E as ->. cbn [list_sum fold_right]. unfold list_sum. cbn [fold_right]. lia.
  - specialize (IH i E). unfold list_sum in *. cbn [fold_right]. lia.
Qed.
Lemma work_step p e p' : step p e = Some p' -> work p' < work p.
Proof.
  destruct p as [up sl rows|rows c]; [|discriminate]. destruct e as [i|i m|]; cbn [pool_step].
  - destruct (nth_error sl i) as [[t| |]|] eqn:En; try discriminate. destruct (running sl <? jobs); [|discriminate]. intros [= <-].
    assert (H := work_update sl i _ (Running t) En). cbn [work slot_work] in *. lia.
  - destruct (nth_error sl i) as [[|t|]|] eqn:En; try discriminate. intros [= <-].
    assert (H := work_update sl i _ (Finished (run t m)) En). cbn [work slot_work] in *. lia.
  - destruct sl as [|[t|t|[r|]] sl]; try discriminate.
    + intros [= <-]. cbn. lia.
    + destruct up as [|t up]; intros [= <-]; cbn [work List.length map slot_work]; rewrite ?map_app, ?list_sum_app; unfold list_sum; cbn [fold_right map slot_work]; lia.
    + intros [= <-]. cbn. lia.
Qed.
Lemma work_run es : forall p p', exec p es = Some p' -> List.length es + work p' <= work p.
Proof.
  induction es as [|e es IH]; cbn; intros p p' E; [injection E as <-; lia|]. destruct (step p e) as [q|] eqn:Es; [|discriminate].
  apply work_step in Es. apply IH in E. lia.
Qed.
Lemma pool_bounded capacity tasks es p : exec (pool_start capacity tasks) es = Some p -> List.length es <= 3 * List.length tasks + 1.
Proof.
  intro E. apply work_run in E. assert (H : work (pool_start (R := R) capacity tasks) = 3 * List.length tasks + 1); [|lia].
  unfold pool_start, work. rewrite map_map. cbn [slot_work]. rewrite skipn_length. assert (L : list_sum (map (fun _ : T => 3) (firstn capacity tasks)) = 3 * List.length (firstn capacity tasks)).
  { clear. induction (firstn capacity tasks); unfold list_sum in *; cbn [fold_right map List.length]; lia. } rewrite L, firstn_length. lia.
Qed.
Lemma pool_extends p (m : M) : 0 < jobs -> exists es p', exec p es = Some p' /\ ended p'.
Proof.
  intro Hj. remember (work p) as w eqn:Ew. revert p Ew. induction w as [w IH] using lt_wf_ind. intros p ->.
  destruct p as [up sl rows|rows c]; [|exists [], (Ended rows c); cbn; auto].
  destruct (pool_progress (Working up sl rows) m Hj) as (e & q & Es); [cbn; auto|].
  assert (Hw := work_step _ _ _ Es). destruct (IH _ Hw q eq_refl) as (es & p' & E & He). exists (e :: es), p'. cbn [pool_run]. rewrite Es. auto.
Qed.

(** every outcome of running the tasks one by one is possible *)
Lemma pool_run_app es : forall es' p, exec p (es ++ es') = match exec p es with Some p' => exec p' es' | None => None end.
Proof. induction es as [|e es IH]; cbn; intros; auto. destruct (step p e); auto. Qed.
Lemma running_queued (l : list T) : running (map (fun t => Queued t) l : list (slot T R)) = 0.
Proof. unfold running. induction l; cbn; auto. Qed.
Lemma head_runs t q up rows m : 0 < jobs ->
  exec (Working up (map Queued (t :: q)) rows) [Pick 0; Finish 0 m; Take] =
  match run t m with
  | Ok r => Some (match up with [] => Working [] (map Queued q) (rows ++ [r]) | u :: up' => Working up' (map Queued (q ++ [u])) (rows ++ [r]) end)
  | Panic => Some (Ended rows false)
  end.
Proof.
  intro Hj. cbn [pool_run pool_step map nth_error].
  assert (Hr : running (Queued t :: map Queued q : list (slot T R)) = 0) by exact (running_queued (t :: q)).
  rewrite Hr. destruct jobs; [lia|]. cbn. destruct (run t m); auto. destruct up; rewrite ?map_app; auto.
Qed.
Lemma pool_possible tasks rows c : 0 < jobs -> one_by_one run tasks rows c -> forall q up before, q ++ up = tasks -> (q = [] -> up = []) ->
  exists es, exec (Working up (map Queued q) before) es = Some (Ended (before ++ rows) c).
Proof.
  intros Hj H. induction H as [|t m r ts rows c Hr H IH|t m ts Hr]; intros q up before Et Hq.
  - apply app_eq_nil in Et. destruct Et as [-> ->]. exists [Take]. cbn. rewrite app_nil_r. auto.
  - destruct q as [|t' q]; [rewrite (Hq eq_refl) in Et; discriminate|]. injection Et as -> Et.
    destruct up as [|u up].
    + destruct (IH q [] (before ++ [r])) as (es & Es); auto. exists ([Pick 0; Finish 0 m; Take] ++ es).
      rewrite pool_run_app, head_runs, Hr by auto. rewrite Es, <- app_assoc. auto.
    + destruct (IH (q ++ [u]) up (before ++ [r])) as (es & Es).
      { rewrite <- app_assoc. auto. } { intro E. destruct q; discriminate. }
      exists ([Pick 0; Finish 0 m; Take] ++ es). rewrite pool_run_app, head_runs, Hr by auto. rewrite Es, <- app_assoc. auto.
  - destruct q as [|t' q]; [rewrite (Hq eq_refl) in Et; discriminate|]. injection Et as -> Et.
    exists [Pick 0; Finish 0 m; Take]. rewrite head_runs, Hr, app_nil_r by auto. auto.
Qed.
Lemma pool_all capacity tasks rows c : 0 < jobs -> 0 < capacity -> one_by_one run tasks rows c ->
  exists es, exec (pool_start capacity tasks) es = Some (Ended rows c).
Proof.
  intros Hj Hc H. apply (pool_possible tasks rows c Hj H (firstn capacity tasks) (skipn capacity tasks) []); [apply firstn_skipn|].
  intro E. destruct tasks; [apply skipn_nil|]. destruct capacity; [lia|discriminate].
Qed.
End Pool.

(** ** the bulk programs *)
Lemma write_rows_one_by_one E digest files clock tasks :
  one_by_one (bulk_task E digest files) tasks (fst (write_rows E digest files clock tasks)) (snd (write_rows E digest files clock tasks)).
Proof.
  induction tasks as [|t tasks IH]; cbn [write_rows]; [constructor|].
  destruct (analyze_or_reuse E digest files clock t) as [row|] eqn:Er.
  - destruct (write_rows E digest files clock tasks) as [rows c]. cbn [fst snd] in *.
    apply (next_row _ t (match t with Analyze i => clock i | Reuse o => out_durations o end)); auto. destruct t as [o|i]; auto.
  - apply (panics _ t (match t with Analyze i => clock i | Reuse o => out_durations o end)). destruct t as [o|i]; auto.
Qed.
Lemma bulk_task_untimed E digest files t m : res_map untimed (bulk_task E digest files t m) = analyze_or_reuse E digest files no_clock (untimed_task t).
Proof. destruct t as [o|i]; cbn; auto. rewrite (analyze_untimed E digest files (fun _ => m)). auto. Qed.
Lemma one_by_one_rows E digest files clock tasks rows c : one_by_one (bulk_task E digest files) tasks rows c ->
  Forall2 same_results rows (fst (write_rows E digest files clock tasks)) /\ c = snd (write_rows E digest files clock tasks).
Proof.
  intro H. assert (Hw : write_rows E digest files no_clock (map untimed_task tasks) = (map untimed rows, c)).
  { induction H as [|t m r ts rows c Hr H IH|t m ts Hr]; cbn [map write_rows]; auto.
    - rewrite <- (bulk_task_untimed E digest files t m), Hr. cbn [res_map bind]. rewrite IH. auto.
    - rewrite <- (bulk_task_untimed E digest files t m), Hr. auto. }
  rewrite (write_untimed E digest files clock) in Hw. destruct (write_rows E digest files clock tasks) as [rows' c']. cbn [fst snd] in *.
  injection Hw as Hw ->. split; auto. clear H. revert rows' Hw. induction rows as [|o rows IH]; intros [|o' rows'] Hw; try discriminate; constructor.
  - apply untimed_same. cbn [map] in Hw. apply cons_eq in Hw. destruct Hw as [Hw _]. auto.
  - cbn [map] in Hw. apply cons_eq in Hw. apply IH. apply Hw.
Qed.
Lemma experiment_step_untimed E stellar t m : res_map untimed_row (experiment_step E stellar t m) = perform_or_repeat E no_watch stellar (untimed_experiment_task t).
Proof. destruct t as [i|o]; cbn; auto. rewrite (run_untimed E (fun _ => m)). auto. Qed.
Lemma one_by_one_measurements E clock stellar tasks rows c : one_by_one (experiment_step E stellar) tasks rows c ->
  Forall2 same_numbers rows (fst (write_measurements E clock stellar tasks)) /\ c = snd (write_measurements E clock stellar tasks).
Proof.
  intro H. assert (Hw : write_measurements E no_watch stellar (map untimed_experiment_task tasks) = (map untimed_row rows, c)).
  { induction H as [|t m r ts rows c Hr H IH|t m ts Hr]; cbn [map write_measurements]; auto.
    - rewrite <- (experiment_step_untimed E stellar t m), Hr. cbn [res_map bind]. rewrite IH. auto.
    - rewrite <- (experiment_step_untimed E stellar t m), Hr. auto. }
  rewrite (write_rows_untimed E clock) in Hw. destruct (write_measurements E clock stellar tasks) as [rows' c']. cbn [fst snd] in *.
  injection Hw as Hw ->. split; auto. clear H. revert rows' Hw. induction rows as [|o rows IH]; intros [|o' rows'] Hw; try discriminate; constructor.
  - apply untimed_row_same. cbn [map] in Hw. apply cons_eq in Hw. destruct Hw as [Hw _]. auto.
  - cbn [map] in Hw. apply cons_eq in Hw. apply IH. apply Hw.
Qed.
