(** Lemmas about the messages of threads. *)
From Coq Require Import Ascii.
From Verif Require Export Spec_ReuseMessages P_Parallel P_Experiments.
Local Open Scope list_scope.
Local Open Scope nat_scope.

Section Pool.
Context {T R M : Type} (run : T -> M -> res R) (jobs : nat) (said : T -> list ascii).
Implicit Types (p : pool T R) (sl : list (slot T R)) (rows : list R) (es : list (event M)).

Lemma aloud_run es : forall p, match pool_run_aloud run jobs said p es with Some (_, q) => pool_run run jobs p es = Some q | None => pool_run run jobs p es = None end.
Proof.
  induction es as [|e es IH]; intro p; cbn [pool_run_aloud pool_run]; auto. destruct (pool_step run jobs p e) as [p'|]; auto.
  specialize (IH p'). destruct (pool_run_aloud run jobs said p' es) as [[text q]|]; auto.
Qed.

(** the tasks in the pool that are finished *)
Definition is_finished (s : slot T R) : bool := match s with Finished _ => true | _ => false end.
Definition over (ins : list T) sl : list T := map fst (filter (fun x => is_finished (snd x)) (combine ins sl)).
Definition rest_of (ins : list T) sl : list T := map fst (filter (fun x => negb (is_finished (snd x))) (combine ins sl)).
Lemma over_rest ins sl : List.length ins = List.length sl -> Permutation (over ins sl ++ rest_of ins sl) ins.
Proof.
  revert sl. induction ins as [|t ins IH]; intros [|s sl] H; cbn in *; try discriminate; [constructor|].
  unfold over, rest_of in *. cbn [combine filter snd]. destruct (is_finished s); cbn [negb map fst app].
  - constructor. apply IH. lia.
  - etransitivity; [apply Permutation_sym, Permutation_middle|]. constructor. apply IH. lia.
Qed.
Lemma over_same ins sl i s s' : nth_error sl i = Some s -> is_finished s = is_finished s' -> over ins (update i s' sl) = over ins sl.
Proof.
  unfold over. revert ins i. induction sl as [|x sl IH]; intros [|t ins] [|i] E Hf; cbn [nth_error update combine filter snd] in *; try discriminate; auto.
  - injection E as ->. rewrite <- Hf. destruct (is_finished s); auto.
  - specialize (IH ins i E Hf). destruct (is_finished x); cbn [map fst]; rewrite IH; auto.
Qed.
Lemma over_finish ins sl i t r : nth_error ins i = Some t -> nth_error sl i = Some (Running t) ->
  Permutation (over ins (update i (Finished r) sl)) (t :: over ins sl).
Proof.
  unfold over. revert ins i. induction sl as [|x sl IH]; intros [|t0 ins] [|i] E1 E2; cbn [nth_error update combine filter snd] in *; try discriminate.
  - injection E1 as ->. injection E2 as ->. cbn. constructor. reflexivity.
  - specialize (IH ins i E1 E2). destruct (is_finished x); cbn [map fst]; auto.
    rewrite IH. apply perm_swap.
Qed.
Lemma over_snoc ins sl t : List.length ins = List.length sl -> over (ins ++ [t]) (sl ++ [Queued t]) = over ins sl.
Proof.
  unfold over. revert sl. induction ins as [|t0 ins IH]; intros [|s sl] H; cbn in *; try discriminate; auto.
  destruct (is_finished s); cbn; rewrite IH by lia; auto.
Qed.

(** which tasks have finished, in which order *)
Definition heard (tasks : list T) p (order : list T) : Prop :=
  match p with
  | Working up sl rows => exists done_ inside, tasks = done_ ++ inside ++ up /\ List.length done_ = List.length rows /\
      Forall2 (slot_ok run) inside sl /\ (sl = [] -> up = []) /\ Permutation order (done_ ++ over inside sl)
  | Ended rows complete => exists done_ more rest, Permutation (more ++ rest) (skipn (List.length rows) tasks) /\ done_ = firstn (List.length rows) tasks /\
      Permutation order (done_ ++ more) /\ (complete = true -> rest = [])
  end.
Lemma heard_start capacity tasks : 0 < capacity -> heard tasks (pool_start capacity tasks) [].
Proof.
  intro Hc. destruct (good_start run jobs capacity tasks Hc) as (d & ins & Et & Hd & Hs & He & _). cbn in Hd. inversion Hd; subst. cbn [heard pool_start].
  exists [], (firstn capacity tasks). split; [symmetry; apply firstn_skipn|]. split; auto. split.
  - clear. induction (firstn capacity tasks); cbn; constructor; auto. left. auto.
  - split; auto. unfold over. clear. induction (firstn capacity tasks); cbn; auto.
Qed.
Lemma heard_step tasks p e p' order : heard tasks p order -> pool_step run jobs p e = Some p' ->
  exists new, heard tasks p' (order ++ new) /\ step_says said p e = List.concat (map said new).
Proof.
  destruct p as [up sl rows|rows c]; [|discriminate]. intros (d & ins & Et & Hd & Hs & He & Ho).
  assert (Hl : List.length ins = List.length sl) by (clear -Hs; induction Hs; cbn; auto).
  destruct e as [i|i m|]; cbn [pool_step step_says].
  - destruct (nth_error sl i) as [[t| |]|] eqn:En; try discriminate. destruct (running sl <? jobs) eqn:Ej; [|discriminate]. intros [= <-].
    destruct (forall2_nth _ _ _ _ _ Hs En) as (t' & Et' & [Eq|[Eq|(m & Eq)]]); try discriminate. injection Eq as ->.
    exists []. rewrite app_nil_r. split; [|reflexivity]. exists d, ins. repeat split; auto.
    + eapply forall2_update; eauto. right. left. auto.
    + intro E. apply update_nil in E. auto.
    + rewrite (over_same ins sl i (Queued t') (Running t')); auto.
  - destruct (nth_error sl i) as [[|t|]|] eqn:En; try discriminate. intros [= <-].
    destruct (forall2_nth _ _ _ _ _ Hs En) as (t' & Et' & [Eq|[Eq|(m' & Eq)]]); try discriminate. injection Eq as ->.
    exists [t']. cbn. rewrite app_nil_r. split; [|reflexivity]. exists d, ins. repeat split; auto.
    + eapply forall2_update; eauto. right. right. eauto.
    + intro E. apply update_nil in E. auto.
    + rewrite (over_finish ins sl i t' (run t' m) Et' En), Ho. rewrite <- app_assoc. apply Permutation_app_head. apply Permutation_sym, Permutation_cons_append.
  - intro Hp. exists []. rewrite app_nil_r. split; [|reflexivity]. destruct sl as [|[t|t|[r|]] sl]; try discriminate.
    + injection Hp as <-. inversion Hs; subst. rewrite (He eq_refl) in *. cbn in *. rewrite app_nil_r in *.
      exists d, [], []. rewrite <- Hd, firstn_all, skipn_all, app_nil_r. repeat split; auto. rewrite app_nil_r. exact Ho.
    + inversion Hs as [|t0 s0 ins' sl' Ht Hs' Ei Es]; subst. cbn in Hl.
      assert (Ho' : Permutation order ((d ++ [t0]) ++ over ins' sl)) by (rewrite <- app_assoc; exact Ho).
      destruct up as [|t up]; injection Hp as <-.
      * exists (d ++ [t0]), ins'. rewrite <- app_assoc. repeat split; auto. rewrite !app_length. cbn. lia.
      * exists (d ++ [t0]), (ins' ++ [t]). rewrite <- !app_assoc. cbn. repeat split; auto.
        -- rewrite !app_length. cbn. lia.
        -- apply Forall2_app; auto. constructor; auto. left. auto.
        -- intro E. destruct sl; discriminate.
        -- rewrite over_snoc by lia. rewrite <- app_assoc in Ho'. exact Ho'.
    + injection Hp as <-. subst tasks. cbn [heard]. exists d, (over ins (Finished Panic :: sl)), (rest_of ins (Finished Panic :: sl) ++ up).
      rewrite <- Hd, firstn_app, Nat.sub_diag, firstn_all, app_nil_r, skipn_app, Nat.sub_diag, skipn_all. cbn [skipn app].
      repeat split; auto; [|discriminate]. rewrite app_assoc. apply Permutation_app_tail. apply over_rest; auto.
Qed.
Lemma heard_run tasks es : forall p order text q, heard tasks p order -> pool_run_aloud run jobs said p es = Some (text, q) ->
  exists new, heard tasks q (order ++ new) /\ text = List.concat (map said new).
Proof.
  induction es as [|e es IH]; cbn [pool_run_aloud]; intros p order text q Hh E.
  - injection E as <- <-. exists []. rewrite app_nil_r. auto.
  - destruct (pool_step run jobs p e) as [p'|] eqn:Es; [|discriminate].
    destruct (pool_run_aloud run jobs said p' es) as [[text' q']|] eqn:Er; [|discriminate]. injection E as <- <-.
    destruct (heard_step tasks p e p' order Hh Es) as (n1 & H1 & ->). destruct (IH p' (order ++ n1) text' q' H1 Er) as (n2 & H2 & ->).
    exists (n1 ++ n2). rewrite app_assoc, map_app, concat_app. auto.
Qed.

Lemma said_always capacity tasks es text p : 0 < capacity -> pool_run_aloud run jobs said (pool_start capacity tasks) es = Some (text, p) ->
  part_in_some_order said (firstn (List.length (rows_of p)) tasks) tasks text.
Proof.
  intros Hc E. destruct (heard_run tasks es _ [] text p (heard_start capacity tasks Hc) E) as (order & Hh & ->). cbn [app] in Hh.
  destruct p as [up sl rows|rows c]; cbn [heard rows_of] in *.
  - destruct Hh as (d & ins & -> & Hd & Hs & _ & Ho). rewrite <- Hd, firstn_app, Nat.sub_diag, firstn_all. cbn [firstn]. rewrite app_nil_r.
    exists (over ins sl), (rest_of ins sl ++ up). split; [|exists order; auto].
    apply Permutation_app_head. rewrite app_assoc. apply Permutation_app_tail, over_rest. clear -Hs. induction Hs; cbn; auto.
  - destruct Hh as (d & more & rest & Hr & -> & Ho & _). exists more, rest. split; [|exists order; auto].
    rewrite Hr. rewrite firstn_skipn. reflexivity.
Qed.
Lemma said_at_the_end capacity tasks es text rows : 0 < capacity ->
  pool_run_aloud run jobs said (pool_start capacity tasks) es = Some (text, Ended rows true) -> in_some_order said tasks text.
Proof.
  intros Hc E. destruct (heard_run tasks es _ [] text _ (heard_start capacity tasks Hc) E) as (order & Hh & ->). cbn [app heard] in Hh.
  destruct Hh as (d & more & rest & Hr & -> & Ho & Hn). rewrite (Hn eq_refl), app_nil_r in Hr. exists order. split; auto.
  rewrite Ho, Hr, firstn_skipn. reflexivity.
Qed.
End Pool.

(** only some elements say something *)
Lemma quiet_pieces {A B} (piece : A -> list ascii) (key : A -> option B) (line : B -> list ascii) l :
  (forall a, piece a = match key a with Some b => line b | None => [] end) ->
  List.concat (map piece l) = List.concat (map line (filter_map key l)).
Proof. intro H. induction l as [|a l IH]; cbn [map List.concat filter_map]; auto. rewrite H, IH. destruct (key a); auto. Qed.
Lemma filter_map_perm {A B} (key : A -> option B) l l' : Permutation l l' -> Permutation (filter_map key l) (filter_map key l').
Proof.
  induction 1 as [|a l l' H IH|a b l|l l' l'' H1 IH1 H2 IH2]; cbn [filter_map]; auto.
  - destruct (key a); auto.
  - destruct (key a), (key b); auto. apply perm_swap.
  - etransitivity; eauto.
Qed.
Lemma order_of_some {A B} (piece : A -> list ascii) (key : A -> option B) (line : B -> list ascii) l text :
  (forall a, piece a = match key a with Some b => line b | None => [] end) ->
  in_some_order piece l text -> in_some_order line (filter_map key l) text.
Proof. intros H (order & Hp & ->). exists (filter_map key order). split; [apply filter_map_perm, Hp|apply quiet_pieces, H]. Qed.
Lemma order_perm {A} (piece : A -> list ascii) l l' text : Permutation l l' -> in_some_order piece l text -> in_some_order piece l' text.
Proof. intros H (order & Hp & E). exists order. split; auto. etransitivity; eauto. Qed.
Lemma fm_app {A B} (key : A -> option B) l l' : filter_map key (l ++ l') = filter_map key l ++ filter_map key l'.
Proof. induction l as [|a l IH]; cbn [filter_map app]; auto. rewrite IH. destruct (key a); auto. Qed.

(** the bulk analyzer *)
Definition reused (t : task) : option string := match t with Reuse o => Some (out_label o) | Analyze _ => None end.
Lemma task_says_line t : task_says t = match reused t with Some L => reused_line L | None => [] end.
Proof. destruct t; cbn [task_says reused]; auto. unfold reused_line, a_line. cbn [List.concat]. rewrite app_nil_r, <- !app_assoc. reflexivity. Qed.
Lemma reused_tasks inputs existing : output_map existing -> Permutation (filter_map reused (make_sorted_tasklist inputs existing)) (map fst existing).
Proof.
  intros [_ Hl]. unfold make_sorted_tasklist. etransitivity; [apply filter_map_perm, sort_by_perm|]. rewrite fm_app.
  match goal with |- Permutation (filter_map reused ?l ++ _) _ => assert (Hn : filter_map reused l = []) end.
  { induction inputs as [|i inputs IH]; cbn [filter_map]; auto. destruct (is_none (bt_get (in_label i) existing)); cbn [filter_map reused]; auto. }
  rewrite Hn. cbn [app]. rewrite map_map.
  assert (Hm : filter_map reused (map (fun x => Reuse (snd x)) existing) = map fst existing); [|rewrite Hm; reflexivity].
  clear Hn. induction existing as [|[L o] m IH]; cbn [map filter_map reused fst snd]; auto. rewrite (Hl L o) by (left; auto).
  f_equal. apply IH. intros L' o' H. apply Hl. right; auto.
Qed.
Lemma latest_exists rows L : forall o, In o rows -> out_label o = L -> exists o', latest rows L o'.
Proof.
  induction rows as [|d rows IH]; intros o Ho El; [destruct Ho|]. destruct (in_dec string_dec L (map out_label rows)) as [Hi|Hi].
  - apply in_map_iff in Hi. destruct Hi as (x & Ex & Hx). destruct (IH x Hx Ex) as (w & pre & post & -> & Hw1 & Hw2). exists w, (d :: pre), post. auto.
  - destruct Ho as [->|Ho]; [|exfalso; apply Hi, in_map_iff; exists o; auto].
    exists o, [], rows. repeat split; auto. intros p Hp Hl. apply Hi, in_map_iff. exists p; auto.
Qed.
Lemma bulk_messages (E : ext) digest files jobs capacity inputs old es text rows : 0 < capacity ->
  pool_run_aloud (bulk_task E digest files) jobs task_says (pool_start capacity (make_sorted_tasklist inputs (outputs_by_label old))) es = Some (text, Ended rows true) ->
  exists labels, NoDup labels /\ (forall L, In L labels <-> exists o, In o old /\ out_label o = L) /\ in_some_order reused_line labels text.
Proof.
  intros Hc H. apply said_at_the_end in H; auto. destruct (outputs_spec old) as [Hm Hin].
  exists (map fst (outputs_by_label old)). split; [apply sorted_keys_nodup, Hm|]. split.
  - intro L. rewrite in_map_iff. split.
    + intros ([L' o] & <- & Ho). apply Hin in Ho. destruct Ho as (pre & post & -> & El & _). exists o. split; auto. apply in_or_app. right. left. auto.
    + intros (o & Ho & El). destruct (latest_exists old L o Ho El) as (o' & Ho'). exists (L, o'). split; auto. apply Hin, Ho'.
  - apply (order_perm _ _ _ _ (reused_tasks inputs _ Hm)). apply (order_of_some task_says reused reused_line); auto. apply task_says_line.
Qed.

(** the performance experiment *)
Definition repeated (t : experiment_task) : option experiment := match t with Repeat d => Some (from_output_data_point d) | Perform _ => None end.
Lemma experiment_says_line t : experiment_says t = match repeated t with Some x => repeated_line x | None => [] end.
Proof. destruct t; cbn [experiment_says repeated]; auto. unfold repeated_line, a_line, from_output_data_point. cbn [List.concat x_top_tier_size x_run]. rewrite app_nil_r, <- !app_assoc. reflexivity. Qed.
Lemma repeated_tasks inputs (m : list (experiment * measurement)) : (forall k d, In (k, d) m -> from_output_data_point d = k) ->
  Permutation (filter_map repeated (experiment_tasklist inputs m)) (map fst m).
Proof.
  intros Hl. unfold experiment_tasklist. etransitivity; [apply filter_map_perm, sort_by_perm|]. rewrite fm_app.
  match goal with |- Permutation (filter_map repeated ?l ++ _) _ => assert (Hn : filter_map repeated l = []) end.
  { induction inputs as [|i inputs IH]; cbn [filter_map]; auto. destruct (negb (contains_experiment i m)); cbn [filter_map repeated]; auto. }
  rewrite Hn. cbn [app]. rewrite map_map.
  assert (Hm : filter_map repeated (map (fun x => Repeat (snd x)) m) = map fst m); [|rewrite Hm; reflexivity].
  clear Hn. induction m as [|[L o] m IH]; cbn [map filter_map repeated fst snd]; auto. rewrite (Hl L o) by (left; auto).
  f_equal. apply IH. intros L' o' H. apply Hl. right; auto.
Qed.
Lemma experiment_dec (a b : experiment) : {a = b} + {a <> b}.
Proof. decide equality; apply Nat.eq_dec. Qed.
Lemma last_row_exists rows k : forall d, In d rows -> from_output_data_point d = k -> exists d', last_row rows k d'.
Proof.
  induction rows as [|x rows IH]; intros d Hd Ek; [destruct Hd|].
  destruct (in_dec experiment_dec k (map from_output_data_point rows)) as [Hi|Hi].
  - apply in_map_iff in Hi. destruct Hi as (y & Ey & Hy). destruct (IH y Hy Ey) as (w & pre & post & -> & Hw1 & Hw2). exists w, (x :: pre), post. auto.
  - destruct Hd as [->|Hd]; [|exfalso; apply Hi, in_map_iff; exists d; auto].
    exists d, [], rows. repeat split; auto. intros p Hp Hl. apply Hi, in_map_iff. exists p; auto.
Qed.
Lemma experiment_messages (E : ext) stellar_like jobs capacity inputs old es text rows : 0 < capacity ->
  pool_run_aloud (experiment_step E stellar_like) jobs experiment_says (pool_start capacity (experiment_tasklist inputs (outputs_by_experiment old))) es = Some (text, Ended rows true) ->
  exists keys, NoDup keys /\ (forall k, In k keys <-> exists d, In d old /\ from_output_data_point d = k) /\ in_some_order repeated_line keys text.
Proof.
  intros Hc H. apply said_at_the_end in H; auto. destruct (outputs_by_experiment_spec no_watch old) as [Hm Hin].
  exists (map fst (outputs_by_experiment old)). split; [apply ascending_nodup, Hm|]. split.
  - intro k. rewrite in_map_iff. split.
    + intros ([k' o] & <- & Ho). apply Hin in Ho. destruct Ho as (pre & post & -> & El & _). exists o. split; auto. apply in_or_app. right. left. auto.
    + intros (o & Ho & El). destruct (last_row_exists old k o Ho El) as (o' & Ho'). exists (k, o'). split; auto. apply Hin, Ho'.
  - eapply order_perm; [apply (repeated_tasks inputs (outputs_by_experiment old))|].
    + intros k d Hd. apply Hin in Hd. destruct Hd as (pre & post & _ & El & _). exact El.
    + apply (order_of_some experiment_says repeated repeated_line); auto. apply experiment_says_line.
Qed.

(** examples *)
Definition letter (t : nat) : list ascii := [ascii_of_nat (48 + t)].
Lemma lines_swapped : exists (run : nat -> unit -> res nat) (events : list (event unit)) (said : nat -> list ascii),
  pool_run_aloud run 2 said (pool_start 4 [1; 2]) events = Some (said 2 ++ said 1, Ended [1; 2] true) /\ said 1 <> said 2.
Proof.
  exists (fun t _ => Ok t), [Pick 0; Pick 1; Finish 1 tt; Finish 0 tt; Take; Take; Take], letter. split; [vm_compute; reflexivity|discriminate].
Qed.
