(** [new_tiered_full_mesh] with empty tiers. *)
From Verif Require Export Spec_SimGraph P_List P_SimGraph P_Mesh.
Local Open Scope list_scope.

(** a run of tiers without an empty one, that starts at the beginning or after an empty tier *)
Definition tier_run (sizes run : list nat) : Prop :=
  Forall (fun s => 0 < s) run /\ exists before after, sizes = before ++ run ++ after /\ (before = [] \/ exists b, before = b ++ [0]).
(** the links of nodes that are counted from 0 in this run *)
Definition run_link (run : list nat) (i j : nat) : Prop :=
  i <> j /\ exists t t', in_tier run i t /\ in_tier run j t' /\ (t' = t \/ S t' = t).

Lemma inner_loop high i0 n : forall g, i0 <= n -> n <= List.length g ->
  exists g', foldM (fun outlinks i => old <- unwrap (nth_error outlinks i) ;;
                      set_at i (old ++ high ++ range i0 i ++ range (i + 1) n) outlinks) g (range i0 n) = Ok g' /\
    List.length g' = List.length g /\
    forall i j, link g' i j <-> link g i j \/ (i0 <= i < n /\ (In j high \/ (i0 <= j < n /\ j <> i))).
Proof.
  intros g H0 Hn. destruct (foldM_range (fun outlinks i => old <- unwrap (nth_error outlinks i) ;;
      set_at i (old ++ high ++ range i0 i ++ range (i + 1) n) outlinks)
    (fun k g' => List.length g' = List.length g /\ forall i j, link g' i j <-> link g i j \/ (i0 <= i < k /\ (In j high \/ (i0 <= j < n /\ j <> i))))
    i0 n g H0) as (g' & E & Hl & Hk).
  - intros i s Hi (Hl & Hk). destruct (nth_error s i) as [old|] eqn:Eo; [|apply nth_error_None in Eo; lia].
    cbn [unwrap bind]. rewrite set_at_ok by lia. eexists. split; [reflexivity|]. split; [rewrite update_length; auto|].
    intros x j. assert (Hx := Hk x j). unfold link at 1. rewrite nth_error_update. destruct (Nat.eqb_spec x i) as [->|Hne]; cbn [andb].
    + destruct (Nat.ltb_spec i (List.length s)) as [_|]; [|lia]. unfold link in Hx at 1. rewrite Eo in Hx.
      assert (Hy : (exists l, Some (old ++ high ++ range i0 i ++ range (i + 1) n) = Some l /\ In j l) <-> In j old \/ In j high \/ (i0 <= j < n /\ j <> i)).
      { split.
        - intros (l & El & Hj). injection El as <-. rewrite !in_app_iff, !range_in in Hj. lia || (destruct Hj as [?|[?|?]]; auto; right; right; lia).
        - intro H. eexists. split; [reflexivity|]. rewrite !in_app_iff, !range_in. destruct H as [?|[?|?]]; auto. right. right. lia. }
      assert (Hz : (exists l, Some old = Some l /\ In j l) <-> In j old).
      { split; [intros (l & El & Hj); congruence|eauto]. }
      rewrite Hy. rewrite Hz in Hx. split.
      * intros [H|H]; [apply Hx in H; destruct H as [H|(H & _)]; [auto|lia]|]. right. split; [lia|]. auto.
      * intros [H|[_ H]]; [left; apply Hx; auto|auto].
    + fold (link s x j). rewrite Hx. split; (intros [H|[H1 H2]]; [auto|right; split; [lia|auto]]).
  - split; auto. intros i j. split; [auto|]. intros [H|[H _]]; [auto|lia].
  - exists g'. auto.
Qed.

Definition last_tier (run : list nat) : list nat :=
  range (tier_start run (List.length run - 1)) (list_sum run).
Definition gap_state (N : nat) (d : list nat) (st : graph * list nat) : Prop :=
  List.length (fst st) = N /\ (exists before run, d = before ++ run /\ (before = [] \/ exists b, before = b ++ [0]) /\
     Forall (fun s => 0 < s) run /\ snd st = (match run with [] => [] | _ => last_tier run end)) /\
  forall i j, link (fst st) i j <-> exists run, tier_run d run /\ run_link run i j.

Lemma tier_start_app l s : tier_start (l ++ s) (List.length l) = list_sum l.
Proof. unfold tier_start. rewrite firstn_app, Nat.sub_diag, firstn_all. cbn. rewrite app_nil_r. auto. Qed.
Lemma in_tier_app l s i t : t < List.length l -> (in_tier (l ++ s) i t <-> in_tier l i t).
Proof.
  intro Ht. unfold in_tier. rewrite app_length, !firstn_app. replace (t - List.length l) with 0 by lia. replace (S t - List.length l) with 0 by lia.
  cbn [firstn]. rewrite !app_nil_r. intuition lia.
Qed.
Lemma in_tier_last l s i : in_tier (l ++ [s]) i (List.length l) <-> list_sum l <= i < list_sum l + s.
Proof.
  unfold in_tier. rewrite app_length. cbn [List.length]. fold (tier_start (l ++ [s]) (List.length l)). rewrite tier_start_app.
  rewrite (firstn_all2 (n := S (List.length l))) by (rewrite app_length; cbn; lia). rewrite list_sum_app. cbn. lia.
Qed.
Lemma in_tier_bound l i t : in_tier l i t -> i < list_sum l.
Proof. intros [Ht H]. fold (tier_start l (S t)) in H. pose proof (tier_start_mono l (S t) (List.length l)). rewrite tier_start_all in H0. lia. Qed.

(** runs of an extended list *)
Lemma tier_run_more d s run : tier_run d run -> tier_run (d ++ [s]) run.
Proof. intros (Hp & b & a & -> & Hb). split; auto. exists b, (a ++ [s]). rewrite <- !app_assoc. auto. Qed.
Lemma tier_run_zero d run i j : tier_run (d ++ [0]) run -> run_link run i j -> tier_run d run.
Proof.
  intros (Hp & b & a & E & Hb) (_ & t & _ & [Ht _] & _). destruct a as [|x a] using rev_ind; [|clear IHa].
  - rewrite app_nil_r in E. destruct run as [|y run] using rev_ind; [cbn in Ht; lia|]. rewrite app_assoc in E. apply app_inj_tail in E. destruct E as [_ <-].
    apply Forall_app in Hp. destruct Hp as [_ Hp]. inversion Hp. lia.
  - rewrite !app_assoc in E. apply app_inj_tail in E. destruct E as [E _]. split; auto. exists b, a. rewrite E, <- app_assoc. auto.
Qed.
Lemma tier_run_cut d s run : tier_run (d ++ [s]) run -> tier_run d run \/
  exists run' before, run = run' ++ [s] /\ d = before ++ run' /\ (before = [] \/ exists b, before = b ++ [0]) \/ run = [].
Proof.
  intros (Hp & b & a & E & Hb). destruct a as [|x a] using rev_ind; [|clear IHa].
  - rewrite app_nil_r in E. destruct run as [|y run] using rev_ind; [right; exists [], []; auto|clear IHrun]. right.
    rewrite app_assoc in E. apply app_inj_tail in E. destruct E as [-> <-]. exists run, b. auto.
  - left. rewrite !app_assoc in E. apply app_inj_tail in E. destruct E as [E _]. split; auto. exists b, a. rewrite E, <- app_assoc. auto.
Qed.
(** the last run is unique *)
Lemma last_run_unique (b r b' r' : list nat) : b ++ r = b' ++ r' -> (b = [] \/ exists c, b = c ++ [0]) -> (b' = [] \/ exists c, b' = c ++ [0]) ->
  Forall (fun s => 0 < s) r -> Forall (fun s => 0 < s) r' -> r = r'.
Proof.
  revert r'. induction r as [|x r IH] using rev_ind; intros r' E Hb Hb' Hr Hr'.
  - rewrite app_nil_r in E. destruct r' as [|y r' _] using rev_ind; auto. exfalso. apply Forall_app in Hr'. destruct Hr' as [_ Hy]. apply Forall_inv in Hy.
    destruct Hb as [->|[c ->]].
    + destruct b', r'; discriminate.
    + rewrite app_assoc in E. apply app_inj_tail in E. destruct E as [_ <-]. lia.
  - destruct r' as [|y r' _] using rev_ind.
    + exfalso. rewrite app_nil_r in E. apply Forall_app in Hr. destruct Hr as [_ Hy]. apply Forall_inv in Hy. destruct Hb' as [->|[c ->]].
      * destruct b, r; discriminate.
      * rewrite app_assoc in E. apply app_inj_tail in E. destruct E as [_ ->]. lia.
    + rewrite !app_assoc in E. apply app_inj_tail in E. destruct E as [E ->]. apply Forall_app in Hr, Hr'. f_equal. apply IH; tauto.
Qed.

Lemma gap_step N d s st : list_sum d + s <= N -> gap_state N d st -> exists st', add_tier st s = Ok st' /\ gap_state N (d ++ [s]) st'.
Proof.
  intros HN (Hl & (before & run & Ed & Hb & Hp & Hh) & Hk). destruct st as [g high]. cbn [fst snd] in *.
  assert (Hi0 : match rev high with [] => 0 | x :: _ => x + 1 end = list_sum run).
  { rewrite Hh. destruct run as [|x run _] using rev_ind; [reflexivity|].
    assert (Hx : 0 < x) by (apply Forall_app in Hp; destruct Hp as [_ Hp]; inversion Hp; auto).
    assert (Elt : (match run ++ [x] with [] => [] | _ => last_tier (run ++ [x]) end) = range (list_sum run) (list_sum run + x)).
    { transitivity (last_tier (run ++ [x])); [destruct run; reflexivity|]. unfold last_tier. rewrite app_length. cbn [List.length].
      replace (List.length run + 1 - 1) with (List.length run) by lia. rewrite tier_start_app, list_sum_app. cbn. f_equal. lia. }
    rewrite Elt. destruct (rev_range (list_sum run) (list_sum run + x)) as [l El]; [lia|]. rewrite El, list_sum_app. cbn. lia. }
  unfold add_tier. rewrite Hi0.
  assert (Hrun : list_sum run <= list_sum d) by (rewrite Ed, list_sum_app; lia).
  destruct (inner_loop high (list_sum run) (list_sum run + s) g) as (g' & Eg & Hl' & Hk'); [lia|lia|].
  rewrite Eg. cbn [bind]. eexists. split; [reflexivity|]. split; [cbn [fst]; lia|]. cbn [fst snd].
  destruct s as [|s].
  - split.
    + exists (d ++ [0]), []. rewrite app_nil_r. split; auto. split; [right; eauto|]. split; [constructor|].
      unfold range. replace (list_sum run + 0 - list_sum run) with 0 by lia. reflexivity.
    + intros i j. rewrite Hk', Hk. split.
      * intros [(r & H1 & H2)|[H _]]; [|lia]. exists r. split; [apply tier_run_more; auto|auto].
      * intros (r & H1 & H2). left. exists r. split; auto. eapply tier_run_zero; eauto.
  - assert (Hp' : Forall (fun x => 0 < x) (run ++ [S s])) by (apply Forall_app; split; auto; constructor; [lia|constructor]).
    split.
    + exists before, (run ++ [S s]). rewrite Ed, app_assoc. split; auto. split; auto. split; auto.
      transitivity (last_tier (run ++ [S s])); [|destruct run; reflexivity]. unfold last_tier. rewrite app_length. cbn [List.length].
      replace (List.length run + 1 - 1) with (List.length run) by lia. rewrite tier_start_app, list_sum_app. f_equal. cbn. lia.
    + intros i j. rewrite Hk', Hk. split.
      * intros [(r & H1 & H2)|(Hi & Hj)]; [exists r; split; [apply tier_run_more; auto|auto]|].
        exists (run ++ [S s]). split.
        { split; auto. exists before, []. rewrite Ed, app_nil_r, app_assoc. auto. }
        destruct Hj as [Hj|[Hj Hne]].
        { rewrite Hh in Hj. destruct run as [|x run _] using rev_ind; [destruct Hj|].
          assert (Hj' : In j (last_tier (run ++ [x]))) by (destruct run; exact Hj). clear Hj.
          unfold last_tier in Hj'. rewrite app_length in Hj'. cbn [List.length] in Hj'.
          replace (List.length run + 1 - 1) with (List.length run) in Hj' by lia. rewrite tier_start_app in Hj'. apply range_in in Hj'.
          split; [lia|]. exists (List.length (run ++ [x])), (List.length run). split; [apply in_tier_last; auto|]. split.
          - apply in_tier_app; [rewrite app_length; cbn; lia|]. apply in_tier_last. rewrite list_sum_app in Hj'. cbn in Hj'. lia.
          - right. rewrite app_length. cbn. lia. }
        { split; [lia|]. exists (List.length run), (List.length run). rewrite !in_tier_last. auto. }
      * intros (r & H1 & H2). destruct (tier_run_cut _ _ _ H1) as [H|(r' & b' & [(Er & E1 & Hb')| ->])].
        { left. exists r. auto. }
        2: { destruct H2 as (_ & t & _ & [Ht _] & _). cbn in Ht. lia. }
        assert (Hr' : Forall (fun x => 0 < x) r') by (destruct H1 as [Hx _]; rewrite Er in Hx; apply Forall_app in Hx; tauto).
        assert (r' = run) by (apply (last_run_unique b' r' before run); auto; congruence). subst r' r.
        destruct H2 as (Hne & t & t' & Ht & Ht' & Htt).
        assert (Hlen : t <= List.length run) by (destruct Ht as [Ht _]; rewrite app_length in Ht; cbn in Ht; lia).
        assert (Hlen' : t' <= List.length run) by lia.
        destruct (Nat.eq_dec t (List.length run)) as [->|Hlt].
        { apply in_tier_last in Ht. right. split; [auto|]. destruct Htt as [-> |Et].
          - apply in_tier_last in Ht'. right. lia.
          - left. rewrite Hh. destruct run as [|x run _] using rev_ind; [discriminate|].
            assert (Hgoal : In j (last_tier (run ++ [x]))); [|destruct run; exact Hgoal].
            rewrite app_length in Et. cbn in Et. assert (t' = List.length run) by lia. subst t'.
            apply in_tier_app in Ht'; [|rewrite app_length; cbn; lia]. apply in_tier_last in Ht'.
            unfold last_tier. rewrite app_length. cbn [List.length]. replace (List.length run + 1 - 1) with (List.length run) by lia.
            rewrite tier_start_app. apply range_in. rewrite list_sum_app. cbn. lia. }
        { left. exists run. split.
          - split; auto. exists before, []. rewrite app_nil_r. auto.
          - split; auto. exists t, t'. split; [apply in_tier_app in Ht; [auto|lia]|]. split; [|auto]. apply in_tier_app in Ht'; [auto|lia]. }
Qed.

Lemma tiered_mesh_general sizes : exists g, new_tiered_full_mesh sizes = Ok g /\ List.length g = list_sum sizes /\
  forall i j, link g i j <-> exists run, tier_run sizes run /\ run_link run i j.
Proof.
  unfold new_tiered_full_mesh.
  destruct (foldM_pre add_tier (fun d st => gap_state (list_sum sizes) d st) sizes [] (repeat [] (list_sum sizes), [])) as (st & E & Hl & _ & Hk).
  - intros d s rest st Hd Hst. cbn in Hd. apply gap_step; auto. rewrite Hd, list_sum_app.
    change (list_sum (s :: rest)) with (s + list_sum rest). lia.
  - split; [apply repeat_length|]. split; [exists [], []; auto|]. cbn [fst]. intros i j. split.
    + intros (l & El & Hj). apply nth_error_In, repeat_spec in El. subst l. destruct Hj.
    + intros (r & (Hp & b & a & Er & _) & (_ & t & _ & [Ht _] & _)). symmetry in Er. apply app_eq_nil in Er. destruct Er as [_ Er]. apply app_eq_nil in Er.
      destruct Er as [-> _]. cbn in Ht. lia.
  - rewrite E. cbn [res_map bind]. exists (fst st). auto.
Qed.
