(** Proofs about rank scores. *)
From Coq Require Import ZArith Lia.
From Verif Require Import Spec_Rank P_List P_SimGraph P_Mesh P_Float P_Rank P_QuorumSet P_GraphQsc.
Local Open Scope list_scope.
Local Open Scope nat_scope.

Definition tab (n : nat) (h : nat -> f64) : list f64 := map h (seq 0 n).
Lemma tab_length n h : List.length (tab n h) = n. Proof. unfold tab. rewrite map_length, seq_length. auto. Qed.
Lemma nth_error_tab n h i : nth_error (tab n h) i = if i <? n then Some (h i) else None.
Proof.
  unfold tab. destruct (Nat.ltb_spec i n) as [H|H].
  - rewrite nth_error_map, (nth_error_some_nth (seq 0 n) i 0) by (rewrite seq_length; auto). cbn. rewrite seq_nth; auto.
  - apply nth_error_None. rewrite map_length, seq_length. auto.
Qed.
Lemma list_ext_nth {A} (l l' : list A) : (forall i, nth_error l i = nth_error l' i) -> l = l'.
Proof.
  revert l'. induction l as [|x l IH]; intros [|y l'] H; auto; [specialize (H 0); discriminate|specialize (H 0); discriminate|].
  pose proof (H 0) as H0. cbn in H0. injection H0 as ->. f_equal. apply IH. intros i. apply (H (S i)).
Qed.
Lemma tab_ext n h h' : (forall i, i < n -> h i = h' i) -> tab n h = tab n h'.
Proof. intros H. apply map_ext_in. intros i Hi. apply in_seq in Hi. apply H. lia. Qed.
Lemma tab_repeat n c : repeat c n = tab n (fun _ => c).
Proof. unfold tab. generalize 0. induction n as [|n IH]; intros a; cbn; auto. f_equal. auto. Qed.
Lemma update_tab n h i x : i < n -> update i x (tab n h) = tab n (fun j => if j =? i then x else h j).
Proof.
  intros Hi. apply list_ext_nth. intros j. rewrite nth_error_update, tab_length, !nth_error_tab.
  destruct (Nat.eqb_spec j i) as [->|Hne]; cbn [andb]; auto.
  rewrite (proj2 (Nat.ltb_lt i n) Hi). auto.
Qed.

(** giving the share [s] to the members of a list *)
Lemma give_ok n s (step : list f64 -> nat -> res (list f64)) :
  (forall h j, j < n -> step (tab n h) j = Ok (tab n (fun x => if x =? j then fadd (h j) s else h x))) ->
  forall l h, NoDup l -> (forall j, In j l -> j < n) ->
  foldM step (tab n h) l = Ok (tab n (fun x => if existsb (Nat.eqb x) l then fadd (h x) s else h x)).
Proof.
  intros Hstep. induction l as [|j l IH]; intros h Hd Hr; cbn [foldM existsb]; [auto|].
  inversion Hd; subst. rewrite Hstep by (apply Hr; left; auto). cbn [bind]. rewrite IH by (auto; intros; apply Hr; right; auto). f_equal.
  apply tab_ext. intros x _. destruct (Nat.eqb_spec x j) as [->|Hne]; cbn [orb]; [|destruct (Nat.eqb_spec j x); [congruence|]; auto].
  destruct (existsb (Nat.eqb j) l) eqn:E; auto. apply existsb_exists in E. destruct E as (y & Hy & Ey). apply Nat.eqb_eq in Ey. subst. tauto.
Qed.
(** all nodes of a list give *)
Lemma round_ok n (trusted : nat -> list nat) (counted : nat -> bool) (give : nat -> f64) (step : list f64 -> nat -> res (list f64)) :
  (forall h i, i < n -> step (tab n h) i = Ok (tab n (fun x => if counted x && existsb (Nat.eqb x) (trusted i) then fadd (h x) (give i) else h x))) ->
  forall l h, (forall i, In i l -> i < n) ->
  foldM step (tab n h) l = Ok (tab n (fun x => if counted x then fold_left fadd (map give (trusting trusted l x)) (h x) else h x)).
Proof.
  intros Hstep. induction l as [|i l IH]; intros h Hr; cbn [foldM].
  - f_equal. apply tab_ext. intros x _. cbn. destruct (counted x); auto.
  - rewrite Hstep by (apply Hr; left; auto). cbn [bind]. rewrite IH by (intros; apply Hr; right; auto). f_equal.
    apply tab_ext. intros x _. unfold trusting. cbn [filter]. destruct (counted x); cbn [andb]; auto.
    destruct (existsb (Nat.eqb x) (trusted i)); cbn [map fold_left]; auto.
Qed.

(** ** graphs *)
Definition gtrusted (g : graph) (i : nat) : list nat := nth i g [].
Lemma graph_run_spec g last : wf_graph g -> no_repeated_links g ->
  graph_rank_run g (tab (List.length g) last) = Ok (tab (List.length g) (fun j => sum_of (map (share (gtrusted g) last) (trusting (gtrusted g) (seq 0 (List.length g)) j)))).
Proof.
  intros Hw Hd. set (n := List.length g).
  assert (E : forall A (step : list f64 -> nat * list nat -> res (list f64)) (a : list f64), (forall a b, step a b = step a b) -> A ->
     foldM step a (enumerate g) = foldM (fun a i => step a (i, nth i g [])) a (seq 0 n)).
  { intros A step a _ _. unfold enumerate, n. clear. revert a.
    assert (G : forall g0 b a, (forall i, i < List.length g0 -> nth (b + i) g [] = nth i g0 []) ->
      foldM step a (combine (seq b (List.length g0)) g0) = foldM (fun a i => step a (i, nth i g [])) a (seq b (List.length g0))).
    { induction g0 as [|r g0 IH]; intros b a H; cbn [List.length seq combine foldM]; auto.
      pose proof (H 0 ltac:(cbn; lia)) as H0. rewrite Nat.add_0_r in H0. cbn in H0. rewrite H0. destruct (step a (b, r)); cbn [bind]; auto.
      apply IH. intros i Hi. rewrite Nat.add_succ_comm. rewrite H by (cbn; lia). auto. }
    intros a. apply G. intros. auto. }
  unfold graph_rank_run. rewrite (E True) by auto. fold n. rewrite tab_repeat.
  rewrite (round_ok n (gtrusted g) (fun _ => true) (share (gtrusted g) last)).
  - f_equal.
  - intros h i Hi. cbn [andb]. fold (gtrusted g i). apply give_ok.
    + intros h' j Hj. rewrite !nth_error_tab. destruct (Nat.ltb_spec i n); [|lia]. destruct (Nat.ltb_spec j n); [|lia]. cbn [unwrap bind].
      rewrite set_at_ok by (rewrite tab_length; auto). rewrite update_tab; auto.
    + apply no_repeated_nth. auto.
    + intros j Hj. apply (Hw i). exists (gtrusted g i). split; auto. apply nth_error_some_nth. auto.
  - intros i Hi. apply in_seq in Hi. lia.
Qed.
Lemma score_step g k j : graph_score g (S k) j = sum_of (map (share (gtrusted g) (graph_score g k)) (trusting (gtrusted g) (seq 0 (List.length g)) j)).
Proof. reflexivity. Qed.
Lemma settled_iff g eps k : forallb (fun '(x, y) => fltb (fabs (fsub x y)) eps) (combine (tab (List.length g) (graph_score g (S k))) (tab (List.length g) (graph_score g k))) = true <->
  settled g eps k.
Proof.
  unfold settled, tab. rewrite forallb_forall. split; intros H.
  - intros j Hj. apply (H (_, _)). assert (Hin : In j (seq 0 (List.length g))) by (apply in_seq; lia). revert Hin. generalize (seq 0 (List.length g)).
    induction l as [|a l IH]; cbn; [tauto|]. intros [->|Hin]; [left; auto|right; auto].
  - intros [x y] Hin. assert (G : exists j, In j (seq 0 (List.length g)) /\ x = graph_score g (S k) j /\ y = graph_score g k j).
    { revert Hin. generalize (seq 0 (List.length g)). induction l as [|a l IH]; cbn [map combine In]; [tauto|]. intros [E|Hin].
      - injection E as <- <-. exists a. auto.
      - destruct (IH Hin) as (j & Hj & E). exists j. auto. }
    destruct G as (j & Hj & -> & ->). apply H. apply in_seq in Hj. lia.
Qed.
Lemma graph_runs_spec g eps : wf_graph g -> no_repeated_links g -> forall fuel k,
  exists r, r <= fuel /\ (0 < fuel -> 0 < r) /\ graph_rank_runs fuel g eps (tab (List.length g) (graph_score g k)) = Ok (tab (List.length g) (graph_score g (k + r))) /\
    (forall t, S t < r -> ~ settled g eps (k + t)) /\ (0 < r -> r < fuel -> settled g eps (k + r - 1)).
Proof.
  intros Hw Hd. induction fuel as [|fuel IH]; intros k; cbn [graph_rank_runs].
  - exists 0. rewrite Nat.add_0_r. repeat split; auto; lia.
  - rewrite graph_run_spec by auto. cbn [bind]. change (fun j => sum_of (map (share (gtrusted g) (graph_score g k)) (trusting (gtrusted g) (seq 0 (List.length g)) j))) with (graph_score g (S k)).
    destruct (forallb _ _) eqn:E.
    + apply settled_iff in E. exists 1. rewrite Nat.add_1_r. split; [lia|]. split; [lia|]. split; [auto|]. split; [intros; lia|]. intros _ _. replace (S k - 1) with k by lia. auto.
    + assert (Hn : ~ settled g eps k) by (rewrite <- settled_iff; congruence).
      destruct (IH (S k)) as (r & H1 & H2 & H3 & H4 & H5). exists (S r). split; [lia|]. split; [lia|].
      split; [rewrite H3; replace (k + S r) with (S k + r) by lia; auto|]. split.
      * intros [|t] Ht; [rewrite Nat.add_0_r; auto|]. rewrite <- Nat.add_succ_comm. apply H4. lia.
      * intros _ Hr. replace (k + S r - 1) with (S k + r - 1) by lia. apply H5; [|lia]. apply H2. lia.
Qed.
Lemma rank_scores_spec g : wf_graph g -> no_repeated_links g ->
  let n := List.length g in
  let epsilon := fmax (fdiv (fdiv (f64_of_nat 1) (f64_of_nat n)) (f64_of_nat n)) (fdiv (f64_of_nat 1) (f64_of_Z 100000)) in
  exists r, 1 <= r <= Nat.max (2 * n) 1000 /\ get_rank_scores g = Ok (map (graph_score g r) (seq 0 n)) /\
    (forall t, S t < r -> ~ settled g epsilon t) /\ (r < Nat.max (2 * n) 1000 -> settled g epsilon (r - 1)).
Proof.
  intros Hw Hd n eps. unfold get_rank_scores. fold n. fold eps. rewrite tab_repeat.
  destruct (graph_runs_spec g eps Hw Hd (Nat.max (2 * n) 1000) 0) as (r & H1 & H2 & H3 & H4 & H5).
  assert (0 < Nat.max (2 * n) 1000) by lia. exists r. split; [split; auto; apply H2; auto|].
  split; [exact H3|]. split; [exact H4|]. intros Hr. apply H5; auto.
Qed.

(** ** FBASs *)
Lemma existsb_eqb_In x l : existsb (Nat.eqb x) l = true <-> In x l.
Proof. rewrite existsb_exists. split; [intros (y & Hy & E); apply Nat.eqb_eq in E; subst; auto|]. intros H. exists x. rewrite Nat.eqb_refl. auto. Qed.
Lemma trusted_eq f trusted i q : trusted_in f trusted -> node_of f i q -> trusted i = elements (contained_nodes q).
Proof.
  intros Ht Hq. apply (ascending_unique (fun x => mentions x q)); [apply Ht; auto|]. split; [apply elements_sorted|].
  intros x. rewrite elements_spec. apply contained_nodes_spec.
Qed.
Lemma rank_run_spec f ids trusted last : wf_fbas f -> (forall x, In x ids -> x < number_of_nodes f) -> trusted_in f trusted ->
  let n := number_of_nodes f in
  rank_run f ids (of_list ids) (tab n last) =
    Ok (tab n (fun j => if existsb (Nat.eqb j) ids then sum_of (map (share trusted last) (trusting trusted ids j)) else fzero)).
Proof.
  intros Hw Hi Ht n. unfold rank_run. rewrite tab_repeat. fold n.
  rewrite (round_ok n trusted (fun j => existsb (Nat.eqb j) ids) (share trusted last)); auto.
  intros h i Hin. unfold rank_node. destruct (nth_error (nodes f) i) as [nd|] eqn:En; [|apply nth_error_None in En; unfold n, number_of_nodes in Hin; lia].
  cbn [unwrap bind]. assert (Hq : node_of f i (node_qset nd)) by (exists nd; auto).
  pose proof (trusted_eq f trusted i _ Ht Hq) as Et.
  rewrite (give_ok n (share trusted last i)).
  - f_equal. apply tab_ext. intros x Hx. rewrite <- Et.
    assert (E : existsb (Nat.eqb x) (filter (fun id => mem id (of_list ids)) (trusted i)) = existsb (Nat.eqb x) ids && existsb (Nat.eqb x) (trusted i)).
    { apply eq_true_iff_eq. rewrite andb_true_iff, !existsb_eqb_In, filter_In, mem_of_list. tauto. }
    rewrite E. auto.
  - intros h' j Hj. rewrite nth_error_tab. destruct (Nat.ltb_spec i n); [|lia]. cbn [unwrap bind]. unfold score_add.
    rewrite nth_error_tab. destruct (Nat.ltb_spec j n); [|lia]. cbn [unwrap bind]. rewrite update_tab by auto.
    unfold share. rewrite Et, <- len_elements. auto.
  - apply NoDup_filter. apply elements_nodup.
  - intros j Hj. apply filter_In in Hj. destruct Hj as [Hj _]. rewrite elements_spec, contained_nodes_spec in Hj. eapply Hw; eauto.
Qed.
Lemma rank_nodes_spec f ids trusted : wf_fbas f -> NoDup ids -> (forall x, In x ids -> x < number_of_nodes f) -> trusted_in f trusted ->
  rank_nodes ids f = Ok (map (score_after 100 trusted ids (fun j => existsb (Nat.eqb j) ids) (fdiv (f64_of_nat 1) (f64_of_nat (List.length ids)))) (seq 0 (number_of_nodes f))).
Proof.
  intros Hw Hd Hi Ht. unfold rank_nodes. rewrite (proj2 (Nat.eqb_eq _ _)).
  2:{ symmetry. apply len_of_list. auto. }
  cbn [assert]. rewrite tab_repeat. set (start := fdiv _ _). fold (tab (number_of_nodes f) (score_after 100 trusted ids (fun j => existsb (Nat.eqb j) ids) start)).
  assert (G : forall m k, rank_runs m f ids (of_list ids) (tab (number_of_nodes f) (score_after k trusted ids (fun j => existsb (Nat.eqb j) ids) start)) =
     Ok (tab (number_of_nodes f) (score_after (m + k) trusted ids (fun j => existsb (Nat.eqb j) ids) start))).
  { induction m as [|m IH]; intros k; cbn [rank_runs]; auto. rewrite (rank_run_spec f ids trusted) by auto. cbn [bind].
    change (fun j => if existsb (Nat.eqb j) ids then sum_of (map (share trusted (score_after k trusted ids (fun j0 => existsb (Nat.eqb j0) ids) start)) (trusting trusted ids j)) else fzero)
      with (score_after (S k) trusted ids (fun j => existsb (Nat.eqb j) ids) start). rewrite IH. rewrite Nat.add_succ_r. auto. }
  exact (G 100 0).
Qed.
