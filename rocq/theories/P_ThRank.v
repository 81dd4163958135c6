(** Statements of [Th_Rank.v]. *)
From Coq Require Import ZArith Lia.
From Verif Require Import P_List P_QuorumSet P_SimGraph P_Epsilon.
From Verif Require Export P_PageRank Spec_Rank P_ThSimulation Examples.
Local Open Scope list_scope.
Local Open Scope nat_scope.

Lemma graph_scores_spec g : wf_graph g -> no_repeated_links g -> let n := List.length g in
  exists r, 1 <= r <= Nat.max (2 * n) 1000 /\ get_rank_scores g = Ok (map (graph_score g r) (seq 0 n)) /\
    (forall t, S t < r -> ~ settled g (rank_epsilon n) t) /\ (r < Nat.max (2 * n) 1000 -> settled g (rank_epsilon n) (r - 1)).
Proof. intros Hw Hd. cbv zeta. rewrite <- rank_epsilon_max. exact (rank_scores_spec g Hw Hd). Qed.
Lemma fbas_scores_spec f ids trusted : wf_fbas f -> NoDup ids -> (forall x, In x ids -> x < number_of_nodes f) -> trusted_in f trusted ->
  let start := fdiv (f64_of_nat 1) (f64_of_nat (List.length ids)) in
  rank_nodes ids f = Ok (map (score_after 100 trusted ids (fun j => existsb (Nat.eqb j) ids) start) (seq 0 (number_of_nodes f))).
Proof. exact (rank_nodes_spec f ids trusted). Qed.
Lemma trusted_exists f : exists trusted, trusted_in f trusted.
Proof.
  exists (fun i => match nth_error (nodes f) i with Some n => elements (contained_nodes (node_qset n)) | None => [] end).
  intros i q (n & En & <-). rewrite En. split; [apply elements_sorted|]. intros x. rewrite elements_spec. apply contained_nodes_spec.
Qed.
(** nodes that no ranked node trusts, and nodes that are not ranked, have score 0 *)
Lemma untrusted_zero f ids : wf_fbas f -> NoDup ids -> (forall x, In x ids -> x < number_of_nodes f) ->
  exists scores, rank_nodes ids f = Ok scores /\ forall j, j < number_of_nodes f ->
    (~ In j ids \/ forall i q, In i ids -> node_of f i q -> ~ mentions j q) -> nth_error scores j = Some fzero.
Proof.
  intros Hw Hd Hi. destruct (trusted_exists f) as [trusted Ht]. eexists. split; [apply (rank_nodes_spec f ids trusted); auto|].
  intros j Hj H. rewrite nth_error_map, (nth_error_some_nth (seq 0 (number_of_nodes f)) j 0) by (rewrite seq_length; auto). cbn [option_map]. rewrite seq_nth by auto. f_equal. cbn [Nat.add].
  cbn [score_after]. destruct (existsb (Nat.eqb j) ids) eqn:E; auto. apply existsb_eqb_In in E. destruct H as [H|H]; [tauto|].
  unfold trusting. replace (filter _ ids) with (@nil nat); auto. destruct (filter (fun i => existsb (Nat.eqb j) (trusted i)) ids) as [|i l] eqn:Ef; auto. exfalso. assert (Hin : In i (filter (fun i => existsb (Nat.eqb j) (trusted i)) ids)) by (rewrite Ef; left; auto). apply filter_In in Hin. destruct Hin as [Hin He].
  apply existsb_eqb_In in He. pose proof (Hi i Hin) as Hlt. destruct (nth_error (nodes f) i) as [n|] eqn:En; [|apply nth_error_None in En; unfold number_of_nodes in Hlt; lia].
  apply (H i (node_qset n) Hin); [exists n; auto|]. apply (proj2 (Ht i (node_qset n) (ex_intro _ n (conj En eq_refl)))). auto.
Qed.
