(** Concrete FBASs used to show that hypotheses of theorems can be met. *)
From Verif Require Export P_Misc.
Local Open Scope list_scope.

(** an FBAS with generic keys and the given quorum sets *)
Definition sample (l : list qset) : fbas :=
  match build_all fbas_new (map B_add_generic_node l) with Ok f => f | Panic => fbas_new end.

Definition wfb (f : fbas) : bool :=
  forallb (fun n => forallb (fun y => y <? number_of_nodes f) (contained_nodes_with_duplicates (node_qset n))) (nodes f).
Lemma wfb_ok f : wfb f = true -> wf_fbas f.
Proof.
  unfold wfb. rewrite forallb_forall. intros H x q y (n & Hn & <-) Hm. apply nth_error_In in Hn.
  specialize (H n Hn). rewrite forallb_forall in H. apply Nat.ltb_lt, H, contained_list_spec; auto.
Qed.

(** three nodes with a 2-of-3 quorum set and an observer *)
Definition flat := sample [QS 2 [0;1;2] []; QS 2 [0;1;2] []; QS 2 [0;1;2] []; QS 2 [0;3] []].
(** a cluster that is not symmetric, a symmetric one and an unsatisfiable node *)
Definition mixed := sample [QS 1 [1] []; QS 2 [0;1] []; QS 2 [2;3] []; QS 2 [2;3] []; QS 4 [0;1;2] []].
(** nested: two of three organizations with two nodes each, 1 of 2 per organization, plus a node *)
Definition org a b := QS 1 [a;b] [].
Definition orgs := QS 2 [6] [org 0 1; org 2 3; org 4 5].
Definition nested := sample [orgs; orgs; orgs; orgs; orgs; orgs; orgs].

Lemma flat_wf : wf_fbas flat. Proof. apply wfb_ok. vm_compute. reflexivity. Qed.
Lemma mixed_wf : wf_fbas mixed. Proof. apply wfb_ok. vm_compute. reflexivity. Qed.
Lemma nested_wf : wf_fbas nested. Proof. apply wfb_ok. vm_compute. reflexivity. Qed.

(** readable results *)
Definition show (r : res (list bset)) : res (list (list nat)) := res_map (map elements) r.

(** a decision procedure for the condition of the blocking set theorem *)
Fixpoint saneb (q : qset) : bool :=
  let 'QS t vs is_ := q in (1 <=? t) && (t <=? List.length vs + List.length is_) && forallb saneb is_.
Lemma saneb_ok q : saneb q = true -> sane q.
Proof.
  induction q as [t vs is_ IH] using qset_ind'. cbn [saneb]. rewrite !andb_true_iff, forallb_forall, !Nat.leb_le.
  intros [[H1 H2] H3]. constructor; auto.
Qed.
Definition goodb (f : fbas) : bool :=
  forallb (fun n => saneb (node_qset n) && negb (contains_duplicates (node_qset n))) (nodes f).
Lemma goodb_ok f : goodb f = true -> forall x q, node_of f x q -> no_repetitions q /\ sane q.
Proof.
  unfold goodb. rewrite forallb_forall. intros H x q (n & Hn & <-). apply nth_error_In in Hn. specialize (H n Hn).
  apply andb_true_iff in H. destruct H as [H1 H2]. apply negb_true_iff, contains_duplicates_false in H2.
  split; [apply no_repetitions_nodup|apply saneb_ok]; auto.
Qed.
Lemma good_clusters f : (forall x q, node_of f x q -> no_repetitions q /\ sane q) ->
  forall q, satisfiable_cluster f q -> no_repetitions q /\ sane q.
Proof. intros H q [[(x & Hx) Hall] _]. eapply H; eauto. Qed.
Lemma has_quorum f S : is_quorum f S = true -> exists Q, quorum f Q.
Proof. exists S. apply is_quorum_iff. auto. Qed.
