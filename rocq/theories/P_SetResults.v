(** Lemmas about results that are a single set of nodes. *)
From Verif Require Export P_ThGroupings.
Local Open Scope list_scope.

Lemma set_without ids : forall s x, mem x (sr_without_nodes s ids) = true <-> mem x s = true /\ ~ In x ids.
Proof.
  unfold sr_without_nodes. induction ids as [|i ids IH]; intros s x; cbn [fold_left]; [intuition|].
  rewrite IH, mem_remove, andb_true_iff, negb_true_iff, Nat.eqb_neq. simpl. intuition.
Qed.

Lemma set_without_by_name f gs s names : keys_ok f ->
  (forall x, mem x (sr_without_nodes_pretty s names f None) = true <-> mem x s = true /\ ~ exists name, In name names /\ meant_by f [] name x) /\
  (forall G, groupings_new gs f = Ok G ->
   forall x, mem x (sr_without_nodes_pretty s names f (Some G)) = true <-> mem x s = true /\ ~ exists name, In name names /\ meant_by f gs name x).
Proof.
  intro Hk. unfold sr_without_nodes_pretty, ids_of_names. split.
  - intros x. rewrite set_without, from_public_keys_spec by auto. unfold meant_by. apply and_iff_compat_l. apply not_iff_compat. split.
    + intros (n & Hn & Hi). exists (node_pk n). split; auto. right. split; [intros ? []|]. eauto.
    + intros (name & Hn & [(pre & g & post & E & _)|(_ & n & Hnn & <-)]); [destruct pre; discriminate|]. eauto.
  - intros G EG x. rewrite set_without, (from_grouping_names_spec names f gs G x Hk EG). tauto.
Qed.

Lemma set_into_vec s : StronglySorted lt (sr_into_vec s) /\ forall x, In x (sr_into_vec s) <-> mem x s = true.
Proof. unfold sr_into_vec. split; [apply elements_sorted|]. intro x. apply elements_spec. Qed.
