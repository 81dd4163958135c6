(** Symmetric clusters. *)
From Verif Require Export P_Graph.
Local Open Scope list_scope.

Lemma slice_mono (P P' : nat -> Prop) q : (forall x, P x -> P' x) -> slice P q -> slice P' q.
Proof.
  intro HP. induction q as [t vs is_ IH] using qset_ind'. intro H.
  inversion H; subst. eapply slice_intro; eauto. intros i Hi. apply IH; auto. eapply subseq_in; eauto.
Qed.

Section Counting.
Variable f : fbas.

Definition counted (q : qset) (x : nat) : bool := qset_eqb (qset_of f x) q && mem x (contained_nodes q).
Definition cnt (ids : list nat) (q : qset) : nat := List.length (filter (counted q) ids).
Definition goal_of (q : qset) : nat := len (contained_nodes q).

Lemma cnt_app a b q : cnt (a ++ b) q = cnt a q + cnt b q.
Proof. unfold cnt. rewrite filter_app, app_length. auto. Qed.

Definition occ_ok (done : list nat) (occ : list (qset * (nat * nat))) : Prop :=
  forall q, assoc qset_eqb q occ = if cnt done q =? 0 then None else Some (cnt done q, goal_of q).

Lemma qset_eqb_refl q : qset_eqb q q = true.
Proof. apply qset_eqb_eq. auto. Qed.

Lemma qset_eqb_neq q q' : q <> q' -> qset_eqb q q' = false.
Proof. intro H. apply not_true_iff_false. rewrite qset_eqb_eq. auto. Qed.

Lemma symmetric_loop_spec ids : forall done occ found, occ_ok done occ ->
  (forall q, In q (symmetric_loop f ids occ found) <->
     In q found \/ (cnt done q < goal_of q /\ goal_of q <= cnt done q + cnt ids q)) /\
  ((forall q, In q found -> goal_of q <= cnt done q) -> NoDup found -> NoDup (symmetric_loop f ids occ found)).
Proof.
  induction ids as [|x ids IH]; intros done occ found Hocc; cbn [symmetric_loop].
  - split; auto. intro q. unfold cnt at 3. simpl. split; auto. intros [H|H]; auto. lia.
  - set (q0 := qset_of f x).
    assert (Hcons : forall q, cnt (x :: ids) q = (if counted q x then 1 else 0) + cnt ids q).
    { intro q. unfold cnt. simpl. destruct (counted q x); auto. }
    assert (Hneq : forall q, q <> q0 -> counted q x = false).
    { intros q Hq. unfold counted. rewrite qset_eqb_neq; auto. }
    destruct (mem x (contained_nodes q0)) eqn:Em.
    + assert (Hq0 : counted q0 x = true).
      { unfold counted. fold q0. rewrite qset_eqb_refl, Em. auto. }
      assert (Hc : forall q, cnt (done ++ [x]) q = cnt done q + (if counted q x then 1 else 0)).
      { intro q. rewrite cnt_app. unfold cnt at 2. simpl. destruct (counted q x); auto. }
      assert (E : match assoc qset_eqb q0 occ with
                  | Some (counter, goal) => (S counter, goal)
                  | None => (1, len (contained_nodes q0)) end = (S (cnt done q0), goal_of q0)).
      { rewrite (Hocc q0). destruct (Nat.eqb_spec (cnt done q0) 0) as [->|]; auto. }
      rewrite E. cbv beta iota zeta.
      assert (Hocc' : occ_ok (done ++ [x]) ((q0, (S (cnt done q0), goal_of q0)) :: occ)).
      { intro q. simpl. rewrite Hc. destruct (qset_eqb q q0) eqn:Eq.
        - apply qset_eqb_eq in Eq. subst q. rewrite Hq0, Nat.add_1_r. auto.
        - rewrite Hneq; [|intros ->; rewrite qset_eqb_refl in Eq; discriminate]. rewrite Nat.add_0_r. apply Hocc. }
      destruct (IH (done ++ [x]) _ (if S (cnt done q0) =? goal_of q0 then found ++ [q0] else found) Hocc') as [H1 H2].
      split.
      * intro q. rewrite H1, Hcons, Hc.
        assert (Hin : In q (if S (cnt done q0) =? goal_of q0 then found ++ [q0] else found) <->
                  In q found \/ (q = q0 /\ S (cnt done q) = goal_of q)).
        { destruct (Nat.eqb_spec (S (cnt done q0)) (goal_of q0)) as [Eg|Eg].
          - rewrite in_app_iff. simpl. split.
            + intros [H|[H|[]]]; auto. subst q. auto.
            + intros [H|[-> H]]; auto.
          - split; auto. intros [H|[-> H]]; auto. congruence. }
        rewrite Hin. destruct (counted q x) eqn:Ec.
        -- assert (q = q0).
           { unfold counted in Ec. apply andb_true_iff in Ec. destruct Ec as [Ec _]. apply qset_eqb_eq in Ec. auto. }
           subst q. split.
           ++ intros [[H|[_ H]]|H]; auto; right; lia.
           ++ intros [H|H]; auto. destruct (Nat.eq_dec (S (cnt done q0)) (goal_of q0)); auto. right. lia.
        -- rewrite !Nat.add_0_r. simpl. split.
           ++ intros [[H|[-> H]]|H]; auto. congruence.
           ++ tauto.
      * intros Hf Hn. apply H2.
        -- intros q Hq. rewrite Hc. destruct (Nat.eqb_spec (S (cnt done q0)) (goal_of q0)) as [Eg|Eg].
           ++ apply in_app_iff in Hq. destruct Hq as [Hq|[Hq|[]]]; [specialize (Hf q Hq); lia|].
              subst q. rewrite Hq0. lia.
           ++ specialize (Hf q Hq). lia.
        -- destruct (Nat.eqb_spec (S (cnt done q0)) (goal_of q0)) as [Eg|Eg]; auto.
           apply NoDup_app_intro; auto. { constructor; auto. constructor. }
           intros q Hq [<-|[]]. specialize (Hf q0 Hq). lia.
    + assert (Hq0 : forall q, counted q x = false).
      { intro q. destruct (qset_eqb q0 q) eqn:Eq; [|unfold counted; fold q0; rewrite Eq; auto].
        apply qset_eqb_eq in Eq. subst q. unfold counted. rewrite Em. apply andb_false_r. }
      destruct (IH done occ found Hocc) as [H1 H2]. split; auto.
      intro q. rewrite H1, Hcons, Hq0. simpl. tauto.
Qed.

Lemma find_symmetric_in_set_iff s q : In q (find_symmetric_clusters_in_node_set s f) <->
  (exists x, mentions x q) /\ forall x, mentions x q -> mem x s = true /\ qset_of f x = q.
Proof.
  unfold find_symmetric_clusters_in_node_set.
  destruct (symmetric_loop_spec (elements s) [] [] []) as [H _]; [intro; reflexivity|].
  rewrite H. change (cnt [] q) with 0. simpl.
  set (l := filter (counted q) (elements s)).
  assert (Hl : forall x, In x l <-> mem x s = true /\ qset_of f x = q /\ mentions x q).
  { intro x. unfold l. rewrite filter_In, elements_spec. unfold counted.
    rewrite andb_true_iff, qset_eqb_eq, contained_nodes_spec. tauto. }
  assert (Nl : NoDup l) by (apply NoDup_filter, elements_nodup).
  assert (Hi : incl l (elements (contained_nodes q))).
  { intros x Hx. apply Hl in Hx. apply elements_spec, contained_nodes_spec. tauto. }
  unfold cnt. fold l. unfold goal_of. rewrite len_elements. split.
  - intros [[]|[H1 H2]]. split.
    + destruct (elements (contained_nodes q)) as [|x e] eqn:Ee; [simpl in H1; lia|]. exists x.
      apply contained_nodes_spec, elements_spec. rewrite Ee. left; auto.
    + intros x Hx. assert (Hx' : In x l); [|apply Hl in Hx'; tauto].
      apply (NoDup_length_incl Nl H2 Hi). apply elements_spec, contained_nodes_spec. auto.
  - intros [(x & Hx) Hall]. right. split.
    + apply contained_nodes_spec, elements_spec in Hx. destruct (elements (contained_nodes q)); [destruct Hx|simpl; lia].
    + apply NoDup_incl_length; [apply elements_nodup|]. intros y Hy. apply elements_spec, contained_nodes_spec in Hy.
      apply Hl. destruct (Hall y Hy). auto.
Qed.

Lemma find_symmetric_in_set_nodup s : NoDup (find_symmetric_clusters_in_node_set s f).
Proof.
  unfold find_symmetric_clusters_in_node_set.
  destruct (symmetric_loop_spec (elements s) [] [] []) as [_ H]; [intro; reflexivity|].
  apply H; [intros q []|constructor].
Qed.
End Counting.

Section Clusters.
Variable E : ext.
Hypothesis HE : ext_ok E.
Variable f : fbas.
Hypothesis Hwf : wf_fbas f.

(** what a symmetric set of nodes trusts stays inside *)
Lemma symmetric_reach q x y : (forall z, mentions z q -> qset_of f z = q) -> mentions x q ->
  trusts_transitively f x y -> mentions y q.
Proof.
  intros Hq Hx Hr. apply clos_rt_rtn1 in Hr. induction Hr as [|y z (q' & Hyq & Hz) Hr IH]; auto.
  apply node_of_qset_of in Hyq. rewrite Hq in Hyq by auto. congruence.
Qed.

Lemma symmetric_cluster_is_cluster c q : In c (consensus_clusters E f) -> In q (find_symmetric_clusters_in_node_set c f) ->
  contained_nodes q = c.
Proof.
  intros Hc Hq. apply find_symmetric_in_set_iff in Hq. destruct Hq as [(x & Hx) Hall]. apply incl_antisym.
  - intros y Hy. apply contained_nodes_spec in Hy. apply Hall; auto.
  - intros y Hy. apply contained_nodes_spec.
    assert (Hxc : mem x c = true) by (apply Hall; auto).
    apply (cluster_class E HE f Hwf c x y Hc Hxc) in Hy. destruct Hy as [_ [Hy _]].
    eapply symmetric_reach; eauto. intros z Hz. apply Hall; auto.
Qed.

Lemma find_symmetric_cluster_cases c : In c (consensus_clusters E f) ->
  (find_symmetric_cluster_in_consensus_cluster c f = Ok None /\
     forall q, ~ ((exists x, mentions x q) /\ forall x, mentions x q -> mem x c = true /\ qset_of f x = q)) \/
  exists q, find_symmetric_cluster_in_consensus_cluster c f = Ok (Some q) /\ find_symmetric_clusters_in_node_set c f = [q] /\
    contained_nodes q = c /\ forall x, mem x c = true -> qset_of f x = q.
Proof.
  intro Hc. unfold find_symmetric_cluster_in_consensus_cluster.
  assert (Hiff := find_symmetric_in_set_iff f c). assert (Hnd := find_symmetric_in_set_nodup f c).
  assert (Hcl := symmetric_cluster_is_cluster c).
  destruct (find_symmetric_clusters_in_node_set c f) as [|q rest] eqn:Ef.
  - left. split; auto. intros q Hq. apply Hiff in Hq. destruct Hq.
  - right. exists q. assert (Hq : contained_nodes q = c) by (apply Hcl; simpl; auto).
    assert (Hall : forall x, mem x c = true -> qset_of f x = q).
    { intros x Hx. destruct (Hiff q) as [H _]. destruct (H (or_introl eq_refl)) as [_ H']. apply H'.
      apply contained_nodes_spec. rewrite Hq. auto. }
    assert (Hr : rest = []).
    { destruct rest as [|q' rest]; auto. exfalso. inversion Hnd as [|? ? Hn _]; subst. apply Hn. left.
      destruct (Hiff q') as [H _]. destruct H as [(x & Hx) H']; [right; left; auto|].
      destruct (H' x Hx) as [Hxc E']. symmetry. rewrite <- E'. symmetry. apply Hall. auto. }
    subst rest. rewrite Hq, beq_refl. simpl. auto.
Qed.

Lemma find_symmetric_clusters_iff : exists l, find_symmetric_clusters E f = Ok l /\ NoDup l /\
  forall q, In q l <-> satisfiable_cluster f q.
Proof.
  unfold find_symmetric_clusters, find_sets, symmetric_clusters_finder. eexists. split; [reflexivity|]. split.
  - apply NoDup_flat_map.
    + apply clusters_nodup; auto.
    + intros c _. apply find_symmetric_in_set_nodup.
    + intros c d q Hc Hd Hqc Hqd. rewrite <- (symmetric_cluster_is_cluster c q Hc Hqc).
      apply symmetric_cluster_is_cluster; auto.
  - intro q. rewrite in_flat_map. split.
    + intros (c & Hc & Hq). assert (Ec := symmetric_cluster_is_cluster c q Hc Hq).
      apply find_symmetric_in_set_iff in Hq. destruct Hq as [Hex Hall]. split.
      * split; auto. intros x Hx. destruct (Hall x Hx) as [H1 H2]. rewrite <- H2. apply qset_of_node.
        apply mem_all_nodes. eapply cluster_nodes; eauto.
      * destruct (cluster_quorum E f c Hc) as (Q & [HQ _] & Hi). apply quorum_closed in HQ.
        destruct HQ as [(x & Hx) Hcl]. specialize (Hcl x Hx). unfold sat in Hcl.
        destruct (Hall x) as [_ Eq]. { apply contained_nodes_spec. rewrite Ec. auto. }
        rewrite Eq in Hcl. apply (is_quorum_slice_mono _ _ c Hi) in Hcl. apply is_quorum_slice_iff in Hcl.
        rewrite <- Ec in Hcl. apply is_quorum_slice_iff in Hcl.
        assert (Hcl' := proj1 (is_quorum_slice_iff _ _) Hcl). clear Hcl.
        eapply slice_mono; [|exact Hcl']. intros y Hy. apply contained_nodes_spec. auto.
    + intros [[(x & Hx) Hall] Hs].
      assert (Hall' : forall z, mentions z q -> qset_of f z = q) by (intros; apply node_of_qset_of; auto).
      assert (Hsl : is_quorum_slice q (contained_nodes q) = true).
      { apply is_quorum_slice_iff.
        eapply slice_mono; [|exact Hs]. intros y Hy. apply contained_nodes_spec. auto. }
      assert (Hc : closed f (contained_nodes q)).
      { intros y Hy. unfold sat. rewrite Hall'; auto. apply contained_nodes_spec; auto. }
      assert (Hsat : incl_set (contained_nodes q) (satisfiable_nodes f)) by (apply satisfiable_nodes_spec; auto).
      destruct (parts_cover E HE f Hwf (satisfiable_nodes f) x) as (c & Hcin & Hxc).
      { apply satisfiable_in_nodes. } { apply Hsat, contained_nodes_spec. auto. }
      assert (Hi : incl_set (contained_nodes q) c).
      { intros y Hy. apply (parts_class E HE f Hwf _ c x y (satisfiable_in_nodes f) Hcin Hxc). split; auto.
        apply contained_nodes_spec in Hy. split; apply rt_step; exists q; auto. }
      exists c. split.
      * apply cluster_in. split; auto. apply contains_quorum_iff. exists (contained_nodes q). split; auto.
        apply quorum_closed. split; auto. exists x. apply contained_nodes_spec. auto.
      * apply find_symmetric_in_set_iff. split; [eauto|]. intros y Hy. split; auto. apply Hi, contained_nodes_spec; auto.
Qed.

Lemma found_cluster_satisfiable c q : In c (consensus_clusters E f) -> find_symmetric_clusters_in_node_set c f = [q] ->
  satisfiable_cluster f q.
Proof.
  intros Hc Ef. destruct find_symmetric_clusters_iff as (l & El & _ & Hl). apply Hl.
  unfold find_symmetric_clusters, find_sets, symmetric_clusters_finder in El. inversion El; subst l.
  apply in_flat_map. exists c. split; auto. rewrite Ef. left; auto.
Qed.
End Clusters.
