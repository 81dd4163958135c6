(** Reachability, strongly connected components, consensus clusters. *)
From Verif Require Export P_Quorum.
Local Open Scope list_scope.

Lemma mem_expand succ s y : mem y (expand succ s) = true <-> mem y s = true \/ exists x, mem x s = true /\ In y (succ x).
Proof.
  unfold expand. rewrite mem_union, orb_true_iff, mem_of_list, in_flat_map. split.
  - intros [H|(x & Hx & H)]; auto. right. exists x. rewrite elements_spec in Hx. auto.
  - intros [H|(x & Hx & H)]; auto. right. exists x. rewrite elements_spec. auto.
Qed.

Definition succ_closed (succ : nat -> list nat) (s : bset) : Prop :=
  forall x y, mem x s = true -> In y (succ x) -> mem y s = true.

Lemma closure_from_incl n succ : forall s, incl_set s (closure_from n succ s).
Proof.
  induction n as [|n IH]; intros s x Hx; simpl; auto. apply IH. apply mem_expand. auto.
Qed.

Lemma closure_from_sound n succ : forall s y, mem y (closure_from n succ s) = true ->
  exists x, mem x s = true /\ reaches succ x y.
Proof.
  induction n as [|n IH]; intros s y Hy; simpl in Hy.
  - exists y. split; auto. apply rt_refl.
  - apply IH in Hy. destruct Hy as (x & Hx & Hr). apply mem_expand in Hx. destruct Hx as [Hx|(z & Hz & Hx)].
    + eauto.
    + exists z. split; auto. eapply rt_trans; [apply rt_step; exact Hx|exact Hr].
Qed.

Lemma expand_fix succ s : succ_closed succ s -> expand succ s = s.
Proof.
  intro H. apply incl_antisym.
  - intros y Hy. apply mem_expand in Hy. destruct Hy as [Hy|(x & Hx & Hy)]; eauto.
  - intros y Hy. apply mem_expand. auto.
Qed.

Lemma closure_from_fix n succ s : succ_closed succ s -> closure_from n succ s = s.
Proof. intro H. induction n as [|n IH]; simpl; auto. rewrite expand_fix; auto. Qed.

Lemma closure_from_grow n succ : forall s, succ_closed succ (closure_from n succ s) \/ len s + n <= len (closure_from n succ s).
Proof.
  induction n as [|n IH]; intros s; simpl; [right; lia|].
  destruct (bset_eq_dec (expand succ s) s) as [E|E].
  - left. assert (Hc : succ_closed succ s).
    { intros x y Hx Hy. rewrite <- E. apply mem_expand. eauto. }
    rewrite E, closure_from_fix; auto.
  - assert (L : len s < len (expand succ s)).
    { assert (Hi : incl_set s (expand succ s)) by (intros x Hx; apply mem_expand; auto).
      assert (len s <= len (expand succ s)) by (apply len_subset; auto).
      destruct (le_lt_dec (len (expand succ s)) (len s)); [|lia].
      exfalso. apply E. symmetry. apply len_subset_eq; auto. }
    destruct (IH (expand succ s)) as [H|H]; auto. right. lia.
Qed.

Lemma closure_from_range n succ m : (forall x y, x < m -> In y (succ x) -> y < m) ->
  forall s, (forall x, mem x s = true -> x < m) -> forall x, mem x (closure_from n succ s) = true -> x < m.
Proof.
  intro Hs. induction n as [|n IH]; simpl; intros s H x Hx; auto. eapply IH; [|exact Hx].
  intros y Hy. apply mem_expand in Hy. destruct Hy as [Hy|(z & Hz & Hy)]; eauto.
Qed.

Lemma closed_reaches succ s x y : succ_closed succ s -> mem x s = true -> reaches succ x y -> mem y s = true.
Proof.
  intros Hc Hx Hr. apply clos_rt_rtn1 in Hr. induction Hr as [|y z Hyz Hr IH]; auto. eapply Hc; eauto.
Qed.

Lemma closure_spec n succ x y : x < n -> (forall x y, x < n -> In y (succ x) -> y < n) ->
  (mem y (closure n succ x) = true <-> reaches succ x y).
Proof.
  intros Hx Hs. unfold closure.
  assert (Hxx : mem x (singleton x) = true) by (rewrite mem_singleton, Nat.eqb_refl; auto).
  assert (Hc : succ_closed succ (closure_from n succ (singleton x))).
  { destruct (closure_from_grow n succ (singleton x)) as [H|H]; auto. exfalso.
    assert (len (closure_from n succ (singleton x)) <= len (below n)).
    { apply len_subset. intros z Hz. apply mem_below. eapply (closure_from_range n succ n Hs); [|exact Hz].
      intros w Hw. rewrite mem_singleton in Hw. apply Nat.eqb_eq in Hw. subst; auto. }
    rewrite len_below in H0. assert (len (singleton x) <> 0); [|lia].
    intro L. apply len_zero in L. rewrite L, mem_empty in Hxx. discriminate. }
  split.
  - intro H. apply closure_from_sound in H. destruct H as (z & Hz & Hr). rewrite mem_singleton in Hz.
    apply Nat.eqb_eq in Hz. subst z. auto.
  - intro H. eapply closed_reaches; eauto. apply closure_from_incl. auto.
Qed.

Lemma reaches_trans succ x y z : reaches succ x y -> reaches succ y z -> reaches succ x z.
Proof. apply rt_trans. Qed.

Lemma reaches_range succ n x y : (forall x y, x < n -> In y (succ x) -> y < n) -> x < n -> reaches succ x y -> y < n.
Proof. intros Hs Hx Hr. apply clos_rt_rtn1 in Hr. induction Hr; eauto. Qed.

(** ** the reference instance is admissible *)
Lemma std_scc_loop_spec n succ : (forall x y, x < n -> In y (succ x) -> y < n) ->
  forall todo seen, (forall x, In x todo -> x < n) ->
  (forall x y, mem x seen = true -> reaches succ x y -> reaches succ y x -> mem y seen = true) ->
  let r := std_scc_loop n succ todo seen in
  (forall x, In x todo -> mem x seen = true \/ exists c, In c r /\ In x c) /\
  (forall c x y, In c r -> In x c -> (In y c <-> reaches succ x y /\ reaches succ y x)) /\
  (forall c x, In c r -> In x c -> mem x seen = false) /\
  NoDup (concat r).
Proof.
  intro Hs. induction todo as [|x todo IH]; intros seen Hr Hseen; simpl.
  - repeat split; try tauto. constructor.
  - assert (Hx : x < n) by (apply Hr; left; auto).
    destruct (mem x seen) eqn:Ex.
    + destruct (IH seen) as (H1 & H2 & H3 & H4); auto. { intros; apply Hr; right; auto. }
      refine (conj _ (conj H2 (conj H3 H4))). intros y [<-|Hy]; auto.
    + set (c := filter (fun y => mem x (closure n succ y)) (elements (closure n succ x))).
      assert (Hc : forall y, In y c <-> reaches succ x y /\ reaches succ y x).
      { intro y. unfold c. rewrite filter_In, elements_spec, closure_spec by auto. split.
        - intros [H1 H2]. split; auto. apply closure_spec in H2; auto. eapply reaches_range; eauto.
        - intros [H1 H2]. split; auto. apply closure_spec; auto. eapply reaches_range; eauto. }
      destruct (IH (union seen (of_list c))) as (H1 & H2 & H3 & H4).
      { intros; apply Hr; right; auto. }
      { intros y z Hy Hyz Hzy. rewrite mem_union, orb_true_iff, mem_of_list in *. destruct Hy as [Hy|Hy].
        - left. eapply Hseen; eauto.
        - right. apply Hc. apply Hc in Hy. destruct Hy. split; eapply reaches_trans; eauto. }
      refine (conj _ (conj _ (conj _ _))).
      * intros y [<-|Hy].
        -- right. exists c. split; [left; auto|]. apply Hc. split; apply rt_refl.
        -- destruct (H1 y Hy) as [H|(d & Hd & Hyd)]; [|right; exists d; split; [right|]; auto].
           rewrite mem_union, orb_true_iff, mem_of_list in H. destruct H as [H|H]; auto.
           right. exists c. split; [left; auto|auto].
      * intros d y z [<-|Hd] Hy.
        -- rewrite Hc in *. destruct Hy as [Ha Hb]. split; intros [Ha' Hb']; split; eapply reaches_trans; eauto.
        -- apply (H2 d y z); auto.
      * intros d y [<-|Hd] Hy.
        -- apply Hc in Hy. apply not_true_iff_false. intro Hm. assert (mem x seen = true) by (eapply Hseen; [exact Hm| |]; tauto).
           congruence.
        -- specialize (H3 d y Hd Hy). rewrite mem_union in H3. apply orb_false_iff in H3. tauto.
      * apply NoDup_app_intro; auto.
        -- apply NoDup_filter. apply elements_nodup.
        -- intros y Hy Hy'. apply in_concat in Hy'. destruct Hy' as (d & Hd & Hyd). specialize (H3 d y Hd Hyd).
           rewrite mem_union in H3. apply orb_false_iff in H3. destruct H3 as [_ H3].
           apply mem_of_list in Hy. congruence.
Qed.

Lemma std_ext_ok : ext_ok std_ext.
Proof.
  split.
  - intros n start succ Hst Hs.
    destruct (std_scc_loop_spec n succ Hs start bempty Hst) as (H1 & H2 & _ & H4).
    { intros x y Hx. rewrite mem_empty in Hx. discriminate. }
    split; auto.
    + intros x Hx. destruct (H1 x Hx) as [H|H]; auto. rewrite mem_empty in H. discriminate.
    + clear - Hst Hs. unfold std_scc in *. assert (Hn : forall todo seen c, (forall x, In x todo -> x < n) ->
        In c (std_scc_loop n succ todo seen) -> c <> []).
      { induction todo as [|x todo IH]; simpl; intros seen c Ht Hc; [destruct Hc|].
        destruct (mem x seen); [apply (IH seen); auto|]. destruct Hc as [<-|Hc]; [|eapply IH; eauto].
        assert (Hx : x < n) by (apply Ht; auto).
        assert (Hcl : mem x (closure n succ x) = true) by (apply closure_spec; auto; apply rt_refl).
        intro E. assert (Hin : In x (filter (fun y => mem x (closure n succ y)) (elements (closure n succ x)))).
        { apply filter_In. split; auto. apply elements_spec; auto. }
        rewrite E in Hin. destruct Hin. }
      intros c Hc. apply (Hn start bempty c Hst Hc).
    + clear - Hst Hs. unfold std_scc in *. assert (Hn : forall todo seen c y, (forall x, In x todo -> x < n) ->
        In c (std_scc_loop n succ todo seen) -> In y c -> exists s, In s todo /\ reaches succ s y).
      { induction todo as [|x todo IH]; simpl; intros seen c y Ht Hc Hy; [destruct Hc|].
        assert (Ht' : forall z, In z todo -> z < n) by auto.
        destruct (mem x seen); [|destruct Hc as [<-|Hc]].
        - destruct (IH seen c y Ht' Hc Hy) as (s & H1 & H2). eauto.
        - exists x. split; auto. apply filter_In in Hy. destruct Hy as [Hy _]. apply elements_spec in Hy.
          apply closure_spec in Hy; auto.
        - destruct (IH _ c y Ht' Hc Hy) as (s & H1 & H2). eauto. }
      intros c x Hc Hx. apply (Hn start bempty c x Hst Hc Hx).
  - intros. apply Permutation_refl.
Qed.

(** ** the trust graph *)
Lemma successors_iff f x y : In y (successors f x) <-> trusts f x y.
Proof.
  unfold successors, trusts. rewrite elements_spec, contained_nodes_spec. split.
  - intro H. destruct (lt_dec x (number_of_nodes f)) as [Hx|Hx].
    + exists (qset_of f x). split; auto. apply qset_of_node; auto.
    + exfalso. unfold qset_of in H. unfold number_of_nodes in Hx.
      assert (E : nth_error (nodes f) x = None) by (apply nth_error_None; lia). rewrite E in H.
      apply contained_list_spec in H. destruct H.
  - intros (q & Hq & Hm). apply node_of_qset_of in Hq. congruence.
Qed.

Lemma reaches_trusts f x y : reaches (successors f) x y <-> trusts_transitively f x y.
Proof.
  unfold reaches, trusts_transitively. split; induction 1.
  - apply rt_step. apply successors_iff; auto.
  - apply rt_refl.
  - eapply rt_trans; eauto.
  - apply rt_step. apply successors_iff; auto.
  - apply rt_refl.
  - eapply rt_trans; eauto.
Qed.

Lemma wf_successors f : wf_fbas f -> forall x y, x < number_of_nodes f -> In y (successors f x) -> y < number_of_nodes f.
Proof. intros H x y _ Hy. apply successors_iff in Hy. destruct Hy as (q & Hq & Hm). eapply H; eauto. Qed.

(** mutual reachability *)
Definition linked (f : fbas) (x y : nat) : Prop := trusts_transitively f x y /\ trusts_transitively f y x.

Lemma linked_refl f x : linked f x x.
Proof. split; apply rt_refl. Qed.
Lemma linked_sym f x y : linked f x y -> linked f y x.
Proof. intros []; split; auto. Qed.
Lemma linked_trans f x y z : linked f x y -> linked f y z -> linked f x z.
Proof. intros [] []; split; eapply rt_trans; eauto. Qed.

(** the set of nodes reached from [x] *)
Definition reach_set (f : fbas) (x : nat) : bset := closure (number_of_nodes f) (successors f) x.

Lemma mem_reach_set f x y : wf_fbas f -> x < number_of_nodes f ->
  (mem y (reach_set f x) = true <-> trusts_transitively f x y).
Proof.
  intros Hwf Hx. unfold reach_set. rewrite closure_spec; auto. { apply reaches_trusts. }
  apply wf_successors; auto.
Qed.

(** a quorum restricted to what one of its members reaches is a quorum *)
Lemma quorum_reach f Q x : wf_fbas f -> quorum f Q -> mem x Q = true -> quorum f (inter Q (reach_set f x)).
Proof.
  intros Hwf HQ Hx. assert (HQ' := HQ). apply quorum_closed in HQ. destruct HQ as [_ Hc]. apply quorum_closed.
  assert (Hxn : x < number_of_nodes f) by (eapply sat_range; eauto).
  split.
  - exists x. rewrite mem_inter, Hx. apply mem_reach_set; auto. apply rt_refl.
  - intros y Hy. rewrite mem_inter, andb_true_iff, mem_reach_set in Hy by auto. destruct Hy as [Hy Hr].
    assert (Hs := Hc y Hy). assert (Hyn := sat_range _ _ _ Hs). rewrite <- Hs. apply is_quorum_slice_local.
    intros z Hz. rewrite mem_inter. replace (mem z (reach_set f x)) with true; [apply andb_true_r|].
    symmetry. apply mem_reach_set; auto. eapply rt_trans; [exact Hr|]. apply rt_step.
    exists (qset_of f y). split; auto. apply qset_of_node; auto.
Qed.

Lemma minimal_quorum_linked f Q x y : wf_fbas f -> minimal_quorum f Q -> mem x Q = true -> mem y Q = true -> linked f x y.
Proof.
  intros Hwf [HQ Hmin].
  assert (H : forall x y, mem x Q = true -> mem y Q = true -> trusts_transitively f x y).
  { clear x y. intros x y Hx Hy.
    assert (E : inter Q (reach_set f x) = Q).
    { apply Hmin; [apply quorum_reach; auto|]. intros z Hz. rewrite mem_inter, andb_true_iff in Hz. tauto. }
    rewrite <- E, mem_inter, andb_true_iff, mem_reach_set in Hy; [tauto|auto|].
    apply quorum_nodes in HQ. apply mem_all_nodes. auto. }
  intros. split; auto.
Qed.

(** ** components of a node set *)
Section Parts.
Variable E : ext.
Hypothesis HE : ext_ok E.
Variable f : fbas.
Hypothesis Hwf : wf_fbas f.

Notation parts s := (partition_into_strongly_connected_components E s f).

Lemma scc_ok s : incl_set s (all_nodes f) ->
  scc_spec (elements s) (successors f) (scc E (number_of_nodes f) (elements s) (successors f)).
Proof.
  intro Hs. apply HE.
  - intros x Hx. apply elements_spec in Hx. apply mem_all_nodes. auto.
  - apply wf_successors; auto.
Qed.

Lemma parts_cover s x : incl_set s (all_nodes f) -> mem x s = true -> exists c, In c (parts s) /\ mem x c = true.
Proof.
  intros Hs Hx. destruct (scc_ok s Hs) as [H1 _ _ _ _].
  destruct (H1 x) as (c & Hc & Hxc); [apply elements_spec; auto|].
  exists (of_list (filter (fun n => mem n s) c)). split.
  - apply in_map_iff. eauto.
  - apply mem_of_list, filter_In. auto.
Qed.

Lemma parts_incl s c : In c (parts s) -> incl_set c s.
Proof.
  intros Hc x Hx. apply in_map_iff in Hc. destruct Hc as (d & <- & _). apply mem_of_list, filter_In in Hx. tauto.
Qed.

Lemma parts_class s c x y : incl_set s (all_nodes f) -> In c (parts s) -> mem x c = true ->
  (mem y c = true <-> mem y s = true /\ linked f x y).
Proof.
  intros Hs Hc Hx. destruct (scc_ok s Hs) as [_ H2 _ _ _].
  apply in_map_iff in Hc. destruct Hc as (d & <- & Hd). rewrite mem_of_list, filter_In in *.
  rewrite (H2 d x y Hd); [|tauto]. rewrite !reaches_trusts. unfold linked. tauto.
Qed.

Lemma parts_unique s c d x : incl_set s (all_nodes f) -> In c (parts s) -> In d (parts s) ->
  mem x c = true -> mem x d = true -> c = d.
Proof.
  intros Hs Hc Hd Hxc Hxd. apply bset_ext. intro y. apply eq_true_iff_eq.
  rewrite (parts_class s c x y), (parts_class s d x y); auto. tauto.
Qed.

(** non-empty parts occur once *)
Lemma parts_nodup s (p : bset -> bool) : incl_set s (all_nodes f) -> (forall c, p c = true -> is_empty c = false) ->
  NoDup (filter p (parts s)).
Proof.
  intros Hs Hp. destruct (scc_ok s Hs) as [_ _ _ _ H3]. unfold partition_into_strongly_connected_components.
  induction (scc E _ _ _) as [|c l IH]; simpl; [constructor|].
  simpl in H3. apply NoDup_app_inv in H3. destruct H3 as (_ & H4 & H5).
  destruct (p _) eqn:Ep; auto. constructor; auto. intro Hin.
  apply filter_In in Hin. destruct Hin as [Hin _]. apply in_map_iff in Hin. destruct Hin as (d & Ed & Hd).
  apply Hp in Ep. apply not_empty_mem in Ep. destruct Ep as (x & Hx).
  assert (Hx' := Hx). rewrite <- Ed in Hx'. apply mem_of_list, filter_In in Hx, Hx'.
  apply (H5 x); [tauto|]. apply in_concat. exists d. tauto.
Qed.

(** ** consensus clusters *)
Lemma satisfiable_in_nodes : incl_set (satisfiable_nodes f) (all_nodes f).
Proof. apply closed_nodes. apply satisfiable_nodes_spec. Qed.

Lemma cluster_in c : In c (consensus_clusters E f) <-> In c (parts (satisfiable_nodes f)) /\ contains_quorum c f = true.
Proof. unfold consensus_clusters. rewrite filter_In. unfold satisfiable_nodes. tauto. Qed.

Lemma contains_quorum_nonempty c : contains_quorum c f = true -> is_empty c = false.
Proof.
  intro H. apply contains_quorum_iff in H. destruct H as (q & Hq & (x & Hx) & _). apply not_empty_mem. exists x. auto.
Qed.

Lemma clusters_nodup : NoDup (consensus_clusters E f).
Proof. apply parts_nodup; [apply satisfiable_in_nodes|apply contains_quorum_nonempty]. Qed.

Lemma clusters_disjoint c d x : In c (consensus_clusters E f) -> In d (consensus_clusters E f) ->
  mem x c = true -> mem x d = true -> c = d.
Proof. rewrite !cluster_in. intros [] []. eapply parts_unique; eauto. apply satisfiable_in_nodes. Qed.

Lemma cluster_class c x y : In c (consensus_clusters E f) -> mem x c = true ->
  (mem y c = true <-> mem y (satisfiable_nodes f) = true /\ linked f x y).
Proof. rewrite cluster_in. intros [] H'. apply parts_class; auto. apply satisfiable_in_nodes. Qed.

Lemma cluster_quorum c : In c (consensus_clusters E f) -> exists q, minimal_quorum f q /\ incl_set q c.
Proof.
  rewrite cluster_in. intros [_ H]. apply contains_quorum_iff in H. destruct H as (q & Hi & Hq).
  destruct (minimal_quorum_below f q Hq) as (m & Hm & Hmin). exists m. split; auto. eapply incl_trans; eauto.
Qed.

Lemma cluster_nodes c : In c (consensus_clusters E f) -> incl_set c (all_nodes f).
Proof.
  rewrite cluster_in. intros [H _]. eapply incl_trans; [eapply parts_incl; eauto|apply satisfiable_in_nodes].
Qed.

(** every minimal quorum lies in one cluster *)
Lemma minimal_quorum_cluster q : minimal_quorum f q -> exists c, In c (consensus_clusters E f) /\ incl_set q c.
Proof.
  intro Hq. assert (Hq' := Hq). destruct Hq' as [HQ _]. apply quorum_closed in HQ. destruct HQ as [(x & Hx) Hc].
  assert (Hs : incl_set q (satisfiable_nodes f)) by (apply satisfiable_nodes_spec; auto).
  destruct (parts_cover (satisfiable_nodes f) x satisfiable_in_nodes (Hs x Hx)) as (c & Hcin & Hxc).
  assert (Hi : incl_set q c).
  { intros y Hy. apply (parts_class (satisfiable_nodes f) c x y satisfiable_in_nodes Hcin Hxc).
    split; auto. eapply minimal_quorum_linked; eauto. }
  exists c. split; auto. apply cluster_in. split; auto. apply contains_quorum_iff. exists q. split; auto.
  destruct Hq; auto.
Qed.

(** a minimal quorum is one of the FBAS or of the cluster, both ways *)
Lemma clusters_none : consensus_clusters E f = [] <-> forall q, ~ quorum f q.
Proof.
  split.
  - intros H q Hq. destruct (minimal_quorum_below f q Hq) as (m & _ & Hm).
    destruct (minimal_quorum_cluster m Hm) as (c & Hc & _). rewrite H in Hc. destruct Hc.
  - intro H. destruct (consensus_clusters E f) as [|c l] eqn:EC; auto. exfalso.
    destruct (cluster_quorum c) as (q & Hq & _); [rewrite EC; left; auto|]. destruct Hq as [Hq _]. eapply H; eauto.
Qed.

Lemma mem_relevant_nodes x : mem x (relevant_nodes E f) = true <-> exists c, In c (consensus_clusters E f) /\ mem x c = true.
Proof.
  unfold relevant_nodes, consensus_clusters. fold (satisfiable_nodes f).
  assert (H : forall l acc, mem x (fold_left (fun acc c => if contains_quorum c f then union acc c else acc) l acc) = true <->
            mem x acc = true \/ exists c, In c (filter (fun c => contains_quorum c f) l) /\ mem x c = true).
  { induction l as [|c l IH]; intro acc; simpl.
    - split; auto. intros [H|(c & [] & _)]; auto.
    - rewrite IH. destruct (contains_quorum c f); simpl.
      + rewrite mem_union, orb_true_iff. split.
        * intros [[H|H]|(d & Hd & H)]; eauto.
        * intros [H|(d & [<-|Hd] & H)]; eauto.
      + tauto. }
  rewrite H, mem_empty. split; auto. intros [H0|H0]; [discriminate|auto].
Qed.
End Parts.
