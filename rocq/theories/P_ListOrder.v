(** The lists of minimal blocking sets and of minimal splitting sets are ordered, without repetition,
    and no set contains another. *)
From Verif Require Export P_Orders.
Local Open Scope list_scope.

Definition antichain (l : list bset) : Prop := forall a b, In a l -> In b l -> incl_set a b -> a = b.

Lemma incl_union_disjoint a b c : disjoint a b = true -> incl_set a (union b c) -> incl_set a c.
Proof.
  intros Hd Hi x Hx. specialize (Hi x Hx). rewrite mem_union, orb_true_iff in Hi. rewrite disjoint_iff in Hd.
  destruct Hi as [Hi|Hi]; auto. exfalso. eauto.
Qed.
Lemma disjoint_sym a b : disjoint a b = true -> disjoint b a = true.
Proof. rewrite !disjoint_iff. intros H x Hx Hy. eauto. Qed.
Lemma union_comm a b : union a b = union b a.
Proof. apply bset_ext. intro x. rewrite !mem_union. apply orb_comm. Qed.

Lemma choices_antichain gs : separated gs -> (forall g, In g gs -> antichain g) ->
  forall c c' p p', subseq c gs -> subseq c' gs ->
  Forall2 (fun x g => In x g) p c -> Forall2 (fun x g => In x g) p' c' -> incl_set (unions p) (unions p') ->
  List.length c <= List.length c' /\ (List.length c = List.length c' -> p = p').
Proof.
  induction 1 as [|g gs Hnd Hne Hd Hsep IH]; intros Ha c c' p p' Hc Hc' Hp Hp' Hi.
  - inversion Hc; subst. inversion Hc'; subst. inversion Hp; inversion Hp'; auto.
  - assert (Ha' : forall g, In g gs -> antichain g) by (intros; apply Ha; right; auto).
    inversion Hc as [|? ? ? Hs|a c1 ? Hs]; subst; inversion Hc' as [|? ? ? Hs'|a' c1' ? Hs']; subst.
    + eauto.
    + inversion Hp' as [|s' ? p1 ? Hs1 Hp1]; subst. rewrite unions_cons in Hi.
      apply incl_union_disjoint in Hi; [|apply disjoint_sym; apply (choices_tail_disjoint g gs c p s' Hd Hs1 Hs Hp)].
      destruct (IH Ha' c c1' p p1 Hs Hs' Hp Hp1 Hi) as [L _]. simpl. split; [lia|]. intro; lia.
    + exfalso. inversion Hp as [|s' ? p1 ? Hs1 Hp1]; subst.
      destruct (proj1 (not_empty_mem s') (Hne _ Hs1)) as (x & Hx).
      assert (D := choices_tail_disjoint g gs c' p' s' Hd Hs1 Hs' Hp'). rewrite disjoint_iff in D. apply (D x Hx).
      apply Hi. rewrite unions_cons, mem_union, Hx. auto.
    + inversion Hp as [|s ? p1 ? Hs1 Hp1]; subst. inversion Hp' as [|s' ? p1' ? Hs1' Hp1']; subst.
      rewrite !unions_cons in Hi.
      assert (D1 := choices_tail_disjoint g gs _ _ s Hd Hs1 Hs' Hp1').
      assert (D4 := choices_tail_disjoint g gs _ _ s' Hd Hs1' Hs Hp1).
      assert (I1 : incl_set s s').
      { apply (incl_union_disjoint s (unions p1') s' D1). rewrite union_comm. intros x Hx. apply Hi. rewrite mem_union, Hx. auto. }
      assert (I2 : incl_set (unions p1) (unions p1')).
      { apply (incl_union_disjoint (unions p1) s'); [apply disjoint_sym; auto|]. intros x Hx. apply Hi. rewrite mem_union, Hx. apply orb_true_r. }
      assert (s = s') by (apply (Ha g); simpl; auto). subst s'.
      destruct (IH Ha' c1 c1' p1 p1' Hs Hs' Hp1 Hp1' I2) as [L Hq]. simpl. split; [lia|].
      intro El. f_equal. apply Hq. lia.
Qed.

Lemma combine_groups_antichain k gs : separated gs -> (forall g, In g gs -> antichain g) -> antichain (combine_groups k gs).
Proof.
  intros Hs Ha a b H1 H2 Hi. apply combine_groups_spec in H1, H2.
  destruct H1 as (c & p & Hc & Hl & _ & Hp & ->). destruct H2 as (c' & p' & Hc' & Hl' & _ & Hp' & ->).
  destruct (choices_antichain gs Hs Ha c c' p p' Hc Hc' Hp Hp' Hi) as [_ Heq]. f_equal. apply Heq. congruence.
Qed.

Lemma entries_antichain vs is_ (G : qset -> list bset) : (forall i, In i is_ -> antichain (G i)) ->
  forall g, In g (map (fun v => [of_list [v]]) vs ++ map G is_) -> antichain g.
Proof.
  intros H g Hg. apply in_app_iff in Hg. destruct Hg as [Hg|Hg]; apply in_map_iff in Hg; destruct Hg as (v & <- & Hv); auto.
  intros a b [<-|[]] [<-|[]] _. auto.
Qed.

Lemma entries_inhabited k vs is_ (G : qset -> list bset) : (forall i s, In i is_ -> In s (G i) -> is_empty s = false) ->
  forall s, In s (combine_groups k (map (fun v => [of_list [v]]) vs ++ map G is_)) -> is_empty s = false.
Proof.
  intros H s Hs. apply combine_groups_spec in Hs. destruct Hs as (c & p & Hc & _ & Hne & Hp & ->).
  destruct Hp as [|a g p c Hag Hp]; [congruence|]. assert (Hg : In g (map (fun v => [of_list [v]]) vs ++ map G is_)) by (eapply subseq_in; [exact Hc|left; auto]).
  assert (Ha : is_empty a = false).
  { apply in_app_iff in Hg. destruct Hg as [Hg|Hg]; apply in_map_iff in Hg; destruct Hg as (v & <- & Hv).
    - destruct Hag as [<-|[]]. apply not_empty_mem. exists v. apply mem_of_list. left; auto.
    - eapply H; eauto. }
  apply not_empty_mem in Ha. destruct Ha as (x & Hx). apply not_empty_mem. exists x. rewrite unions_cons, mem_union, Hx. auto.
Qed.

(** ** splitting sets of a symmetric cluster *)
Lemma to_splitting_sets_sub t vs is_ s : In s (to_splitting_sets (QS t vs is_)) ->
  In s (combine_groups (splitting_threshold (QS t vs is_)) (map (fun node_id => [of_list [node_id]]) vs ++ map to_splitting_sets is_)).
Proof.
  cbn [to_splitting_sets]. destruct (combine_groups _ _) as [|s0 [|s1 l]]; auto. destruct (is_quorum_slice _ s0); [intros []|auto].
Qed.

Lemma to_splitting_sets_inhabited q : forall s, In s (to_splitting_sets q) -> is_empty s = false.
Proof.
  induction q as [t vs is_ IH] using qset_ind'. intros s Hs. apply to_splitting_sets_sub in Hs.
  eapply entries_inhabited; [|exact Hs]. intros i s' Hi Hs'. eapply IH; eauto.
Qed.

Lemma to_splitting_sets_antichain q : nodup_qset q -> NoDup (to_splitting_sets q) /\ antichain (to_splitting_sets q).
Proof.
  induction q as [t vs is_ IH] using qset_ind'. intro Hn. destruct (nodup_qset_inv _ _ _ Hn) as (_ & Hni & _).
  assert (Hsep : separated (map (fun v => [of_list [v]]) vs ++ map to_splitting_sets is_)).
  { eapply entries_separated; eauto.
    - intros i Hi. apply IH; auto.
    - intros i s Hi Hs. eapply to_splitting_sets_inhabited; eauto.
    - intros i s x Hi Hs Hx. eapply to_splitting_sets_mentions; eauto. }
  assert (H1 := combine_groups_nodup (splitting_threshold (QS t vs is_)) _ Hsep).
  assert (H2 := combine_groups_antichain (splitting_threshold (QS t vs is_)) _ Hsep (entries_antichain vs is_ _ (fun i Hi => proj2 (IH i Hi (Hni i Hi))))).
  split.
  - cbn [to_splitting_sets]. destruct (combine_groups _ _) as [|s0 [|s1 l]]; auto. destruct (is_quorum_slice _ s0); [constructor|auto].
  - intros a b Ha Hb. apply H2; apply to_splitting_sets_sub; auto.
Qed.

Lemma to_minimal_splitting_sets_antichain q :
  NoDup (to_minimal_splitting_sets q) /\ antichain (to_minimal_splitting_sets q) /\
  forall s, In s (to_minimal_splitting_sets q) -> In s (to_splitting_sets q).
Proof.
  unfold to_minimal_splitting_sets. destruct (contains_duplicates q) eqn:Ed.
  - destruct (remove_non_minimal_exact (to_splitting_sets q)) as [H1 H2]. split; [apply sorted_before_nodup; auto|]. split.
    + intros a b Ha Hb Hi. apply H2 in Ha, Hb. destruct Hb as [_ Hb]. apply Hb; auto. apply Ha.
    + intros s Hs. apply H2 in Hs. apply Hs.
  - apply contains_duplicates_false in Ed. destruct (to_splitting_sets_antichain q Ed) as [H1 H2]. auto.
Qed.

Section Lists.
Variable E : ext.
Hypothesis HE : ext_ok E.
Variable f : fbas.
Hypothesis Hwf : wf_fbas f.

Lemma splitting_in_cluster_antichain mq c : In c (consensus_clusters E f) ->
  NoDup (splitting_in_cluster f E mq c) /\ antichain (splitting_in_cluster f E mq c) /\
  forall s, In s (splitting_in_cluster f E mq c) -> is_empty s = false /\ incl_set s c.
Proof.
  intro Hc. unfold splitting_in_cluster. assert (Hcn := cluster_nodes E f c Hc).
  destruct (find_symmetric_cluster_cases E HE f Hwf c Hc) as [[Es _]|(q & Es & Ef & Hq & Hall)]; rewrite Es.
  - set (un := rank_sort E f (elements c)).
    assert (Eun : of_list un = c) by (apply rank_sort_of_list; auto).
    assert (Hb := splitting_found_inhabited f un bempty (of_list un) [] mq true).
    assert (Hr := splitting_step_range f c un (fun x Hx => eq_trans (f_equal (mem x) (eq_sym Eun)) (proj2 (mem_of_list x un) Hx)) bempty (of_list un) [] mq true).
    destruct (splitting_sets_finder_step f un bempty (of_list un) [] mq true) as [[s0 a0] new]. simpl.
    destruct (remove_non_minimal_exact new) as [Hs Hi]. split; [apply sorted_before_nodup; auto|]. split.
    + intros a b Ha Hb' Hin. apply Hi in Ha, Hb'. destruct Hb' as [_ Hb']. apply Hb'; auto. apply Ha.
    + intros s Hin. apply Hi in Hin. destruct Hin as [Hin _]. split.
      * apply not_empty_mem. apply Hb; auto. intros ? [].
      * destruct Hr as [_ Hr]; auto; [intros x Hx; rewrite mem_empty in Hx; discriminate|intros ? []].
  - destruct (to_minimal_splitting_sets_antichain q) as (H1 & H2 & H3). split; auto. split; auto.
    intros s Hs. apply H3 in Hs. split; [eapply to_splitting_sets_inhabited; eauto|].
    intros x Hx. rewrite <- Hq. apply contained_nodes_spec. eapply to_splitting_sets_mentions; eauto.
Qed.

Lemma splitting_sets_order mq : exists l, find_minimal_splitting_sets E f mq = Ok l /\ StronglySorted before l /\ antichain l.
Proof.
  rewrite splitting_flat by auto. eexists. split; [reflexivity|].
  assert (Hc := fun c => splitting_in_cluster_antichain mq c). split.
  - apply sort_sets_strict. apply NoDup_flat_map.
    + apply clusters_nodup; auto.
    + intros c Hin. apply Hc; auto.
    + intros c d s Hcin Hd Hs Hs'. destruct (Hc c Hcin) as (_ & _ & H1). destruct (Hc d Hd) as (_ & _ & H2).
      destruct (H1 s Hs) as [He Hi]. destruct (H2 s Hs') as [_ Hi']. apply not_empty_mem in He. destruct He as (x & Hx).
      apply (clusters_disjoint E HE f Hwf c d x); auto.
  - intros a b Ha Hb Hi. rewrite sort_sets_in in Ha, Hb. apply in_flat_map in Ha, Hb.
    destruct Ha as (c & Hcin & Ha). destruct Hb as (d & Hd & Hb).
    destruct (Hc c Hcin) as (_ & A1 & H1). destruct (Hc d Hd) as (_ & _ & H2).
    destruct (H1 a Ha) as [He Hi1]. destruct (H2 b Hb) as [_ Hi2]. apply not_empty_mem in He. destruct He as (x & Hx).
    assert (c = d) by (apply (clusters_disjoint E HE f Hwf c d x); auto). subst d. apply A1; auto.
Qed.

Lemma blocking_in_cluster_antichain c : In c (consensus_clusters E f) ->
  (forall q, satisfiable_cluster f q -> no_repetitions q) ->
  exists l, blocking_sets_in_cluster E f c = Ok l /\ NoDup l /\ antichain l /\ forall s, In s l -> incl_set s c.
Proof.
  intros Hc Hno.
  destruct (find_symmetric_cluster_cases E HE f Hwf c Hc) as [[Es _]|(q & Es & Ef & Hq & Hall)].
  - destruct (nonsymmetric_blocking E HE f Hwf c Hc Es) as (l & El & Nl & Sl). exists l. split; auto. split; auto. split.
    + intros a b Ha Hb Hi. apply Sl in Ha, Hb. destruct Hb as [_ Hb]. apply Hb; auto. apply Ha.
    + intros s Hs. apply Sl in Hs. destruct Hs as [[Hs _] _]. auto.
  - unfold blocking_sets_in_cluster. rewrite Es. cbn [bind]. eexists. split; [reflexivity|].
    assert (Hn : nodup_qset q) by (apply no_repetitions_nodup, Hno, (found_cluster_satisfiable E HE f Hwf c q Hc Ef)).
    assert (Hcd := Hn). apply contains_duplicates_false in Hcd. unfold to_minimal_blocking_sets. rewrite Hcd.
    assert (Hd : nodup_qset (dual q)) by (apply dual_nodup; auto). split; [|split].
    + rewrite to_blocking_sets_dual. apply to_quorum_slices_nodup; auto.
    + intros a b Ha Hb Hi. rewrite to_blocking_sets_dual in Ha, Hb. apply to_quorum_slices_exact in Ha, Hb; auto.
      destruct Hb as [_ Hb]. apply Hb; auto. apply Ha.
    + intros s Hs x Hx. rewrite <- Hq. apply contained_nodes_spec. eapply to_blocking_sets_mentions; eauto.
Qed.

Lemma blocking_sets_weak_order : exists l, find_minimal_blocking_sets E f = Ok l /\ StronglySorted (fun a b => before a b \/ a = b) l.
Proof.
  destruct (mbs_no_panic E HE f Hwf) as (l & El & _). exists l. split; auto.
  unfold find_minimal_blocking_sets, find_minimal_sets in El. destruct (find_sets _ _ _) as [r|]; simpl in El; [|discriminate].
  injection El as <-. assert (Hs := sort_sets_sorted r). clear - Hs.
  induction Hs as [|x l0 Hs IH Hx]; constructor; auto. rewrite Forall_forall in *. intros y Hy.
  destruct (bset_eq_dec x y); auto. left. apply before_or_eq_before; auto.
Qed.

Lemma blocking_sets_order : (forall q, satisfiable_cluster f q -> no_repetitions q) ->
  exists l, find_minimal_blocking_sets E f = Ok l /\ StronglySorted before l /\ antichain l.
Proof.
  intro Hno. unfold find_minimal_blocking_sets, find_minimal_sets, find_sets, minimal_blocking_sets_finder.
  assert (Hmap : forall cl, incl cl (consensus_clusters E f) -> exists per, mapM (blocking_sets_in_cluster E f) cl = Ok per /\
       Forall2 (fun l c => NoDup l /\ antichain l /\ forall s, In s l -> incl_set s c) per cl).
  { induction cl as [|c cl IH]; intro Hi; simpl.
    - exists []. split; auto.
    - destruct (blocking_in_cluster_antichain c) as (l & El & Nl); [apply Hi; left; auto|auto|].
      destruct IH as (per & Ep & Hp); [intros d Hd; apply Hi; right; auto|].
      rewrite El. simpl. rewrite Ep. simpl. exists (l :: per). split; auto. }
  destruct (Hmap (consensus_clusters E f)) as (per & Ep & Hper); [intros c Hc; auto|].
  rewrite Ep. simpl. eexists. split; [reflexivity|].
  assert (Hself : incl (consensus_clusters E f) (consensus_clusters E f)) by (intros c Hc; auto).
  assert (Hndc := clusters_nodup E HE f Hwf).
  assert (G : forall p, In p (multi_cartesian_product per) -> Forall2 (fun B l => In B l) p per /\
     Forall2 (fun B c => inter (unions p) c = B) p (consensus_clusters E f)).
  { intros p Hp. apply mcp_spec in Hp. destruct Hp as [_ Hp]. split; auto. apply (choice_inter E HE f Hwf); auto.
    clear - Hp Hper. revert p Hp. induction Hper as [|l c per cl (_ & _ & Hl) Hper IH]; intros p Hp; inversion Hp; subst; constructor; auto. }
  assert (Hinc : forall p p', In p (multi_cartesian_product per) -> In p' (multi_cartesian_product per) ->
     incl_set (unions p) (unions p') -> p = p').
  { intros p p' Hp Hp' Hi. destruct (G p Hp) as [F1 I1]. destruct (G p' Hp') as [F2 I2].
    revert I1 I2 F1 F2 Hper Hi. clear. generalize (unions p) (unions p'). intros u u' I1 I2 F1 F2 Hper Hi.
    revert p' per I2 F1 F2 Hper. induction I1 as [|B c p cl HB I1 IH]; intros p' per I2 F1 F2 Hper; inversion I2; subst; auto.
    inversion Hper as [|ls ? per' ? (_ & Ha & _) Hper']; subst. inversion F1; subst. inversion F2; subst. f_equal.
    - apply Ha; auto. intros x Hx. rewrite mem_inter, andb_true_iff in *. destruct Hx; auto.
    - eapply IH; eauto. }
  split.
  - apply sort_sets_strict. apply NoDup_map_inj.
    + assert (Hpn : forall per, Forall (@NoDup bset) per -> NoDup (product per)).
      { clear. induction per as [|l per IH]; intro H; simpl; [constructor; auto; constructor|]. inversion H; subst.
        apply NoDup_flat_map; auto.
        - intros a _. apply NoDup_map_inj; auto. congruence.
        - intros a b x _ _ Ha Hb. apply in_map_iff in Ha, Hb. destruct Ha as (? & <- & _). destruct Hb as (? & Eb & _). congruence. }
      unfold multi_cartesian_product. destruct per; [constructor|]. apply Hpn.
      clear - Hper. induction Hper; constructor; tauto.
    + intros p p' Hp Hp' Eu. apply Hinc; auto. rewrite Eu. intros x Hx; auto.
  - intros a b Ha Hb Hi. rewrite sort_sets_in in Ha, Hb. apply in_map_iff in Ha, Hb.
    destruct Ha as (p & <- & Hp). destruct Hb as (p' & <- & Hp'). f_equal. apply Hinc; auto.
Qed.
End Lists.

(** ** a repeated validator *)
Definition twice_fbas := let q := QS 2 [1;1;0] [] in sample [q;q].
Lemma blocking_not_antichain : exists f, wf_fbas f /\ exists a b, find_minimal_blocking_sets std_ext f = Ok [a; b; b] /\ incl_set a b /\ a <> b.
Proof.
  exists twice_fbas. split; [apply wfb_ok; vm_compute; reflexivity|]. exists (of_list [1]), (of_list [0;1]).
  split; [vm_compute; reflexivity|]. split; [apply incl_subset; vm_compute; reflexivity|vm_compute; discriminate].
Qed.
