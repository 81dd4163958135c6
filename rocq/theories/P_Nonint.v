(** The search for non-intersecting quorums. *)
From Verif Require Export P_ThCore.
Local Open Scope list_scope.

Lemma find_satisfiable_largest f s Q : quorum f Q -> incl_set Q s -> incl_set Q (fst (find_satisfiable_nodes s f)).
Proof.
  intros HQ Hi x Hx. apply (find_satisfiable_nodes_quorums f s). exists Q. auto.
Qed.

Lemma find_satisfiable_incl f s : incl_set (fst (find_satisfiable_nodes s f)) s.
Proof.
  apply find_satisfiable_nodes_spec.
Qed.

Section Step.
Variable f : fbas.
Variable all : bset.

Definition no_partner (Q : bset) := forall Q', quorum f Q' -> incl_set Q' all -> meets Q Q'.

Lemma no_partner_anti sel Q :
  fst (find_satisfiable_nodes (diff all sel) f) = bempty -> incl_set sel Q -> no_partner Q.
Proof.
  intros He Hi Q' HQ' Ha. apply not_disjoint_meets. apply not_true_iff_false. intro Hd. rewrite disjoint_iff in Hd.
  assert (Hin : incl_set Q' (diff all sel)).
  { intros x Hx. rewrite mem_diff, (Ha x Hx). simpl. destruct (mem x sel) eqn:Ex; auto. exfalso. eauto. }
  apply (find_satisfiable_largest f _ _ HQ') in Hin. rewrite He in Hin. destruct HQ' as [(x & Hx) _].
  apply Hin in Hx. rewrite mem_empty in Hx. discriminate.
Qed.

Lemma nonintersecting_step_spec : forall unprocessed sel picks changed,
  NoDup unprocessed -> (forall x, In x unprocessed -> mem x sel = false) ->
  incl_set (union sel (of_list unprocessed)) all ->
  (changed = false -> ~ quorum f sel) ->
  let avail := union sel (of_list unprocessed) in
  exists s' a' n' r, nonintersecting_step f unprocessed sel avail (diff all sel) picks changed = (s', a', n', r) /\
    match r with
    | Some (a, b) => quorum f a /\ quorum f b /\ ~ meets a b
    | None => s' = sel /\ a' = avail /\ n' = diff all sel /\
        forall Q, quorum f Q -> incl_set sel Q -> incl_set Q avail -> len Q <= len sel + picks -> no_partner Q
    end.
Proof.
  induction unprocessed as [|x l IH]; intros sel picks changed Hnd Hdis Hall Hch avail.
  - cbn [nonintersecting_step].
    destruct (changed && is_quorum f sel) eqn:Eq; [|assert (Hnq : ~ quorum f sel); [|destruct (picks =? 0)]].
    + apply andb_true_iff in Eq. destruct Eq as [_ Eq]. apply is_quorum_iff in Eq.
      destruct (is_empty (fst (find_satisfiable_nodes (diff all sel) f))) eqn:Ee; simpl; do 4 eexists; split; try reflexivity.
      * apply is_empty_eq in Ee. cbv iota. repeat split; auto. intros Q _ Hi _ _. eapply no_partner_anti; eauto.
      * cbv iota beta. split; auto. split; [apply find_satisfiable_nodes_quorums, inhabited_iff; auto|].
        intros (y & Hy & Hy'). apply find_satisfiable_incl in Hy'. rewrite mem_diff, Hy, andb_false_r in Hy'. discriminate.
    + intro HQ. apply is_quorum_iff in HQ as HQ'. rewrite HQ', andb_true_r in Eq. apply Hch; auto.
    + do 4 eexists. split; [reflexivity|]. repeat split; auto. intros Q HQ H1 H2 _.
      assert (Q = sel); [|subst; contradiction]. apply incl_antisym; auto. intros y Hy. apply H2 in Hy. unfold avail in Hy.
      rewrite mem_union, mem_of_nil, orb_false_r in Hy. auto.
    + do 4 eexists. split; [reflexivity|]. repeat split; auto. intros Q HQ H1 H2 _.
      assert (Q = sel); [|subst; contradiction]. apply incl_antisym; auto. intros y Hy. apply H2 in Hy. unfold avail in Hy.
      rewrite mem_union, mem_of_nil, orb_false_r in Hy. auto.
  - cbn [nonintersecting_step]. inversion Hnd as [|? ? Hx Hnd']; subst.
    assert (Hxs : mem x sel = false) by (apply Hdis; left; auto).
    assert (Hxa : mem x all = true).
    { apply Hall. rewrite mem_union, orb_true_iff, mem_of_list. right. left. auto. }
    destruct (changed && is_quorum f sel) eqn:Eq.
    { apply andb_true_iff in Eq. destruct Eq as [_ Eq]. apply is_quorum_iff in Eq.
      destruct (is_empty (fst (find_satisfiable_nodes (diff all sel) f))) eqn:Ee; simpl; do 4 eexists; split; try reflexivity.
      * apply is_empty_eq in Ee. cbv iota. repeat split; auto. intros Q _ Hi _ _. eapply no_partner_anti; eauto.
      * cbv iota beta. split; auto. split; [apply find_satisfiable_nodes_quorums, inhabited_iff; auto|].
        intros (y & Hy & Hy'). apply find_satisfiable_incl in Hy'. rewrite mem_diff, Hy, andb_false_r in Hy'. discriminate. }
    assert (Hnq : ~ quorum f sel).
    { intro HQ. apply is_quorum_iff in HQ as HQ'. rewrite HQ', andb_true_r in Eq. apply Hch; auto. }
    destruct (picks =? 0) eqn:Ep.
    { apply Nat.eqb_eq in Ep. subst picks. do 4 eexists. split; [reflexivity|]. repeat split; auto. intros Q HQ H1 H2 H3.
      assert (sel = Q); [|subst; contradiction]. apply len_subset_eq; auto. lia. }
    apply Nat.eqb_neq in Ep. cbv zeta.
    assert (Eu := union_cons_l sel x l).
    assert (Ea : remove x (diff all sel) = diff all (insert x sel)).
    { apply bset_ext. intro y. rewrite mem_remove, !mem_diff, mem_insert, negb_orb.
      destruct (mem y all), (mem y sel), (y =? x); auto. }
    destruct (IH (insert x sel) (picks - 1) true) as (s1 & a1 & n1 & r1 & E1 & H1); auto.
    { intros y Hy. rewrite mem_insert. apply orb_false_iff. split; [|apply Hdis; right; auto].
      apply Nat.eqb_neq. intros ->. auto. }
    { rewrite Eu. auto. }
    { discriminate. }
    rewrite Eu in E1, H1. fold avail in E1, H1. rewrite Ea, E1. destruct r1 as [[a b]|].
    { do 4 eexists. split; [reflexivity|]. exact H1. }
    destruct H1 as (-> & -> & -> & H1).
    rewrite remove_insert by auto.
    assert (Hrem : remove x avail = union sel (of_list l)) by (apply remove_cons; auto).
    assert (Hback : insert x (union sel (of_list l)) = avail).
    { rewrite <- Hrem. apply insert_remove. unfold avail. rewrite mem_union, orb_true_iff, mem_of_list. simpl. auto. }
    assert (Hav : forall Q, incl_set Q (union sel (of_list l)) <-> incl_set Q avail /\ mem x Q = false).
    { intro Q. rewrite <- Hrem. apply incl_remove. }
    assert (Eb : insert x (diff all (insert x sel)) = diff all sel).
    { rewrite <- Ea. apply insert_remove. rewrite mem_diff, Hxs, Hxa. auto. }
    rewrite Eb, !Hrem.
    assert (Hwith : forall Q, quorum f Q -> incl_set sel Q -> incl_set Q avail -> len Q <= len sel + picks -> mem x Q = true -> no_partner Q).
    { intros Q HQ H2 H3 H4 H5. apply H1; auto.
      - apply incl_insert. auto. - rewrite len_insert by auto. lia. }
    destruct (selection_satisfiable sel (union sel (of_list l)) f) eqn:Es.
    + destruct (IH sel picks false) as (s2 & a2 & n2 & r2 & E2 & H2); auto.
      { intros y Hy. apply Hdis. right; auto. }
      { intros y Hy. apply Hall. rewrite mem_union, orb_true_iff, mem_of_list in *. simpl. tauto. }
      rewrite E2. destruct r2 as [[a b]|].
      { do 4 eexists. split; [reflexivity|]. exact H2. }
      destruct H2 as (-> & -> & -> & H2). rewrite Hback. do 4 eexists. split; [reflexivity|]. repeat split; auto.
      intros Q HQ H3 H4 H5. destruct (mem x Q) eqn:Ex; auto. apply H2; auto. apply Hav. auto.
    + rewrite Hback. do 4 eexists. split; [reflexivity|]. repeat split; auto.
      intros Q HQ H3 H4 H5. destruct (mem x Q) eqn:Ex; auto. exfalso.
      eapply no_quorum_unsatisfiable; [exact Es|exact HQ|auto|]. apply Hav. auto.
Qed.
End Step.

Section Main.
Variable E : ext.
Hypothesis HE : ext_ok E.
Variable f : fbas.
Hypothesis Hwf : wf_fbas f.

(** A single cluster is a quorum: what its satisfiable members reach leads back to a quorum, hence
    into the cluster. *)
Lemma single_cluster_quorum c : consensus_clusters E f = [c] -> quorum f c.
Proof.
  intro Ec. assert (Hc : In c (consensus_clusters E f)) by (rewrite Ec; left; auto).
  destruct (cluster_quorum E f c Hc) as (m & [[(w & Hw) _] _] & Hmc).
  apply quorum_closed. split; [exists w; auto|]. intros x Hx.
  assert (Hxs := Hx). apply (cluster_class E HE f Hwf c w x Hc (Hmc w Hw)) in Hxs. destruct Hxs as [Hxs Hlx].
  destruct (satisfiable_nodes_spec f) as [Hcl Hlargest].
  assert (Hsat := Hcl x Hxs). unfold sat in *.
  rewrite (is_quorum_slice_local _ c (satisfiable_nodes f)); auto.
  intros y Hy. destruct (mem y (satisfiable_nodes f)) eqn:Ey.
  - (* [y] is in a quorum whose part reachable from [y] has a minimal quorum, which lies in [c] *)
    assert (HQ : quorum f (satisfiable_nodes f)).
    { apply quorum_closed. split; auto. exists y; auto. }
    assert (HR := quorum_reach f _ y Hwf HQ Ey).
    destruct (minimal_quorum_below f _ HR) as (m' & Hm' & Hmm').
    destruct (minimal_quorum_cluster E HE f Hwf m' Hmm') as (d & Hd & Hmd). rewrite Ec in Hd. destruct Hd as [<-|[]].
    destruct Hmm' as [[(z & Hz) _] _].
    assert (Hyr : y < number_of_nodes f) by (apply mem_all_nodes, (quorum_nodes f _ HQ); auto).
    apply (cluster_class E HE f Hwf c x y Hc Hx). split; auto.
    assert (Hzy : trusts_transitively f y z).
    { apply Hm' in Hz. rewrite mem_inter, andb_true_iff in Hz. apply (mem_reach_set f y z Hwf Hyr). tauto. }
    assert (Hxz : linked f x z) by (apply (cluster_class E HE f Hwf c x z Hc Hx), Hmd, Hz).
    assert (Hxy : trusts_transitively f x y).
    { apply rt_step. exists (qset_of f x). split; auto. apply qset_of_node.
      apply mem_all_nodes. eapply cluster_nodes; eauto. }
    split; auto. eapply rt_trans; [exact Hzy|]. apply Hxz.
  - apply not_true_iff_false. intro Hyc. apply not_true_iff_false in Ey. apply Ey.
    apply (cluster_class E HE f Hwf c x y Hc Hx); auto.
Qed.

Lemma disjoint_pairs (l : list bset) (g : bset -> bset) :
  NoDup l -> (forall c d x, In c l -> In d l -> mem x c = true -> mem x d = true -> c = d) ->
  (forall c, In c l -> incl_set (g c) c) -> ForallOrdPairs (fun a b => ~ meets a b) (map g l).
Proof.
  intros Hnd Hdis Hg. induction l as [|c l IH]; simpl; constructor.
  - apply Forall_map, Forall_forall. intros d Hd (x & Hx & Hx'). inversion Hnd; subst.
    assert (c = d); [|subst; auto]. apply (Hdis c d x); simpl; auto; apply Hg; simpl; auto.
  - inversion Hnd; subst. apply IH; auto.
    + intros a b x Ha Hb. apply Hdis; simpl; auto.
    + intros a Ha. apply Hg. simpl; auto.
Qed.

Lemma find_nonintersecting_quorums_spec : (exists Q, quorum f Q) ->
  exists o, find_nonintersecting_quorums E f = Ok o /\
  match o with
  | Some v => 2 <= List.length v /\ (forall Q, In Q v -> quorum f Q) /\ ForallOrdPairs (fun a b => ~ meets a b) v
  | None => forall Q Q', quorum f Q -> quorum f Q' -> meets Q Q'
  end.
Proof.
  intros (Q0 & HQ0). unfold find_nonintersecting_quorums, find_sets, nonintersecting_quorums_finder.
  destruct (1 <? List.length (consensus_clusters E f)) eqn:El.
  - apply Nat.ltb_lt in El. simpl. rewrite map_length.
    replace (List.length (consensus_clusters E f) <? 2) with false by (symmetry; apply Nat.ltb_ge; lia).
    eexists. split; [reflexivity|]. cbv iota beta. rewrite map_length. split; [lia|]. split.
    + intros Q HQ. apply in_map_iff in HQ. destruct HQ as (c & <- & Hc).
      apply find_satisfiable_nodes_quorums. destruct (cluster_quorum E f c Hc) as (m & [Hm _] & Hmc).
      assert (H := find_satisfiable_largest f c m Hm Hmc). destruct Hm as [(x & Hx) _]. exists x. auto.
    + apply disjoint_pairs.
      * apply clusters_nodup; auto.
      * intros c d x Hc Hd. apply (clusters_disjoint E HE f Hwf); auto.
      * intros c _. apply find_satisfiable_incl.
  - apply Nat.ltb_ge in El. destruct (consensus_clusters E f) as [|c [|d cl]] eqn:Ec; [| |simpl in El; lia].
    { exfalso. apply (proj1 (clusters_none E HE f Hwf) Ec Q0 HQ0). }
    assert (Hc : In c (consensus_clusters E f)) by (rewrite Ec; left; auto).
    assert (Hcn := cluster_nodes E f c Hc).
    assert (Hcq := single_cluster_quorum c Ec).
    set (u := rank_sort E f (elements c)).
    assert (Hu : of_list u = c) by (apply rank_sort_of_list; auto).
    assert (Hnu : NoDup u) by (apply rank_sort_nodup; auto).
    assert (Hlu : List.length u = len c) by (rewrite <- Hu; symmetry; apply len_of_list; auto).
    assert (Eu : union bempty (of_list u) = c).
    { rewrite Hu. apply bset_ext. intro y. rewrite mem_union, mem_empty. auto. }
    assert (Ed : diff c bempty = c).
    { apply bset_ext. intro y. rewrite mem_diff, mem_empty, andb_true_r. auto. }
    destruct (nonintersecting_step_spec f c u bempty (List.length u / 2) true) as (s' & a' & n' & r & Er & Hr); auto.
    { rewrite Eu. apply incl_refl. } { discriminate. }
    rewrite Eu, Ed in Er. rewrite Hu. rewrite Er.
    destruct r as [[a b]|].
    + destruct Hr as (Ha & Hb & Hd). rewrite !(proj2 (is_quorum_iff _ _)) by auto.
      assert (Hdb : disjoint a b = true).
      { apply not_false_iff_true. rewrite not_disjoint_meets. auto. }
      rewrite Hdb. simpl. eexists. split; [reflexivity|]. simpl. split; [lia|]. split.
      * intros Q [<-|[<-|[]]]; auto.
      * repeat constructor; auto.
    + destruct Hr as (-> & -> & -> & Hr). rewrite Eu, (proj2 (is_quorum_iff _ _)) by auto. simpl.
      eexists. split; [reflexivity|]. cbv iota. intros Q Q' HQ HQ'.
      destruct (minimal_quorum_below f Q HQ) as (m & Hm & Hmm). destruct (minimal_quorum_below f Q' HQ') as (m' & Hm' & Hmm').
      assert (Hin : forall m, minimal_quorum f m -> incl_set m c).
      { intros k Hk. destruct (minimal_quorum_cluster E HE f Hwf k Hk) as (d & Hd & Hi). rewrite Ec in Hd.
        destruct Hd as [<-|[]]; auto. }
      assert (Hmeet : meets m m').
      { rewrite Eu in Hr. rewrite Hlu in Hr. simpl in Hr.
        assert (Hhalf : forall k, minimal_quorum f k -> len k <= len c / 2 -> no_partner f c k).
        { intros k Hk Hl. apply Hr; [apply Hk| |apply Hin; auto|].
          - intros x Hx. rewrite mem_empty in Hx. discriminate.
          - rewrite (proj2 (len_zero _) eq_refl). simpl. auto. }
        apply not_disjoint_meets, not_true_iff_false. intro Hd.
        assert (Hd' := proj1 (disjoint_iff _ _) Hd).
        assert (Hsum : len m + len m' <= len c).
        { rewrite <- len_union_disjoint by auto. apply len_subset. intros x Hx. rewrite mem_union, orb_true_iff in Hx.
          destruct Hx as [Hx|Hx]; [apply (Hin m)|apply (Hin m')]; auto. }
        assert (Hor : len m <= len c / 2 \/ len m' <= len c / 2).
        { destruct (le_lt_dec (len m) (len c / 2)); auto. right.
          assert (len c = 2 * (len c / 2) + len c mod 2) by (apply Nat.div_mod; lia).
          assert (len c mod 2 < 2) by (apply Nat.mod_upper_bound; lia). lia. }
        assert (~ disjoint m m' = true); [|auto]. apply not_true_iff_false, not_disjoint_meets.
        destruct Hor as [Ho|Ho].
        - apply (Hhalf m Hmm Ho m'); [apply Hmm'|apply Hin; auto].
        - apply meets_sym. apply (Hhalf m' Hmm' Ho m); [apply Hmm|apply Hin; auto]. }
      destruct Hmeet as (x & Hx & Hx'). exists x. auto.
Qed.

(** without a quorum the search panics *)
Lemma find_nonintersecting_quorums_panic : (forall Q, ~ quorum f Q) -> find_nonintersecting_quorums E f = Panic.
Proof.
  intro H. unfold find_nonintersecting_quorums, find_sets, nonintersecting_quorums_finder.
  rewrite (proj2 (clusters_none E HE f Hwf) H). simpl. rewrite elements_empty.
  assert (Ep : rank_sort E f [] = []).
  { apply Permutation_nil. symmetry. apply HE; auto; [constructor|]. intros x []. }
  rewrite Ep. simpl.
  assert (Hq : is_quorum f (of_list []) = false).
  { apply is_quorum_false. auto. }
  assert (Hq' : is_quorum f bempty = false) by (apply is_quorum_false; auto).
  rewrite Hq'. cbn. rewrite Hq. auto.
Qed.
End Main.
