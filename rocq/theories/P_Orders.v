(** Results do not depend on the order in which the rank heuristic and the component
    decomposition list nodes. *)
From Verif Require Export P_ThAnalysis.
Local Open Scope list_scope.

Lemma sort_sets_perm_eq l l' : Permutation l l' -> sort_sets l = sort_sets l'.
Proof. intro H. unfold sort_sets. rewrite (sort_by_perm_eq bset_compare l l'); auto. apply bset_cmp_ok. Qed.

Lemma flat_map_perm {A B} (g h : A -> list B) l l' : Permutation l l' -> (forall a, In a l -> Permutation (g a) (h a)) ->
  Permutation (flat_map g l) (flat_map h l').
Proof.
  intros P H. transitivity (flat_map h l).
  - clear P. induction l as [|a l IH]; simpl; auto. apply Permutation_app; [apply H; left; auto|]. apply IH. intros; apply H; right; auto.
  - clear H. induction P; simpl; auto.
    + apply Permutation_app_head; auto.
    + rewrite !app_assoc. apply Permutation_app_tail, Permutation_app_comm.
    + etransitivity; eauto.
Qed.

(** products of permuted lists *)
Lemma product_forall2 (l l' : list (list bset)) : Forall2 (@Permutation bset) l l' -> Permutation (product l) (product l').
Proof.
  induction 1 as [|a b l l' Hab Hl IH]; simpl; auto.
  apply flat_map_perm; auto. intros x _. apply Permutation_map; auto.
Qed.

Lemma unions_cons a l : unions (a :: l) = union a (unions l).
Proof. apply bset_ext. intro x. apply eq_true_iff_eq. rewrite mem_union, orb_true_iff, !mem_unions. split.
  - intros (s & [->|Hs] & Hx); eauto.
  - intros [Hx|(s & Hs & Hx)]; [exists a|exists s]; simpl; auto.
Qed.

Lemma map_unions_cons a l : map unions (map (cons a) l) = map (union a) (map unions l).
Proof. rewrite !map_map. apply map_ext. intro p. apply unions_cons. Qed.

Lemma flat_map_map_comm {A B C} (g : A -> B -> C) (l : list A) (m : list B) :
  Permutation (flat_map (fun a => map (g a) m) l) (flat_map (fun b => map (fun a => g a b) l) m).
Proof.
  induction l as [|a l IH]; simpl.
  - induction m; simpl; auto.
  - rewrite IH. clear IH. induction m as [|b m IH]; simpl; auto. constructor. rewrite <- IH.
    rewrite !app_assoc. apply Permutation_app_tail. apply Permutation_app_comm.
Qed.

Lemma map_unions_flat {A} (g : A -> list (list bset)) l : map unions (flat_map g l) = flat_map (fun a => map unions (g a)) l.
Proof. induction l as [|a l IH]; simpl; auto. rewrite map_app, IH. auto. Qed.

Lemma map_unions_product xs l : map unions (product (xs :: l)) = flat_map (fun x => map (union x) (map unions (product l))) xs.
Proof. simpl. rewrite map_unions_flat. apply flat_map_ext. intro a. apply map_unions_cons. Qed.

Lemma map_flat {A B C} (h : B -> C) (g : A -> list B) l : map h (flat_map g l) = flat_map (fun a => map h (g a)) l.
Proof. induction l as [|a l IH]; simpl; auto. rewrite map_app, IH. auto. Qed.

Lemma product_perm (l l' : list (list bset)) : Permutation l l' -> Permutation (map unions (product l)) (map unions (product l')).
Proof.
  induction 1 as [|xs l l' P IH|xs ys l|l l' l'' P1 IH1 P2 IH2].
  - auto.
  - rewrite !map_unions_product. apply flat_map_perm; auto. intros a _. apply Permutation_map; auto.
  - rewrite !map_unions_product.
    transitivity (flat_map (fun y => flat_map (fun x => map (fun m => union y (union x m)) (map unions (product l))) xs) ys).
    + apply flat_map_perm; auto. intros y _. rewrite map_flat. apply flat_map_perm; auto.
      intros x _. rewrite !map_map. auto.
    + generalize (map unions (product l)). intro m.
      transitivity (flat_map (fun x => flat_map (fun y => map (fun m => union y (union x m)) m) ys) xs).
      * clear. revert xs. induction ys as [|y ys IH]; intro xs; simpl.
        -- induction xs; simpl; auto.
        -- rewrite IH. clear IH. induction xs as [|x xs IH]; simpl; auto. rewrite <- IH.
           rewrite <- !app_assoc. apply Permutation_app_head. rewrite !app_assoc. apply Permutation_app_tail, Permutation_app_comm.
      * apply flat_map_perm; auto. intros x _. rewrite map_flat. apply flat_map_perm; auto. intros y _. rewrite map_map.
        erewrite map_ext; [reflexivity|]. intro s. simpl. apply bset_ext. intro z. rewrite !mem_union. destruct (mem z x), (mem z y); auto.
  - etransitivity; eauto.
Qed.

Section Two.
Variables E1 E2 : ext.
Hypothesis H1 : ext_ok E1.
Hypothesis H2 : ext_ok E2.
Variable f : fbas.
Hypothesis Hwf : wf_fbas f.

Lemma clusters_same c : In c (consensus_clusters E1 f) -> In c (consensus_clusters E2 f).
Proof.
  intro Hc. destruct (cluster_quorum E1 f c Hc) as (q & Hq & Hi).
  destruct (minimal_quorum_cluster E2 H2 f Hwf q Hq) as (d & Hd & Hi').
  assert (Hx : exists x, mem x q = true) by apply Hq. destruct Hx as (x & Hx).
  assert (c = d); [|subst; auto].
  apply bset_ext. intro y. apply eq_true_iff_eq.
  rewrite (cluster_class E1 H1 f Hwf c x y Hc (Hi x Hx)), (cluster_class E2 H2 f Hwf d x y Hd (Hi' x Hx)). tauto.
Qed.
End Two.

Section Both.
Variables E1 E2 : ext.
Hypothesis H1 : ext_ok E1.
Hypothesis H2 : ext_ok E2.
Variable f : fbas.
Hypothesis Hwf : wf_fbas f.

Lemma clusters_perm : Permutation (consensus_clusters E1 f) (consensus_clusters E2 f).
Proof.
  apply NoDup_Permutation; try (apply clusters_nodup; auto).
  intro c. split; apply clusters_same; auto.
Qed.

Lemma relevant_same : relevant_nodes E1 f = relevant_nodes E2 f.
Proof.
  apply bset_ext. intro x. apply eq_true_iff_eq. rewrite !mem_relevant_nodes. split; intros (c & Hc & Hx); exists c; split; auto.
  - apply (Permutation_in _ clusters_perm); auto.
  - apply (Permutation_in _ (Permutation_sym clusters_perm)); auto.
Qed.
End Both.

(** ** minimal quorums *)
Definition quorums_in_cluster (E : ext) (f : fbas) (c : bset) : list bset :=
  match find_symmetric_cluster_in_consensus_cluster c f with
  | Ok (Some q) => to_minimal_quorums q f
  | Ok None => snd (minimal_quorums_finder_step f (rank_sort E f (elements c)) bempty (of_list (rank_sort E f (elements c))) [] true)
  | Panic => []
  end.

Section Quorums.
Variable E : ext.
Hypothesis HE : ext_ok E.
Variable f : fbas.
Hypothesis Hwf : wf_fbas f.

Lemma nonsymmetric_quorums c : In c (consensus_clusters E f) -> find_symmetric_cluster_in_consensus_cluster c f = Ok None ->
  forall found, exists s a new,
    minimal_quorums_finder_step f (rank_sort E f (elements c)) bempty (of_list (rank_sort E f (elements c))) found true
    = (s, a, found ++ new) /\ NoDup new /\ forall Q, In Q new <-> minimal_quorum f Q /\ incl_set Q c.
Proof.
  intros Hc Es fd. assert (Hcn := cluster_nodes E f c Hc).
  assert (Hnd : NoDup (rank_sort E f (elements c))) by (apply rank_sort_nodup; auto).
  destruct (finder_step_top f (rank_sort E f (elements c)) fd Hnd) as (new & En & Nn & Sn).
  rewrite rank_sort_of_list in * by auto.
  destruct (minimal_quorums_finder_step _ _ _ _ _ _) as [[s a] r]. simpl in En. subst r. exists s, a, new. auto.
Qed.

Lemma finder_loop_flat cl : incl cl (consensus_clusters E f) -> forall found,
  exists new, minimal_quorums_finder_loop E f cl found = Ok (found ++ new) /\ Permutation new (flat_map (quorums_in_cluster E f) cl).
Proof.
  induction cl as [|c cl IH]; intros Hi found; cbn [minimal_quorums_finder_loop flat_map].
  - exists []. rewrite app_nil_r. auto.
  - assert (Hc : In c (consensus_clusters E f)) by (apply Hi; left; auto).
    assert (Hi' : incl cl (consensus_clusters E f)) by (intros d Hd; apply Hi; right; auto).
    unfold quorums_in_cluster at 1.
    destruct (find_symmetric_cluster_cases E HE f Hwf c Hc) as [[Es _]|(q & Es & _)]; rewrite Es; cbn [bind].
    + destruct (nonsymmetric_quorums c Hc Es found) as (s & a & new & -> & Nn & Sn).
      destruct (nonsymmetric_quorums c Hc Es []) as (s' & a' & new' & -> & Nn' & Sn').
      destruct (IH Hi' (found ++ new)) as (r & -> & Pr). exists (new ++ r). rewrite app_assoc. split; auto. simpl.
      apply Permutation_app; auto. apply NoDup_Permutation; auto. intro Q. rewrite Sn, Sn'. tauto.
    + destruct (IH Hi' (found ++ to_minimal_quorums q f)) as (r & -> & Pr). exists (to_minimal_quorums q f ++ r).
      rewrite app_assoc. split; auto. apply Permutation_app_head; auto.
Qed.

Lemma find_minimal_quorums_flat :
  find_minimal_quorums E f = Ok (sort_sets (flat_map (quorums_in_cluster E f) (consensus_clusters E f))).
Proof.
  unfold find_minimal_quorums, find_minimal_sets, find_sets, minimal_quorums_finder.
  destruct (finder_loop_flat (consensus_clusters E f) (fun c Hc => Hc) []) as (new & -> & P). simpl. f_equal.
  apply sort_sets_perm_eq; auto.
Qed.

(** ** minimal blocking sets *)
Lemma nonsymmetric_blocking c : In c (consensus_clusters E f) -> find_symmetric_cluster_in_consensus_cluster c f = Ok None ->
  exists l, blocking_sets_in_cluster E f c = Ok l /\ NoDup l /\ forall B, In B l <-> minimal (cblocking f c) B.
Proof.
  intros Hc Es. unfold blocking_sets_in_cluster. rewrite Es. cbn [bind].
  assert (Hcn := cluster_nodes E f c Hc).
  destruct (blocking_step_spec f c (rank_sort E f (elements c)) bempty [] true) as (new & En & Nn & Sn).
  - apply rank_sort_nodup; auto.
  - intros; apply mem_empty.
  - intros x Hx. rewrite mem_union, mem_empty, rank_sort_of_list in Hx; auto.
  - discriminate.
  - assert (A1 : union bempty (of_list (rank_sort E f (elements c))) = c).
    { apply bset_ext. intro x. rewrite mem_union, mem_empty, rank_sort_of_list; auto. }
    assert (A2 : diff c bempty = c).
    { apply bset_ext. intro x. rewrite mem_diff, mem_empty, andb_true_r. auto. }
    assert (A3 : diff c c = bempty).
    { apply bset_ext. intro x. rewrite mem_diff, mem_empty. apply andb_negb_r. }
    rewrite A1, A2, A3 in En. rewrite A1 in Sn. rewrite rank_sort_of_list by auto. rewrite En. exists new.
    split; auto. split; auto. intro B. rewrite Sn. split; [tauto|]. intro H. split; auto. split.
    + intros x Hx. rewrite mem_empty in Hx. discriminate.
    + apply H.
Qed.

End Quorums.

Lemma filter_permutation {A} (g : A -> bool) l l' : Permutation l l' -> Permutation (filter g l) (filter g l').
Proof.
  induction 1; simpl; auto.
  - destruct (g x); auto.
  - destruct (g x), (g y); auto. constructor.
  - etransitivity; eauto.
Qed.

Lemma splitting_step_state f un : forall sel av found parts ch, NoDup un -> (forall x, In x un -> mem x sel = false /\ mem x av = true) ->
  exists r, splitting_sets_finder_step f un sel av found parts ch = (sel, av, r).
Proof.
  induction un as [|c un IH]; intros sel av found parts ch Hn Hu; cbn [splitting_sets_finder_step].
  - destruct (List.length parts <? 2); eauto. destruct (ch && _); eauto.
  - destruct (List.length parts <? 2); eauto. destruct (ch && _); eauto. inversion Hn as [|? ? Hc Hn']; subst.
    destruct (Hu c (or_introl eq_refl)) as [Hcs Hca].
    assert (Hne : forall x, In x un -> (x =? c) = false) by (intros x Hx; apply Nat.eqb_neq; intros ->; auto).
    match goal with |- context [splitting_sets_finder_step f un (insert c sel) av found ?p true] => destruct (IH (insert c sel) av found p true) as (r & ->) end; auto.
    { intros x Hx. destruct (Hu x (or_intror Hx)). split; auto. rewrite mem_insert. rewrite Hne; auto. }
    rewrite remove_insert by auto.
    destruct (has_potential sel (remove c av) f).
    + match goal with |- context [splitting_sets_finder_step f un sel ?a r ?p false] => destruct (IH sel a r p false) as (r' & ->) end; auto.
      { intros x Hx. destruct (Hu x (or_intror Hx)) as [Ha Hb]. split; auto. rewrite mem_remove, Hb, Hne; auto. }
      rewrite insert_remove by auto. eauto.
    + rewrite insert_remove by auto. eauto.
Qed.

(** quorums that the nodes to look at do not meet are irrelevant *)
Lemma splitting_first_step f un mq : NoDup un ->
  snd (splitting_sets_finder_step f un bempty (of_list un) [] mq true) =
  snd (splitting_sets_finder_step f un bempty (of_list un) [] (filter (fun q => negb (disjoint q (of_list un))) mq) true).
Proof.
  intro Hn. destruct un as [|c un]; cbn [splitting_sets_finder_step].
  - destruct (_ <? 2), (_ <? 2); unfold is_quorum_intersection; simpl; auto.
  - assert (Hz : forall parts, is_quorum_intersection bempty f parts = false) by reflexivity. rewrite !Hz. cbn [andb].
    set (av := of_list (c :: un)). set (g := fun q => negb (disjoint q av)).
    assert (A1 : filter (fun q => mem c q) (filter g mq) = filter (fun q => mem c q) mq).
    { induction mq as [|q mq IH]; simpl; auto. destruct (g q) eqn:Eg; simpl; rewrite IH; auto.
      destruct (mem c q) eqn:Ec; auto. exfalso. unfold g in Eg. apply negb_false_iff in Eg. rewrite disjoint_iff in Eg.
      apply (Eg c Ec). apply mem_of_list. left; auto. }
    rewrite A1.
    match goal with |- context [splitting_sets_finder_step f un (insert c bempty) av [] ?p true] => set (ps := p) end.
    inversion Hn as [|? ? Hc Hn']; subst.
    assert (Hne : forall x, In x un -> (x =? c) = false) by (intros x Hx; apply Nat.eqb_neq; intros ->; auto).
    destruct (splitting_step_state f un (insert c bempty) av [] ps true) as (r & Er); auto.
    { intros x Hx. split; [rewrite mem_insert, mem_empty, Hne; auto|]. apply mem_of_list. right; auto. }
    assert (A2 : filter (fun q => negb (disjoint q (remove c av))) (filter g mq) = filter (fun q => negb (disjoint q (remove c av))) mq).
    { clear - av g. induction mq as [|q mq IH]; simpl; auto. destruct (g q) eqn:Eg; simpl; rewrite IH; auto.
      destruct (disjoint q (remove c av)) eqn:Ed; auto. exfalso. unfold g in Eg. apply negb_false_iff in Eg. rewrite disjoint_iff in Eg.
      apply not_disjoint_meets in Ed. destruct Ed as (x & Hx & Hx'). rewrite mem_remove, andb_true_iff in Hx'. apply (Eg x); tauto. }
    destruct (Nat.ltb_spec (List.length mq) 2) as [L1|L1], (Nat.ltb_spec (List.length (filter g mq)) 2) as [L2|L2]; auto.
    + exfalso. assert (Hle := filter_length_le g mq). lia.
    + assert (Hp1 : List.length ps < 2).
      { unfold ps. rewrite map_length, <- A1. eapply Nat.le_lt_trans; [apply filter_length_le|auto]. }
      assert (Hp2 : List.length (filter (fun q => negb (disjoint q (remove c av))) mq) < 2).
      { rewrite <- A2. eapply Nat.le_lt_trans; [apply filter_length_le|auto]. }
      assert (Hs : forall u s a fd p ch, List.length p < 2 -> splitting_sets_finder_step f u s a fd p ch = (s, a, fd)).
      { intros u s a fd p ch Hp. apply Nat.ltb_lt in Hp. destruct u; cbn [splitting_sets_finder_step]; rewrite Hp; auto. }
      rewrite (Hs _ _ _ _ ps) by auto. destruct (has_potential _ _ _); auto. rewrite Hs by auto. auto.
    + rewrite Er. rewrite A2. auto.
Qed.

Lemma splitting_found_inhabited f un : forall sel av found parts ch, (forall s, In s found -> inhabited_set s) ->
  let '(_, _, r) := splitting_sets_finder_step f un sel av found parts ch in forall s, In s r -> inhabited_set s.
Proof.
  assert (Hsel : forall sel found parts, (forall s, In s found -> inhabited_set s) -> is_quorum_intersection sel f parts = true ->
     forall s, In s (found ++ [sel]) -> inhabited_set s).
  { intros sel found parts Hf Hq s Hs. apply in_app_iff in Hs. destruct Hs as [Hs|[<-|[]]]; auto. unfold is_quorum_intersection in Hq.
    rewrite !andb_true_iff, negb_true_iff in Hq. apply inhabited_iff. tauto. }
  induction un as [|c un IH]; intros sel av found parts ch Hf; cbn [splitting_sets_finder_step].
  - destruct (_ <? 2); auto. destruct (ch && is_quorum_intersection sel f parts) eqn:E; auto. apply andb_true_iff in E. apply (Hsel sel found parts); tauto.
  - destruct (_ <? 2); auto. destruct (ch && is_quorum_intersection sel f parts) eqn:E.
    + apply andb_true_iff in E. apply (Hsel sel found parts); tauto.
    + match goal with |- context [splitting_sets_finder_step f un (insert c sel) av found ?p true] => set (ps := p) end.
      assert (G := IH (insert c sel) av found ps true Hf).
      destruct (splitting_sets_finder_step f un (insert c sel) av found ps true) as [[s1 a1] r1].
      destruct (has_potential _ _ f); auto.
      match goal with |- context [splitting_sets_finder_step f un (remove c s1) ?a r1 ?p false] => set (ps2 := p); set (a2 := a) end.
      assert (G2 := IH (remove c s1) a2 r1 ps2 false G).
      destruct (splitting_sets_finder_step f un (remove c s1) a2 r1 ps2 false) as [[s2 a3] r2]. auto.
Qed.

Section Both2.
Variables E1 E2 : ext.
Hypothesis H1 : ext_ok E1.
Hypothesis H2 : ext_ok E2.
Variable f : fbas.
Hypothesis Hwf : wf_fbas f.

Lemma quorums_in_cluster_perm c : In c (consensus_clusters E1 f) ->
  Permutation (quorums_in_cluster E1 f c) (quorums_in_cluster E2 f c).
Proof.
  intro Hc. assert (Hc2 := Permutation_in _ (clusters_perm E1 E2 H1 H2 f Hwf) Hc). unfold quorums_in_cluster.
  destruct (find_symmetric_cluster_cases E1 H1 f Hwf c Hc) as [[Es _]|(q & Es & _)]; rewrite Es; auto.
  destruct (nonsymmetric_quorums E1 H1 f Hwf c Hc Es []) as (s & a & new & -> & Nn & Sn).
  destruct (nonsymmetric_quorums E2 H2 f Hwf c Hc2 Es []) as (s' & a' & new' & -> & Nn' & Sn').
  simpl. apply NoDup_Permutation; auto. intro Q. rewrite Sn, Sn'. tauto.
Qed.

Lemma quorums_same : find_minimal_quorums E1 f = find_minimal_quorums E2 f.
Proof.
  rewrite !find_minimal_quorums_flat by auto. f_equal. apply sort_sets_perm_eq. apply flat_map_perm; [apply clusters_perm; auto|].
  intros c Hc. apply quorums_in_cluster_perm; auto.
Qed.

Lemma blocking_in_cluster_perm c : In c (consensus_clusters E1 f) ->
  exists l l', blocking_sets_in_cluster E1 f c = Ok l /\ blocking_sets_in_cluster E2 f c = Ok l' /\ Permutation l l'.
Proof.
  intro Hc. assert (Hc2 := Permutation_in _ (clusters_perm E1 E2 H1 H2 f Hwf) Hc).
  destruct (find_symmetric_cluster_cases E1 H1 f Hwf c Hc) as [[Es _]|(q & Es & _)].
  - destruct (nonsymmetric_blocking E1 H1 f Hwf c Hc Es) as (l & El & Nl & Sl).
    destruct (nonsymmetric_blocking E2 H2 f Hwf c Hc2 Es) as (l' & El' & Nl' & Sl').
    exists l, l'. split; auto. split; auto. apply NoDup_Permutation; auto. intro B. rewrite Sl, Sl'. tauto.
  - unfold blocking_sets_in_cluster. rewrite Es. cbn [bind]. eauto.
Qed.

Lemma mapM_forall2 {A B} (g : A -> res B) l r : mapM g l = Ok r <-> Forall2 (fun a b => g a = Ok b) l r.
Proof.
  revert r. induction l as [|a l IH]; intro r; simpl.
  - split; intro H; inversion H; subst; auto.
  - split.
    + destruct (g a) as [b|] eqn:Eg; simpl; [|discriminate]. destruct (mapM g l) as [r'|]; simpl; [|discriminate].
      intro H. inversion H; subst. constructor; auto. apply IH; auto.
    + intro H. inversion H as [|? b ? r' Ha Hr]; subst. rewrite Ha. simpl. apply IH in Hr. rewrite Hr. auto.
Qed.

Lemma mapM_perm {A B} (g : A -> res B) l l' : Permutation l l' -> forall r, mapM g l = Ok r -> exists r', mapM g l' = Ok r' /\ Permutation r r'.
Proof.
  induction 1 as [|a l l' P IH|a b l|l l' l'' P1 IH1 P2 IH2]; intros r Hr.
  - exists r. auto.
  - apply mapM_forall2 in Hr. inversion Hr as [|? b ? s Ha Hs]; subst. apply mapM_forall2 in Hs.
    destruct (IH s Hs) as (s' & Es & Ps). exists (b :: s'). simpl. rewrite Ha, Es. simpl. auto.
  - apply mapM_forall2 in Hr. inversion Hr as [|? x ? s Ha Hs]; subst. inversion Hs as [|? y ? s' Hb Hs']; subst.
    apply mapM_forall2 in Hs'. exists (y :: x :: s'). simpl. rewrite Ha, Hb. simpl. rewrite Hs'. simpl. split; auto. constructor.
  - destruct (IH1 r Hr) as (r' & Er & Pr). destruct (IH2 r' Er) as (r'' & Er' & Pr'). exists r''. split; auto. etransitivity; eauto.
Qed.

Lemma blocking_same : find_minimal_blocking_sets E1 f = find_minimal_blocking_sets E2 f.
Proof.
  unfold find_minimal_blocking_sets, find_minimal_sets, find_sets, minimal_blocking_sets_finder.
  assert (Hmap : forall cl, incl cl (consensus_clusters E1 f) -> exists per per',
       mapM (blocking_sets_in_cluster E1 f) cl = Ok per /\ mapM (blocking_sets_in_cluster E2 f) cl = Ok per' /\ Forall2 (@Permutation bset) per per').
  { induction cl as [|c cl IH]; intro Hi; simpl.
    - exists [], []. auto.
    - destruct (blocking_in_cluster_perm c) as (l & l' & El & El' & P); [apply Hi; left; auto|].
      destruct IH as (per & per' & Ep & Ep' & Pp); [intros d Hd; apply Hi; right; auto|].
      rewrite El, El'. simpl. rewrite Ep, Ep'. simpl. exists (l :: per), (l' :: per'). auto. }
  destruct (Hmap (consensus_clusters E1 f) (fun c Hc => Hc)) as (per & per' & Ep & Ep' & Pp). rewrite Ep. simpl.
  destruct (mapM_perm (blocking_sets_in_cluster E2 f) _ _ (clusters_perm E1 E2 H1 H2 f Hwf) per' Ep') as (per2 & E2' & P2).
  rewrite E2'. simpl. f_equal. apply sort_sets_perm_eq.
  assert (G : Permutation (map unions (product per)) (map unions (product per2))).
  { transitivity (map unions (product per')); [apply Permutation_map, product_forall2; auto|apply product_perm; auto]. }
  unfold multi_cartesian_product. destruct per as [|p per].
  - inversion Pp; subst. apply Permutation_nil in P2. subst. auto.
  - destruct per2 as [|p2 per2]; auto. exfalso. symmetry in P2. apply Permutation_nil in P2. subst. inversion Pp.
Qed.

(** ** minimal splitting sets *)
Lemma cluster_quorums_iff E d Q : ext_ok E -> In d (consensus_clusters E f) ->
  (In Q (quorums_in_cluster E f d) <-> minimal_quorum f Q /\ incl_set Q d).
Proof.
  intros HE Hd. unfold quorums_in_cluster.
  destruct (find_symmetric_cluster_cases E HE f Hwf d Hd) as [[Es _]|(q & Es & _ & Hq & Hall)]; rewrite Es.
  - destruct (nonsymmetric_quorums E HE f Hwf d Hd Es []) as (s & a & new & -> & _ & Sn). apply Sn.
  - apply to_minimal_quorums_iff; auto.
Qed.

(** a list of minimal quorums is good enough for the search for splitting sets if it lists those of
    clusters that are not symmetric without duplicates *)
Definition search_list (mq : list bset) : Prop :=
  (forall Q, In Q mq <-> minimal_quorum f Q) /\
  forall c, In c (consensus_clusters E1 f) -> find_symmetric_cluster_in_consensus_cluster c f = Ok None ->
    NoDup (filter (fun q => negb (disjoint q c)) mq).

Lemma found_search_list mq : find_minimal_quorums E1 f = Ok mq -> search_list mq.
Proof.
  intro Hmq. destruct (find_minimal_quorums_spec E1 H1 f Hwf) as (l & El & Hl & _ & _). rewrite Hmq in El. inversion El; subst l.
  split; auto. clear El. intros c Hc Es. rewrite find_minimal_quorums_flat in Hmq by auto. inversion Hmq as [Hmq']. clear Hmq.
  eapply Permutation_NoDup.
  - apply filter_permutation. symmetry. apply sort_sets_perm.
  - assert (Hnd := clusters_nodup E1 H1 f Hwf). apply in_split in Hc as Hc'. destruct Hc' as (l1 & l2 & Ecl).
    assert (Hout : forall d, In d (consensus_clusters E1 f) -> d <> c -> filter (fun q => negb (disjoint q c)) (quorums_in_cluster E1 f d) = []).
    { intros d Hd Hne. destruct (filter _ _) as [|q r] eqn:Ef; auto. exfalso.
      assert (Hq : In q (q :: r)) by (left; auto). rewrite <- Ef in Hq. apply filter_In in Hq. destruct Hq as [Hq Hm].
      apply (cluster_quorums_iff E1 d q H1 Hd) in Hq. apply negb_true_iff, not_disjoint_meets in Hm. destruct Hm as (x & Hx & Hxc).
      apply Hne. apply (clusters_disjoint E1 H1 f Hwf d c x); auto. apply Hq; auto. }
    rewrite Ecl in *. rewrite flat_map_app. simpl. rewrite !filter_app.
    assert (Hz : forall l, (forall d, In d l -> In d (l1 ++ c :: l2) /\ d <> c) -> filter (fun q => negb (disjoint q c)) (flat_map (quorums_in_cluster E1 f) l) = []).
    { induction l as [|d l IH]; intro H; simpl; auto. rewrite filter_app, Hout, IH; auto; intros; apply H; simpl; auto. }
    apply NoDup_remove_2 in Hnd.
    rewrite !Hz, app_nil_r.
    + simpl. apply NoDup_filter. unfold quorums_in_cluster. rewrite Es. rewrite <- Ecl in Hc.
      destruct (nonsymmetric_quorums E1 H1 f Hwf c Hc Es []) as (s & a & new & -> & Nn & _). auto.
    + intros d Hd. split; [apply in_app_iff; right; right; auto|]. intros ->. apply Hnd, in_app_iff. auto.
    + intros d Hd. split; [apply in_app_iff; left; auto|]. intros ->. apply Hnd, in_app_iff. auto.
Qed.

Definition splitting_in_cluster (E : ext) (mq : list bset) (c : bset) : list bset :=
  match find_symmetric_cluster_in_consensus_cluster c f with
  | Ok (Some q) => to_minimal_splitting_sets q
  | Ok None => remove_non_minimal_node_sets
      (snd (splitting_sets_finder_step f (rank_sort E f (elements c)) bempty (of_list (rank_sort E f (elements c))) [] mq true))
  | Panic => []
  end.

Lemma splitting_flat E mq : ext_ok E ->
  find_minimal_splitting_sets E f mq = Ok (sort_sets (flat_map (splitting_in_cluster E mq) (consensus_clusters E f))).
Proof.
  intro HE. unfold find_minimal_splitting_sets, find_minimal_sets, find_sets.
  assert (H : forall cl, incl cl (consensus_clusters E f) ->
     minimal_splitting_sets_finder E mq cl f = Ok (flat_map (splitting_in_cluster E mq) cl)).
  { induction cl as [|c cl IH]; intro Hi; cbn [minimal_splitting_sets_finder flat_map]; auto.
    assert (Hc : In c (consensus_clusters E f)) by (apply Hi; left; auto).
    rewrite IH by (intros d Hd; apply Hi; right; auto). unfold splitting_in_cluster at 2.
    destruct (find_symmetric_cluster_cases E HE f Hwf c Hc) as [[Es _]|(q & Es & _)]; rewrite Es; cbn [bind]; auto.
    destruct (splitting_sets_finder_step _ _ _ _ _ _ _) as [[s a] r]. auto. }
  rewrite (H _ (fun c Hc => Hc)). auto.
Qed.

(** what the search finds in a cluster that is not symmetric *)
Lemma splitting_in_cluster_iff E mq c : ext_ok E -> In c (consensus_clusters E f) ->
  find_symmetric_cluster_in_consensus_cluster c f = Ok None ->
  (forall Q, In Q mq -> quorum f Q) -> NoDup (filter (fun q => negb (disjoint q c)) mq) ->
  StronglySorted before (splitting_in_cluster E mq c) /\
  forall S, In S (splitting_in_cluster E mq c) <->
    minimal (fun T => crossing (filter (fun q => negb (disjoint q c)) mq) T /\ inhabited_set T /\ incl_set T c) S.
Proof.
  intros HE Hc Es Hq Hnd. unfold splitting_in_cluster. rewrite Es. assert (Hcn := cluster_nodes E f c Hc).
  set (un := rank_sort E f (elements c)). set (L := filter (fun q => negb (disjoint q c)) mq).
  assert (Hun : NoDup un) by (apply rank_sort_nodup; auto).
  assert (Eun : of_list un = c) by (apply rank_sort_of_list; auto).
  assert (EL : L = filter (fun q => negb (disjoint q (of_list un))) mq) by (rewrite Eun; auto).
  rewrite splitting_first_step, <- EL by auto.
  assert (HL : forall Q, In Q L -> quorum f Q) by (intros Q HQ; apply filter_In in HQ; apply Hq; tauto).
  destruct (splitting_step_spec f L HL un bempty [] L true) as (new & En & Sn & Cn); auto.
  { intros Q HQ. split; auto. intros x Hx. rewrite mem_empty in Hx. discriminate. }
  assert (X1 : union bempty (of_list un) = of_list un).
  { apply bset_ext. intro x. rewrite mem_union, mem_empty. auto. }
  assert (X2 : map (fun Q => diff Q bempty) L = L).
  { rewrite <- (map_id L) at 2. apply map_ext. intro Q. apply bset_ext. intro x. rewrite mem_diff, mem_empty, andb_true_r. auto. }
  rewrite X1, X2 in En. rewrite X1, Eun in Cn.
  assert (Hb := splitting_found_inhabited f un bempty (of_list un) [] L true).
  assert (Hr := splitting_step_range f c un (fun x Hx => eq_trans (f_equal (mem x) (eq_sym Eun)) (proj2 (mem_of_list x un) Hx)) bempty (of_list un) [] L true).
  rewrite En in *. simpl in *.
  destruct (remove_non_minimal_exact new) as [Hs Hi]. split; auto. intro S. rewrite Hi.
  assert (G1 : forall T, In T new -> crossing L T /\ inhabited_set T /\ incl_set T c).
  { intros T HT. split; auto. split; [apply Hb; auto; intros ? []|].
    destruct Hr as [_ Hr]; auto; [intros x Hx; rewrite mem_empty in Hx; discriminate|intros ? []]. }
  assert (G2 : forall T, crossing L T /\ inhabited_set T /\ incl_set T c -> exists T', In T' new /\ incl_set T' T).
  { intros T (HT & Hin & Hic). apply Cn; auto. intros x Hx; rewrite mem_empty in Hx; discriminate. }
  split; intros [Hm1 Hm2].
  - split; auto. intros T HT Hi'. destruct (G2 T HT) as (T' & HT' & Hi'').
    assert (T' = S) by (apply Hm2; auto; intros x Hx; auto). subst T'. apply incl_antisym; auto.
  - destruct (G2 S Hm1) as (T' & HT' & Hi'). assert (T' = S) by (apply Hm2; auto). subst T'. split; auto.
Qed.

Lemma splitting_search_same mq : search_list mq -> find_minimal_splitting_sets E1 f mq = find_minimal_splitting_sets E2 f mq.
Proof.
  intros [Hmq Hnd]. rewrite !splitting_flat by auto. f_equal. apply sort_sets_perm_eq. apply flat_map_perm; [apply clusters_perm; auto|].
  intros c Hc. assert (Hc2 := Permutation_in _ (clusters_perm E1 E2 H1 H2 f Hwf) Hc).
  destruct (find_symmetric_cluster_cases E1 H1 f Hwf c Hc) as [[Es _]|(q & Es & _)].
  - assert (Hq : forall Q, In Q mq -> quorum f Q) by (intros Q HQ; apply Hmq in HQ; apply HQ).
    destruct (splitting_in_cluster_iff E1 mq c H1 Hc Es Hq (Hnd c Hc Es)) as [S1 I1].
    destruct (splitting_in_cluster_iff E2 mq c H2 Hc2 Es Hq (Hnd c Hc Es)) as [S2 I2].
    assert (splitting_in_cluster E1 mq c = splitting_in_cluster E2 mq c) as ->; auto.
    apply sorted_before_ext; auto. intro S. rewrite I1, I2. tauto.
  - unfold splitting_in_cluster. rewrite Es. auto.
Qed.

Lemma splitting_same mq : find_minimal_quorums E1 f = Ok mq ->
  find_minimal_splitting_sets E1 f mq = find_minimal_splitting_sets E2 f mq.
Proof. intro H. apply splitting_search_same, found_search_list, H. Qed.

Lemma symmetric_top_tier_same : find_symmetric_top_tier E1 f = find_symmetric_top_tier E2 f.
Proof.
  unfold find_symmetric_top_tier, find_symmetric_clusters, find_sets, symmetric_clusters_finder. cbn [bind].
  assert (P : Permutation (flat_map (fun c => find_symmetric_clusters_in_node_set c f) (consensus_clusters E1 f))
                          (flat_map (fun c => find_symmetric_clusters_in_node_set c f) (consensus_clusters E2 f))).
  { apply flat_map_perm; auto. apply clusters_perm; auto. }
  revert P. generalize (flat_map (fun c => find_symmetric_clusters_in_node_set c f) (consensus_clusters E1 f)).
  generalize (flat_map (fun c => find_symmetric_clusters_in_node_set c f) (consensus_clusters E2 f)).
  intros l' l P. destruct l as [|a [|b l]].
  - apply Permutation_nil in P. subst. auto.
  - apply Permutation_length_1_inv in P. subst. auto.
  - assert (Hl := Permutation_length P). destruct l' as [|a' [|b' l']]; simpl in Hl; try discriminate. auto.
Qed.

Lemma symmetric_clusters_same : exists l l', find_symmetric_clusters E1 f = Ok l /\ find_symmetric_clusters E2 f = Ok l' /\ Permutation l l'.
Proof.
  unfold find_symmetric_clusters, find_sets, symmetric_clusters_finder. eexists. eexists. split; [reflexivity|]. split; [reflexivity|].
  apply flat_map_perm; auto. apply clusters_perm; auto.
Qed.
End Both2.

(** ** Analysis *)
Lemma correct_same_orders E1 E2 f c a b : ext_ok E1 -> ext_ok E2 -> wf_fbas f ->
  distinct_clusters f \/ c <> MinimalQuorums -> c <> AlternativeCheck -> c <> SymmetricClusters ->
  correct_answer E1 f c a -> correct_answer E2 f c b -> same_answer a b.
Proof.
  intros H1 H2 Hwf Hd Hc Hs Ha Hb.
  apply (correct_same E1 f c a b); auto. destruct c; auto; simpl in *; try congruence.
  destruct Hb as (o & -> & Ho). exists o. split; auto. rewrite (symmetric_top_tier_same E1 E2); auto.
Qed.

Lemma analyze_orders E1 E2 f cs : ext_ok E1 -> ext_ok E2 -> wf_fbas f -> Forall (allowed f) cs ->
  (In MinimalQuorums cs -> distinct_clusters f) -> ~ In AlternativeCheck cs -> ~ In SymmetricClusters cs ->
  exists ans ans', analyze E1 f cs = Ok ans /\ analyze E2 f cs = Ok ans' /\ Forall2 same_answer ans ans'.
Proof.
  intros H1 H2 Hwf Hal Hd Hc Hs.
  destruct (analyze_ok E1 H1 f Hwf cs Hal) as (ans & Ea & Ca). destruct (analyze_ok E2 H2 f Hwf cs Hal) as (ans' & Ea' & Ca').
  exists ans, ans'. split; auto. split; auto. clear Ea Ea' Hal. revert ans' Ca'. induction Ca as [|c a cs ans Ha Ca IH]; intros ans' Ca'; inversion Ca' as [|? b ? ? Hb Cb]; subst; constructor.
  - apply (correct_same_orders E1 E2 f c a b); auto.
    + destruct c; try (right; discriminate). left. apply Hd. left; auto.
    + intros ->. apply Hc. left; auto.
    + intros ->. apply Hs. left; auto.
  - apply IH; auto; intro H; [apply Hd|apply Hc|apply Hs]; right; auto.
Qed.
