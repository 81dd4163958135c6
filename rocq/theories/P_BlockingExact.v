(** When exactly [find_minimal_blocking_sets] lists the minimal blocking sets. *)
From Verif Require Export P_BlockingSound.
Local Open Scope list_scope.

(** ** counting satisfied entries *)
Lemma filter_same {A} (g h : A -> bool) l : (forall a, In a l -> g a = h a) -> length (filter g l) = length (filter h l).
Proof. intro H. f_equal. apply filter_ext_in. exact H. Qed.
Lemma filter_split {A} (g : A -> bool) l1 a l2 : length (filter g (l1 ++ a :: l2)) = length (filter g l1) + (if g a then 1 else 0) + length (filter g l2).
Proof. rewrite filter_app, app_length. cbn [filter]. destruct (g a); cbn [length]; lia. Qed.
Lemma flat_apart l1 (i : qset) l2 : NoDup (flat_map contained_nodes_with_duplicates (l1 ++ i :: l2)) ->
  forall j x, In j (l1 ++ l2) -> mentions x i -> mentions x j -> False.
Proof.
  intros H j x Hj Hi Hm. rewrite <- contained_list_spec in Hi, Hm. rewrite flat_map_app in H. cbn [flat_map] in H.
  apply NoDup_app_inv in H. destruct H as (_ & H & H12). apply NoDup_app_inv in H. destruct H as (_ & _ & H2).
  apply in_app_iff in Hj. destruct Hj as [Hj|Hj].
  - apply (H12 x); [apply in_flat_map; eauto|apply in_app_iff; auto].
  - apply (H2 x); auto. apply in_flat_map; eauto.
Qed.
Lemma nodup_parts t vs is_ : nodup_qset (QS t vs is_) -> NoDup vs /\ NoDup (flat_map contained_nodes_with_duplicates is_) /\
  (forall x i, In x vs -> In i is_ -> mentions x i -> False).
Proof.
  intro H. destruct (nodup_qset_inv _ _ _ H) as (H1 & _ & H3 & _). unfold nodup_qset in H. cbn [contained_nodes_with_duplicates] in H.
  apply NoDup_app_inv in H. tauto.
Qed.

Lemma mem_insert_other x y s : y <> x -> mem y (insert x s) = mem y s.
Proof. intro H. rewrite mem_insert. destruct (Nat.eqb_spec y x); [congruence|reflexivity]. Qed.
Lemma filter_insert x s vs : NoDup vs -> length (filter (fun y => mem y (insert x s)) vs) <= S (length (filter (fun y => mem y s) vs)).
Proof.
  intro H. destruct (in_dec Nat.eq_dec x vs) as [Hx|Hx].
  - destruct (in_split x vs Hx) as (l1 & l2 & ->). apply NoDup_remove_2 in H. rewrite !filter_split.
    rewrite (filter_same (fun y => mem y (insert x s)) (fun y => mem y s) l1), (filter_same (fun y => mem y (insert x s)) (fun y => mem y s) l2).
    + destruct (mem x (insert x s)), (mem x s); lia.
    + intros y Hy. apply mem_insert_other. intros ->. apply H, in_app_iff; auto.
    + intros y Hy. apply mem_insert_other. intros ->. apply H, in_app_iff; auto.
  - rewrite (filter_same _ (fun y => mem y s)); [lia|]. intros y Hy. apply mem_insert_other. congruence.
Qed.
Lemma slice_insert_other x i s : ~ mentions x i -> is_quorum_slice i (insert x s) = is_quorum_slice i s.
Proof. intro H. apply is_quorum_slice_local. intros y Hy. apply mem_insert_other. congruence. Qed.
Lemma mentions_dec x q : mentions x q \/ ~ mentions x q.
Proof. rewrite <- contained_nodes_spec. destruct (mem x (contained_nodes q)); auto. Qed.
Lemma inner_mentions_dec x (is_ : list qset) : (exists i, In i is_ /\ mentions x i) \/ forall i, In i is_ -> ~ mentions x i.
Proof.
  induction is_ as [|i is_ [(j & Hj & Hm)|H]].
  - right. intros i [].
  - left. exists j. split; auto. right; auto.
  - destruct (mentions_dec x i) as [Hm|Hm]; [left; exists i; split; auto; left; auto|]. right. intros j [<-|Hj]; auto.
Qed.
(** one more node satisfies at most one more entry *)
Lemma matches_insert t vs is_ x s : nodup_qset (QS t vs is_) -> matches (insert x s) vs is_ <= S (matches s vs is_).
Proof.
  intro H. destruct (nodup_parts _ _ _ H) as (Hv & Hi & Hvi). unfold matches. destruct (inner_mentions_dec x is_) as [(i & Hin & Hm)|Hno].
  - rewrite (filter_same (fun y => mem y (insert x s)) (fun y => mem y s) vs).
    + destruct (in_split i is_ Hin) as (l1 & l2 & ->). assert (Ha := flat_apart l1 i l2 Hi). rewrite !filter_split.
      rewrite (filter_same (fun j => is_quorum_slice j (insert x s)) (fun j => is_quorum_slice j s) l1),
              (filter_same (fun j => is_quorum_slice j (insert x s)) (fun j => is_quorum_slice j s) l2).
      * destruct (is_quorum_slice i (insert x s)), (is_quorum_slice i s); lia.
      * intros j Hj. apply slice_insert_other. intro Hmj. apply (Ha j x); auto. apply in_app_iff; auto.
      * intros j Hj. apply slice_insert_other. intro Hmj. apply (Ha j x); auto. apply in_app_iff; auto.
    + intros y Hy. apply mem_insert_other. intros ->. eauto.
  - rewrite (filter_same (fun j => is_quorum_slice j (insert x s)) (fun j => is_quorum_slice j s) is_).
    + assert (X := filter_insert x s vs Hv). lia.
    + intros j Hj. apply slice_insert_other. auto.
Qed.
(** adding nodes one by one reaches every number in between *)
Lemma reach_matches t vs is_ k : nodup_qset (QS t vs is_) -> forall L s, matches s vs is_ <= k -> k <= matches (union s (of_list L)) vs is_ ->
  exists s', matches s' vs is_ = k /\ forall x, ~ In x L -> mem x s' = mem x s.
Proof.
  intro H. induction L as [|x L IH]; intros s H1 H2.
  - exists s. split; auto. assert (E : union s (of_list []) = s) by (apply bset_ext; intro x; rewrite mem_union; cbn; rewrite mem_empty; apply orb_false_r).
    rewrite E in H2. lia.
  - destruct (Nat.eq_dec (matches s vs is_) k) as [Ek|Ek]; [exists s; auto|].
    destruct (IH (insert x s)) as (s' & Es & Hs).
    + assert (X := matches_insert t vs is_ x s H). lia.
    + replace (union (insert x s) (of_list L)) with (union s (of_list (x :: L))); auto.
      apply bset_ext. intro y. apply eq_true_iff_eq. rewrite !mem_union, mem_insert, !orb_true_iff, !mem_of_list, Nat.eqb_eq. cbn [In]. intuition.
    + exists s'. split; auto. intros y Hy. rewrite Hs; [|intro Z; apply Hy; right; auto]. apply mem_insert_other. intros ->. apply Hy. left; auto.
Qed.

(** ** quorum sets with thresholds that cannot be met *)
Definition complement_on (q : qset) (s s' : bset) : Prop := forall x, mentions x q -> mem x s' = negb (mem x s).
Lemma unsatisfied_empty q s : (forall x, mentions x q -> mem x s = false) -> is_quorum_slice q s = false.
Proof. intro H. destruct (is_quorum_slice q s) eqn:E; auto. destruct (is_quorum_slice_meets _ _ E) as (x & Hx & Hm). rewrite (H x Hx) in Hm. discriminate. Qed.
Lemma satisfied_dec q : is_quorum_slice q (contained_nodes q) = true \/ forall s, is_quorum_slice q s = false.
Proof.
  destruct (is_quorum_slice q (contained_nodes q)) eqn:Eq; auto. right. intro s. destruct (is_quorum_slice q s) eqn:Es; auto. rewrite <- Eq. symmetry.
  apply (is_quorum_slice_mono_local q s); auto. intros x Hx _. apply contained_nodes_spec; auto.
Qed.
Lemma sane_dec q : sane q \/ ~ sane q.
Proof.
  induction q as [t vs is_ IH] using qset_ind'.
    assert (D : (forall i, In i is_ -> sane i) \/ exists i, In i is_ /\ ~ sane i).
    { clear t vs. induction is_ as [|i is_ IHl]; [left; intros i []|]. destruct (IH i (or_introl eq_refl)) as [Hi|Hi]; [|right; exists i; split; auto; left; auto].
      destruct (IHl (fun j Hj => IH j (or_intror Hj))) as [Hl|(j & Hj & Hs)]; [left; intros j [<-|Hj]; auto|right; exists j; split; auto; right; auto]. }
    destruct D as [D|(i & Hi & Hs)].
    - destruct (le_lt_dec 1 t) as [L1|L1]; [|right; intro Z; apply sane_inv in Z; lia].
      destruct (le_lt_dec t (length vs + length is_)) as [L2|L2]; [|right; intro Z; apply sane_inv in Z; lia]. left. constructor; auto.
    - right. intro Z. apply sane_inv in Z. destruct Z as (_ & _ & Z). apply Hs, Z, Hi.
Qed.
Lemma not_sane_inner t vs is_ : ~ sane (QS t vs is_) -> 1 <= t -> t <= length vs + length is_ -> exists i, In i is_ /\ ~ sane i.
Proof.
  intros H H1 H2. assert (D := sane_dec).
  assert (X : (forall i, In i is_ -> sane i) \/ exists i, In i is_ /\ ~ sane i).
  { clear H H2. induction is_ as [|i is_ IHl]; [left; intros i []|]. destruct (D i) as [Hi|Hi]; [|right; exists i; split; auto; left; auto].
    destruct IHl as [Hl|(j & Hj & Hs)]; [left; intros j [<-|Hj]; auto|right; exists j; split; auto; right; auto]. }
  destruct X as [X|X]; auto. exfalso. apply H. constructor; auto.
Qed.

(** the dual quorum set misses a set of nodes whose failure makes the original one unsatisfiable *)
Lemma dual_misses q : nodup_qset q -> ~ sane q -> exists s s', complement_on q s s' /\ is_quorum_slice q s' = false /\ is_quorum_slice (dual q) s = false.
Proof.
  induction q as [t vs is_ IH] using qset_ind'. intros Hnd Hs.
  destruct (satisfied_dec (QS t vs is_)) as [Hsat|Hun].
  2:{ exists bempty, (contained_nodes (QS t vs is_)). split; [|split; auto].
      - intros x Hx. rewrite mem_empty. apply contained_nodes_spec. exact Hx.
      - apply unsatisfied_empty. intros. apply mem_empty. }
  apply is_quorum_slice_matches in Hsat. destruct Hsat as (Ht & Hm).
  assert (Hn : t <= length vs + length is_).
  { unfold matches in Hm. assert (X := P_SplitSym.filter_length_le (fun x => mem x (contained_nodes (QS t vs is_))) vs).
    assert (Y := P_SplitSym.filter_length_le (fun i => is_quorum_slice i (contained_nodes (QS t vs is_))) is_). lia. }
  destruct (not_sane_inner t vs is_ Hs Ht Hn) as (i & Hi & Hsi). destruct (nodup_qset_inv _ _ _ Hnd) as (_ & Hndi & _ & _).
  destruct (IH i Hi (Hndi i Hi) Hsi) as (s0 & a0 & Hc0 & Hu0 & Hd0). destruct (nodup_parts _ _ _ Hnd) as (Hnv & Hni & Hvi).
  set (F := contained_nodes (QS t vs is_)) in *. set (a1 := inter a0 (contained_nodes i)).
  set (L := filter (fun x => negb (mem x (contained_nodes i))) (contained_nodes_with_duplicates (QS t vs is_))).
  destruct (in_split i is_ Hi) as (l1 & l2 & El). assert (Ha := Hni). rewrite El in Ha. assert (Ha' := flat_apart l1 i l2 Ha). clear Ha.
  assert (HL : forall x, In x L <-> mentions x (QS t vs is_) /\ ~ mentions x i).
  { intro x. unfold L. rewrite filter_In, contained_list_spec, negb_true_iff, <- not_true_iff_false, contained_nodes_spec. tauto. }
  assert (HF : forall x, mem x F = true <-> mentions x (QS t vs is_)) by (intro x; apply contained_nodes_spec).
  assert (Ha1 : forall x, mentions x i -> mem x a1 = mem x a0).
  { intros x Hx. apply contained_nodes_spec in Hx. unfold a1. rewrite mem_inter, Hx. apply andb_true_r. }
  assert (Ha1' : forall x, ~ mentions x i -> mem x a1 = false).
  { intros x Hx. rewrite <- contained_nodes_spec, not_true_iff_false in Hx. unfold a1. rewrite mem_inter, Hx. apply andb_false_r. }
  assert (Zi : forall s, (forall x, mentions x i -> mem x s = mem x a0) -> is_quorum_slice i s = false).
  { intros s H. rewrite <- Hu0. apply is_quorum_slice_local. auto. }
  assert (Hj : forall j x, In j l1 \/ In j l2 -> mentions x j -> ~ mentions x i).
  { intros j x Hin Hm1 Hm2. apply (Ha' j x); auto. apply in_app_iff; auto. }
  assert (Hjq : forall j x, In j l1 \/ In j l2 -> mentions x j -> mentions x (QS t vs is_)).
  { intros j x Hin Hm1. apply (mentions_inner x t vs is_ j); auto. rewrite El. apply in_app_iff. cbn. tauto. }
  destruct (reach_matches t vs is_ (t - 1) Hnd L a1) as (alive & Ek & Hk).
  - (* nothing is satisfied at first *)
    assert (X : matches a1 vs is_ = 0); [|lia]. unfold matches. rewrite El, filter_split, (Zi a1 Ha1).
    rewrite (filter_same (fun x => mem x a1) (fun _ => false) vs), (filter_same (fun j => is_quorum_slice j a1) (fun _ => false) l1),
            (filter_same (fun j => is_quorum_slice j a1) (fun _ => false) l2).
    + assert (Y : forall (A : Type) (l : list A), filter (fun _ => false) l = []) by (clear; induction l; auto). rewrite !Y. reflexivity.
    + intros j Hjl. apply unsatisfied_empty. intros x Hx. apply Ha1'. apply (Hj j); auto.
    + intros j Hjl. apply unsatisfied_empty. intros x Hx. apply Ha1'. apply (Hj j); auto.
    + intros x Hx. apply Ha1'. intro Z. eauto.
  - (* in the end all entries other than [i] are satisfied that can be *)
    assert (X : matches F vs is_ <= S (matches (union a1 (of_list L)) vs is_)); [|lia]. unfold matches. rewrite El, !filter_split.
    assert (Hu : forall x, mentions x (QS t vs is_) -> ~ mentions x i -> mem x F = mem x (union a1 (of_list L))).
    { intros x H1 H2. rewrite (proj2 (HF x) H1), mem_union. symmetry. apply orb_true_iff. right. apply mem_of_list, HL. auto. }
    rewrite (filter_same (fun x => mem x F) (fun x => mem x (union a1 (of_list L))) vs),
            (filter_same (fun j => is_quorum_slice j F) (fun j => is_quorum_slice j (union a1 (of_list L))) l1),
            (filter_same (fun j => is_quorum_slice j F) (fun j => is_quorum_slice j (union a1 (of_list L))) l2).
    + destruct (is_quorum_slice i F), (is_quorum_slice i (union a1 (of_list L))); lia.
    + intros j Hjl. apply is_quorum_slice_local. intros x Hx. apply Hu; eauto.
    + intros j Hjl. apply is_quorum_slice_local. intros x Hx. apply Hu; eauto.
    + intros x Hx. apply Hu; [left; auto|]. intro Z. eauto.
  - assert (Hki : forall x, mentions x i -> mem x alive = mem x a0) by (intros x Hx; rewrite Hk, Ha1; auto; rewrite HL; tauto).
    exists (diff F alive), alive. assert (Hdead : forall x, mentions x (QS t vs is_) -> mem x (diff F alive) = negb (mem x alive)).
    { intros x Hx. rewrite mem_diff, (proj2 (HF x) Hx). reflexivity. }
    assert (Hapart : forall x, mem x (diff F alive) = true -> mem x alive = false).
    { intros x Hx. rewrite mem_diff, andb_true_iff, negb_true_iff in Hx. apply Hx. }
    split; [|split].
    + intros x Hx. rewrite (Hdead x Hx), negb_involutive. reflexivity.
    + rewrite <- not_true_iff_false, is_quorum_slice_matches, Ek. lia.
    + rewrite <- not_true_iff_false. cbn [dual]. rewrite is_quorum_slice_matches. unfold matches in *. rewrite filter_map_length.
      assert (Edi : is_quorum_slice (dual i) (diff F alive) = false).
      { rewrite <- Hd0. apply is_quorum_slice_local. intros x Hx. apply (proj1 (dual_mentions i x)) in Hx.
        rewrite (Hdead x (mentions_inner x t vs is_ i Hi Hx)), (Hki x Hx). rewrite (Hc0 x Hx). apply negb_involutive. }
      rewrite El in *. rewrite !filter_split in *. rewrite app_length in Hn. cbn [length] in Hn. rewrite Edi. rewrite (Zi alive Hki) in Ek.
      assert (V := filter_apart (fun x => mem x (diff F alive)) (fun x => mem x alive) vs (fun x _ => Hapart x)).
      assert (W : forall l, length (filter (fun j => is_quorum_slice (dual j) (diff F alive)) l) + length (filter (fun j => is_quorum_slice j alive) l) <= length l).
      { intro l. apply filter_apart. intros j _. apply dual_blocks. intros x _. apply Hapart. }
      assert (W1 := W l1). assert (W2 := W l2).
      unfold blocking_threshold. rewrite app_length. cbn [length]. rewrite (leb_correct t) by lia. lia.
Qed.

(** ** which sets are listed *)
Section Exact.
Variable E : ext.
Hypothesis HE : ext_ok E.
Variable f : fbas.
Hypothesis Hwf : wf_fbas f.

(** the part of a listed set in a cluster is one of the sets found for the cluster *)
Lemma listed_parts l B c : find_minimal_blocking_sets E f = Ok l -> In B l -> In c (consensus_clusters E f) ->
  exists lc, blocking_sets_in_cluster E f c = Ok lc /\ In (inter B c) lc.
Proof.
  unfold find_minimal_blocking_sets, find_minimal_sets, find_sets, minimal_blocking_sets_finder.
  assert (Hmap : forall cl, incl cl (consensus_clusters E f) -> exists per, mapM (blocking_sets_in_cluster E f) cl = Ok per /\
       Forall2 (fun l c => blocking_sets_in_cluster E f c = Ok l /\ forall B, In B l -> cblocking f c B) per cl).
  { induction cl as [|d cl IH]; intro Hi; simpl.
    - exists []. split; auto.
    - destruct (cluster_sets_block E HE f Hwf d) as (ld & El & Sl); [apply Hi; left; auto|].
      destruct IH as (per & Ep & Hp); [intros e He; apply Hi; right; auto|].
      rewrite El. simpl. rewrite Ep. simpl. exists (ld :: per). split; auto. }
  destruct (Hmap (consensus_clusters E f)) as (per & Ep & Hper); [intros d Hd; auto|].
  rewrite Ep. simpl. intros X HB Hc. injection X as <-. rewrite sort_sets_in in HB.
  apply in_map_iff in HB. destruct HB as (p & <- & Hp). apply mcp_spec in Hp. destruct Hp as [_ Hp].
  assert (Hp' : Forall2 (fun B c => (exists l, blocking_sets_in_cluster E f c = Ok l /\ In B l) /\ cblocking f c B) p (consensus_clusters E f)).
  { clear - Hp Hper. revert p Hp. induction Hper as [|l c per cl [Hl Hl'] Hper IH]; intros p Hp; inversion Hp; subst; constructor; eauto. }
  assert (Hin : Forall2 (fun B c => inter (unions p) c = B) p (consensus_clusters E f)).
  { apply (choice_inter E HE f Hwf); [intros d Hd; auto|apply clusters_nodup; auto|].
    eapply Forall2_impl; [|exact Hp']. intros B d [_ [H _]]. auto. }
  clear - Hin Hp' Hc. revert Hin. generalize (unions p). intros U Hin. induction Hp' as [|B d p cl HB Hp IH]; [destruct Hc|].
  inversion Hin; subst. destruct Hc as [<-|Hc]; auto. apply HB.
Qed.

(** if no minimal blocking set is missing, none is missing for any cluster *)
Lemma complete_parts l c S : find_minimal_blocking_sets E f = Ok l -> (forall B, minimal_blocking f B -> In B l) ->
  In c (consensus_clusters E f) -> minimal (cblocking f c) S ->
  exists lc, blocking_sets_in_cluster E f c = Ok lc /\ In S lc.
Proof.
  intros El Hall Hc HS. set (B1 := union S (diff (all_nodes f) c)).
  assert (HB1 : blocking f B1).
  { apply (blocking_clusters E HE f Hwf). intros d Hd. destruct (bset_eq_dec c d) as [<-|Hcd].
    - replace (inter B1 c) with S; [apply HS|]. apply bset_ext. intro x. unfold B1. rewrite mem_inter, mem_union, mem_diff.
      destruct (mem x c) eqn:Ex; [rewrite andb_true_r; cbn; rewrite andb_false_r, orb_false_r; auto|].
      rewrite andb_false_r. destruct (mem x S) eqn:ExS; auto. destruct HS as [[Hi _] _]. apply Hi in ExS. congruence.
    - replace (inter B1 d) with d.
      + split; [apply incl_refl|]. apply contains_quorum_false. intros Q [(x & Hx) _] Hi. apply Hi in Hx. rewrite mem_diff, andb_negb_r in Hx. discriminate.
      + apply bset_ext. intro x. unfold B1. rewrite mem_inter, mem_union, mem_diff. destruct (mem x d) eqn:Ex; [|symmetry; apply andb_false_r].
        rewrite andb_true_r. symmetry. apply orb_true_iff. right. apply andb_true_iff. split; [apply (cluster_nodes E f d Hd x Ex)|].
        apply negb_true_iff. destruct (mem x c) eqn:Exc; auto. exfalso. apply Hcd. apply (clusters_disjoint E HE f Hwf c d x); auto. }
  destruct (minimal_below (blocking f)) with (s := B1) as (m & Hm & Hmm); auto.
  { intro s. destruct (contains_quorum (diff (all_nodes f) s) f) eqn:Eb; [right; rewrite blocking_iff, Eb; discriminate|left; apply blocking_iff; auto]. }
  destruct (listed_parts l m c El (Hall m Hmm) Hc) as (lc & Elc & Hin). exists lc. split; auto.
  replace S with (inter m c); auto. apply HS.
  - destruct Hmm as [Hmb _]. apply (proj1 (blocking_clusters E HE f Hwf m) Hmb c Hc).
  - intros x Hx. rewrite mem_inter, andb_true_iff in Hx. destruct Hx as [Hx Hxc]. apply Hm in Hx. unfold B1 in Hx.
    rewrite mem_union, mem_diff, Hxc in Hx. cbn in Hx. rewrite andb_false_r, orb_false_r in Hx. exact Hx.
Qed.

(** the cluster of a satisfiable symmetric quorum set *)
Lemma cluster_of q : satisfiable_cluster f q -> exists c, In c (consensus_clusters E f) /\
  find_symmetric_cluster_in_consensus_cluster c f = Ok (Some q) /\ contained_nodes q = c /\ forall x, mem x c = true -> qset_of f x = q.
Proof.
  intro Hq. destruct (find_symmetric_clusters_iff E HE f Hwf) as (l & El & _ & Hl). apply Hl in Hq.
  unfold find_symmetric_clusters, find_sets, symmetric_clusters_finder in El. injection El as <-. apply in_flat_map in Hq.
  destruct Hq as (c & Hc & Hq). exists c. split; auto.
  destruct (find_symmetric_cluster_cases E HE f Hwf c Hc) as [[_ Hno]|(q' & Es & Ef & Hq' & Hall)].
  - exfalso. apply (Hno q). apply find_symmetric_in_set_iff in Hq. exact Hq.
  - rewrite Ef in Hq. destruct Hq as [<-|[]]. auto.
Qed.

(** ** thresholds *)
Lemma complete_sane l : find_minimal_blocking_sets E f = Ok l -> (forall q, satisfiable_cluster f q -> no_repetitions q) ->
  (forall B, minimal_blocking f B -> In B l) -> forall q, satisfiable_cluster f q -> sane q.
Proof.
  intros El Hno Hall q Hq. destruct (sane_dec q) as [Hs|Hs]; auto. exfalso. assert (Hn := Hno q Hq). apply no_repetitions_nodup in Hn.
  destruct (dual_misses q Hn Hs) as (s & s' & Hcs & Hu & Hd). destruct (cluster_of q Hq) as (c & Hc & Es & Eq & Hqc).
  set (B := inter s c). assert (Hi : incl_set B c) by (intros x Hx; unfold B in Hx; rewrite mem_inter, andb_true_iff in Hx; tauto).
  assert (HB : cblocking f c B).
  { apply (sym_cblocking_iff f c q B Eq Hqc Hi). rewrite <- Hu. apply is_quorum_slice_local. intros x Hx. rewrite (Hcs x Hx).
    apply contained_nodes_spec in Hx. rewrite Eq in Hx. unfold B. rewrite mem_diff, mem_inter, Hx. cbn. rewrite andb_true_r. reflexivity. }
  destruct (minimal_below (cblocking f c) (cblocking_dec f c) B HB) as (m & Hm & Hmm).
  destruct (complete_parts l c m El Hall Hc Hmm) as (lc & Elc & Hin).
  unfold blocking_sets_in_cluster in Elc. rewrite Es in Elc. cbn [bind] in Elc. injection Elc as <-.
  unfold to_minimal_blocking_sets in Hin. rewrite (proj2 (contains_duplicates_false q) Hn), to_blocking_sets_dual in Hin.
  apply to_quorum_slices_sound in Hin. rewrite <- not_true_iff_false in Hd. apply Hd.
  apply (is_quorum_slice_mono (dual q) m); auto. intros x Hx. apply Hm in Hx. unfold B in Hx. rewrite mem_inter, andb_true_iff in Hx. tauto.
Qed.
Lemma no_quorum_nothing : (forall Q, ~ quorum f Q) -> find_minimal_blocking_sets E f = Ok [] /\ minimal_blocking f bempty.
Proof.
  intro H. split.
  - unfold find_minimal_blocking_sets, find_minimal_sets, find_sets, minimal_blocking_sets_finder. rewrite (proj2 (clusters_none E HE f Hwf) H). reflexivity.
  - split.
    + intros Q HQ. destruct (H Q HQ).
    + intros S' _ Hi. apply bset_ext. intro x. rewrite mem_empty. destruct (mem x S') eqn:Ex; auto. apply Hi in Ex. rewrite mem_empty in Ex. discriminate.
Qed.
Lemma exact_iff : (forall q, satisfiable_cluster f q -> no_repetitions q) ->
  exists l, find_minimal_blocking_sets E f = Ok l /\
    ((forall B, In B l <-> minimal_blocking f B) <-> (exists Q, quorum f Q) /\ forall q, satisfiable_cluster f q -> sane q).
Proof.
  intro Hno. destruct (mbs_sound E HE f Hwf) as (l & El & _). exists l. split; auto. split.
  - intro H. split.
    + destruct (quorum_decidable f) as [Hq|Hq]; auto. exfalso. destruct (no_quorum_nothing (fun Q HQ => Hq (ex_intro _ Q HQ))) as (E0 & H0). apply H in H0. rewrite El in E0. injection E0 as ->. destruct H0.
    + apply (complete_sane l El Hno). intro B. apply H.
  - intros [Hq Hs]. destruct (find_minimal_blocking_sets_spec E HE f Hwf (fun q Hq' => conj (Hno q Hq') (Hs q Hq')) Hq) as (l' & El' & _ & H). rewrite El in El'. injection El' as ->. exact H.
Qed.

(** ** repetitions *)
Lemma kept_single ids : NoDup ids -> ids <> [] -> minimal_for_blocking_loop f ids (of_list ids) = true ->
  exists x, In x ids /\ contains_quorum (of_list [x]) f = true.
Proof.
  induction ids as [|x ids IH]; intros Hn He H; [congruence|]. inversion Hn as [|x' ids' Hx Hn']; subst. cbn [minimal_for_blocking_loop] in H.
  assert (E1 : insert x (of_list (x :: ids)) = of_list (x :: ids)).
  { apply bset_ext. intro y. apply eq_true_iff_eq. rewrite mem_insert, orb_true_iff, !mem_of_list, Nat.eqb_eq. cbn [In]. intuition. }
  rewrite E1 in H. destruct (is_blocked_set (of_list (x :: ids)) f) eqn:Eb; [discriminate|]. destruct ids as [|y ids].
  - exists x. split; [left; auto|]. unfold is_blocked_set in Eb. apply negb_false_iff in Eb. exact Eb.
  - replace (remove x (of_list (x :: y :: ids))) with (of_list (y :: ids)) in H.
    + destruct (IH Hn' ltac:(discriminate) H) as (z & Hz & Hq). exists z. split; auto. right; auto.
    + apply bset_ext. intro z. apply eq_true_iff_eq. rewrite mem_remove, andb_true_iff, negb_true_iff, !mem_of_list, Nat.eqb_neq. cbn [In] in *. split.
      * intro Hz. split; [right; auto|]. intros ->. auto.
      * intros [[->|Hz] Hne]; [congruence|auto].
Qed.
Lemma repeated_nothing q : satisfiable_cluster f q -> ~ no_repetitions q ->
  (forall x Q, mentions x q -> quorum f Q -> exists y, mem y Q = true /\ y <> x) -> find_minimal_blocking_sets E f = Ok [].
Proof.
  intros Hq Hrep Hsing. destruct (mbs_sound E HE f Hwf) as (l & El & _). rewrite El. f_equal. destruct l as [|B l]; auto. exfalso.
  destruct (cluster_of q Hq) as (c & Hc & Es & Eq & Hqc). destruct (listed_parts (B :: l) B c El (or_introl eq_refl) Hc) as (lc & Elc & Hin).
  unfold blocking_sets_in_cluster in Elc. rewrite Es in Elc. cbn [bind] in Elc. injection Elc as <-.
  unfold to_minimal_blocking_sets in Hin. assert (Hd : contains_duplicates q = true).
  { destruct (contains_duplicates q) eqn:Ed; auto. exfalso. apply Hrep, no_repetitions_nodup, contains_duplicates_false. exact Ed. }
  rewrite Hd in Hin.
  apply filter_In in Hin. destruct Hin as [Hin Hk]. set (S := inter B c) in *.
  unfold is_minimal_for_blocking_set, is_minimal_for_blocking_set_with_precomputed_blocked_set in Hk.
  assert (HSe : of_list (elements S) = S) by (apply bset_ext; intro x; apply eq_true_iff_eq; rewrite mem_of_list, elements_spec; tauto).
  destruct (kept_single (elements S)) as (x & Hx & Hcq); auto using elements_nodup; [|rewrite HSe; exact Hk|].
  - rewrite to_blocking_sets_dual in Hin. apply to_quorum_slices_sound in Hin. destruct (is_quorum_slice_meets _ _ Hin) as (x & _ & Hx).
    intro Z. apply elements_spec in Hx. rewrite Z in Hx. destruct Hx.
  - apply contains_quorum_iff in Hcq. destruct Hcq as (Q & HQi & HQ). apply elements_spec in Hx.
    assert (Hmx : mentions x q) by (apply (to_blocking_sets_mentions q S); auto).
    destruct (Hsing x Q Hmx HQ) as (y & Hy & Hne). apply HQi, mem_of_list in Hy. destruct Hy as [<-|[]]. congruence.
Qed.
Lemma some_minimal_blocking : exists B, minimal_blocking f B.
Proof.
  destruct (minimal_below (blocking f)) with (s := all_nodes f) as (m & _ & Hm).
  - intro s. destruct (contains_quorum (diff (all_nodes f) s) f) eqn:Eb; [right; rewrite blocking_iff, Eb; discriminate|left; apply blocking_iff; auto].
  - intros Q [(x & Hx) HQ]. exists x. split; auto. destruct (HQ x Hx) as (q & (n & Hn & _) & _). apply mem_all_nodes.
    assert (Y : nth_error (nodes f) x <> None) by congruence. apply nth_error_Some in Y. exact Y.
  - eauto.
Qed.
Lemma repeated_loses q : satisfiable_cluster f q -> ~ no_repetitions q ->
  (forall x Q, mentions x q -> quorum f Q -> exists y, mem y Q = true /\ y <> x) ->
  find_minimal_blocking_sets E f = Ok [] /\ exists B, minimal_blocking f B.
Proof. intros. split; [eapply repeated_nothing; eauto|apply some_minimal_blocking]. Qed.
End Exact.
