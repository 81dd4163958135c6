(** The debug assertions of the analysis. *)
From Coq Require Import NArith.
From Verif Require Export P_ThHistories M_Debug Spec_Debug.
Local Open Scope list_scope.

(** neither repeated nor comparable sets *)
Definition clean (l : list bset) : Prop := NoDup l /\ forall a b, In a l -> In b l -> incl_set a b -> a = b.

Lemma in_enumerated {A} (l : list A) : forall n i a, In (i, a) (combine (seq n (List.length l)) l) <-> n <= i /\ nth_error l (i - n) = Some a.
Proof.
  induction l as [|b l IH]; intros n i a; simpl.
  - split; [intros []|]. intros [_ H]. destruct (i - n); discriminate.
  - rewrite IH. split.
    + intros [H|[H1 H2]]; [inversion H; subst; rewrite Nat.sub_diag; auto|]. split; [lia|]. replace (i - n) with (S (i - S n)) by lia. auto.
    + intros [H1 H2]. destruct (Nat.eq_dec i n) as [->|Hn].
      * rewrite Nat.sub_diag in H2. inversion H2; auto.
      * right. split; [lia|]. replace (i - n) with (S (i - S n)) in H2 by lia. auto.
Qed.

Lemma checker_iff l : is_set_of_minimal_node_sets l = true <-> clean l.
Proof.
  unfold is_set_of_minimal_node_sets. rewrite forallb_forall. split.
  - intro H.
    assert (G : forall i j a b, nth_error l i = Some a -> nth_error l j = Some b -> incl_set a b -> i = j).
    { intros i j a b Hi Hj Hab.
      assert (Pi : In (i, a) (combine (seq 0 (List.length l)) l)) by (apply (in_enumerated l 0); rewrite Nat.sub_0_r; split; [lia|auto]).
      assert (Pj : In (j, b) (combine (seq 0 (List.length l)) l)) by (apply (in_enumerated l 0); rewrite Nat.sub_0_r; split; [lia|auto]).
      assert (H1 := H _ Pi). rewrite forallb_forall in H1. specialize (H1 _ Pj). simpl in H1.
      apply incl_subset in Hab. rewrite Hab, orb_false_r in H1. apply Nat.eqb_eq; auto. }
    split.
    + apply NoDup_nth_error. intros i j Hi E. destruct (nth_error l i) as [a|] eqn:Ea; [|apply nth_error_None in Ea; lia].
      apply (G i j a a); auto. intros x Hx; auto.
    + intros a b Ha Hb Hab. apply In_nth_error in Ha, Hb. destruct Ha as (i & Hi). destruct Hb as (j & Hj).
      rewrite (G i j a b Hi Hj Hab) in Hi. congruence.
  - intros [Hn Ha] [i a] Hi. apply (in_enumerated l 0 i a) in Hi. rewrite Nat.sub_0_r in Hi. apply forallb_forall.
    intros [j b] Hj. apply (in_enumerated l 0 j b) in Hj. rewrite Nat.sub_0_r in Hj. simpl. destruct Hi as [_ Hi]. destruct Hj as [_ Hj].
    destruct (subset a b) eqn:E; simpl; [|apply orb_true_r]. rewrite orb_false_r. apply Nat.eqb_eq. apply incl_subset in E.
    assert (a = b) by (apply Ha; auto; eapply nth_error_In; eauto). subst b.
    apply (proj1 (NoDup_nth_error l) Hn); [apply nth_error_Some; congruence|congruence].
Qed.

Lemma clean_perm l l' : Permutation l l' -> clean l -> clean l'.
Proof.
  intros P [H1 H2]. split; [eapply Permutation_NoDup; eauto|]. intros a b Ha Hb. apply Permutation_sym in P. apply H2; eapply Permutation_in; eauto.
Qed.

Lemma before_nodup l : StronglySorted before l -> NoDup l.
Proof.
  induction 1 as [|a l Hl IH Ha]; constructor; auto. intro Hin. rewrite Forall_forall in Ha. apply (before_irrefl a), Ha; auto.
Qed.

Lemma minimal_clean (P : bset -> Prop) l : NoDup l -> (forall a, In a l -> minimal P a) -> clean l.
Proof. intros Hn H. split; auto. intros a b Ha Hb Hi. destruct (H a Ha) as [Pa _]. apply (H b Hb); auto. Qed.

Lemma lists_clean (P : bset -> Prop) l : StronglySorted before l -> (forall a, In a l -> minimal P a) -> clean l.
Proof. intros Hs. apply minimal_clean, before_nodup; auto. Qed.

Lemma check_ok l : clean l -> check_minimal l = Ok l.
Proof. intro H. apply checker_iff in H. unfold check_minimal, assert. rewrite H. auto. Qed.
Lemma check_panic l : ~ clean l -> check_minimal l = Panic.
Proof. intro H. unfold check_minimal, assert. destruct (is_set_of_minimal_node_sets l) eqn:E; auto. apply checker_iff in E. contradiction. Qed.

(** sets.rs l.154 *)
Lemma remove_non_minimal_checked l : remove_non_minimal_node_sets_d l = Ok (remove_non_minimal_node_sets l).
Proof.
  unfold remove_non_minimal_node_sets_d. apply check_ok. destruct (remove_non_minimal_exact l) as [H1 H2].
  apply (lists_clean (fun x => In x l)); auto. intros a. apply H2.
Qed.

(** quorums.rs l.158 *)
Lemma step_checked f : forall unprocessed sel avail anti picks changed, disjoint sel anti = true ->
  nonintersecting_step_d f unprocessed sel avail anti picks changed = Ok (nonintersecting_step f unprocessed sel avail anti picks changed) /\
  let '(sel', _, anti', _) := nonintersecting_step f unprocessed sel avail anti picks changed in disjoint sel' anti' = true.
Proof.
  induction unprocessed as [|x l IH]; intros sel avail anti picks changed Hd;
    cbn [nonintersecting_step_d nonintersecting_step]; unfold assert; rewrite Hd.
  - destruct (changed && is_quorum f sel); [auto|]. destruct (picks =? 0); auto.
  - destruct (changed && is_quorum f sel); [auto|]. destruct (picks =? 0); [auto|].
    assert (Hd1 : disjoint (insert x sel) (remove x anti) = true).
    { rewrite disjoint_iff in *. intros y Hy Hy'. rewrite mem_insert in Hy. rewrite mem_remove in Hy'. apply andb_true_iff in Hy'.
      destruct Hy' as [Ha Hx]. apply negb_true_iff in Hx. rewrite Hx in Hy. eauto. }
    destruct (IH (insert x sel) avail (remove x anti) (picks - 1) true Hd1) as [E1 H1]. rewrite E1. cbn [bind].
    destruct (nonintersecting_step f l (insert x sel) avail (remove x anti) (picks - 1) true) as [[[s1 a1] n1] [r1|]]; [auto|].
    assert (Hd2 : disjoint (remove x s1) (insert x n1) = true).
    { rewrite disjoint_iff in *. intros y Hy Hy'. rewrite mem_insert in Hy'. rewrite mem_remove in Hy. apply andb_true_iff in Hy.
      destruct Hy as [Ha Hx]. apply negb_true_iff in Hx. rewrite Hx in Hy'. eauto. }
    destruct (selection_satisfiable (remove x s1) (remove x a1) f).
    + destruct (IH (remove x s1) (remove x a1) (insert x n1) picks false Hd2) as [E2 H2]. rewrite E2. cbn [bind].
      destruct (nonintersecting_step f l (remove x s1) (remove x a1) (insert x n1) picks false) as [[[s2 a2] n2] [r2|]]; auto.
    + cbn [bind]. auto.
Qed.

(** ** doubled thresholds *)
Lemma threshold_d t vs is_ : (N.of_nat t < 2 ^ 63)%N -> splitting_threshold_d (QS t vs is_) = Ok (splitting_threshold (QS t vs is_)).
Proof. intro H. apply N.ltb_lt in H. unfold splitting_threshold_d, assert. rewrite H. reflexivity. Qed.
Lemma threshold_d_panic t vs is_ : ~ (N.of_nat t < 2 ^ 63)%N -> splitting_threshold_d (QS t vs is_) = Panic.
Proof. intro H. unfold splitting_threshold_d, assert. destruct (N.ltb_spec (N.of_nat t) (2 ^ 63)); [contradiction|reflexivity]. Qed.

Lemma count_up_to_ok {A} (p : A -> res bool) (h : A -> bool) l : (forall x, In x l -> p x = Ok (h x)) ->
  forall k, count_up_to p k l = Ok (List.length (firstn k (filter h l))).
Proof.
  induction l as [|x l IH]; intros H k; cbn [count_up_to filter]; [rewrite firstn_nil; reflexivity|].
  fold (count_up_to p). destruct k as [|k]; cbn [Nat.eqb]; [reflexivity|].
  rewrite (H x) by (left; auto). cbn [bind]. assert (IH' := IH (fun y Hy => H y (or_intror Hy))).
  destruct (h x); rewrite IH'; cbn [bind Nat.sub]; [rewrite Nat.sub_0_r; reflexivity|reflexivity].
Qed.
Lemma all_hold_ok {A} (p : A -> res bool) (h : A -> bool) l : (forall x, In x l -> p x = Ok (h x)) -> all_hold p l = Ok (forallb h l).
Proof.
  induction l as [|x l IH]; intros H; cbn [all_hold forallb]; [reflexivity|]. rewrite (H x) by (left; auto). cbn [bind].
  destruct (h x); [|reflexivity]. apply IH. intros y Hy. apply H. right; auto.
Qed.
Lemma of_each_mapM {A B} (h : A -> res B) l : of_each h l = mapM h l.
Proof. induction l as [|x l IH]; cbn [of_each mapM]; [reflexivity|]. fold (of_each h). rewrite IH. reflexivity. Qed.

Lemma slice_intersection_d q s : can_double q -> is_slice_intersection_d q s = Ok (is_slice_intersection q s).
Proof.
  induction q as [t vs is_ IH] using qset_ind'. intro H. inversion H as [t' vs' is' Ht Hi]; subst.
  cbn [is_slice_intersection_d is_slice_intersection]. rewrite threshold_d by exact Ht. cbn [bind].
  destruct (splitting_threshold (QS t vs is_) =? 0); [reflexivity|].
  rewrite (count_up_to_ok _ (fun x => is_slice_intersection x s)); [reflexivity|].
  intros x Hx. apply IH; auto. rewrite Forall_forall in Hi. apply Hi, Hx.
Qed.
Lemma to_splitting_sets_d_ok q : can_double q -> to_splitting_sets_d q = Ok (to_splitting_sets q).
Proof.
  induction q as [t vs is_ IH] using qset_ind'. intro H. inversion H as [t' vs' is' Ht Hi]; subst.
  cbn [to_splitting_sets_d to_splitting_sets]. rewrite threshold_d by exact Ht. rewrite of_each_mapM, (mapM_ok _ to_splitting_sets).
  - reflexivity.
  - intros x Hx. apply IH; auto. rewrite Forall_forall in Hi. apply Hi, Hx.
Qed.
Lemma to_splitting_sets_d_panic q : ~ can_double q -> to_splitting_sets_d q = Panic.
Proof.
  induction q as [t vs is_ IH] using qset_ind'. intro H. cbn [to_splitting_sets_d]. rewrite of_each_mapM.
  destruct (mapM to_splitting_sets_d is_) as [inner|] eqn:Em; cbn [bind]; [|reflexivity].
  rewrite threshold_d_panic; [reflexivity|]. intro Ht. apply H. constructor; auto. apply Forall_forall. intros x Hx.
  assert (D : can_double x \/ ~ can_double x).
  { clear. induction x as [t vs is_ IH] using qset_ind'.
    destruct (N.ltb_spec (N.of_nat t) (2 ^ 63)) as [Ht|Ht]; [|right; intro H; inversion H; subst; lia].
    assert (D : Forall can_double is_ \/ ~ Forall can_double is_).
    { induction is_ as [|i is_ IHi]; [left; constructor|]. destruct (IH i (or_introl eq_refl)) as [Hi|Hi].
      - destruct IHi as [Hr|Hr]; [intros j Hj; apply IH; right; auto|left; constructor; auto|right; intro H; inversion H; auto].
      - right. intro H. inversion H; auto. }
    destruct D; [left; constructor; auto|right; intro H1; inversion H1; auto]. }
  destruct D as [D|D]; auto. assert (P : mapM to_splitting_sets_d is_ = Panic) by (apply mapM_panic; exists x; auto). congruence.
Qed.

(** all nodes have thresholds that can be doubled *)
Definition doubling (f : fbas) : Prop := forall x q, node_of f x q -> can_double q.
Lemma doubling_qset f x : doubling f -> can_double (qset_of f x).
Proof.
  intro H. unfold qset_of. destruct (nth_error (nodes f) x) as [n|] eqn:En; [apply (H x); exists n; auto|]. constructor; [cbn; lia|constructor].
Qed.
(** the nodes of [K0] have *)
Definition doubling_on (K0 : bset) (f : fbas) : Prop := forall x q, mem x K0 = true -> node_of f x q -> can_double q.
Lemma doubling_on_qset f K x : doubling_on K f -> mem x K = true -> can_double (qset_of f x).
Proof.
  intros H Hx. unfold qset_of. destruct (nth_error (nodes f) x) as [n|] eqn:En; [apply (H x); [exact Hx|exists n; auto]|]. constructor; [cbn; lia|constructor].
Qed.
Lemma has_potential_d_ok f K sel avail : doubling_on K f -> incl_set sel K -> has_potential_d sel avail f = Ok (has_potential sel avail f).
Proof.
  intros H Hs. unfold has_potential_d, has_potential. apply all_hold_ok. intros x Hx. apply slice_intersection_d, (doubling_on_qset f K); auto.
  apply Hs, elements_spec, Hx.
Qed.
Lemma intersection_d_ok f K sel parts : doubling_on K f -> incl_set sel K -> is_quorum_intersection_d sel f parts = Ok (is_quorum_intersection sel f parts).
Proof.
  intros H Hs. unfold is_quorum_intersection_d, is_quorum_intersection. destruct (is_empty sel); [reflexivity|].
  rewrite (has_potential_d_ok f K) by auto. reflexivity.
Qed.
Lemma splitting_step_d_ok f K : doubling_on K f -> forall unprocessed sel avail found parts changed,
  (forall x, In x unprocessed -> mem x K = true) -> incl_set sel K ->
  splitting_sets_finder_step_d f unprocessed sel avail found parts changed =
  Ok (splitting_sets_finder_step f unprocessed sel avail found parts changed) /\
  incl_set (fst (fst (splitting_sets_finder_step f unprocessed sel avail found parts changed))) K.
Proof.
  intro H. induction unprocessed as [|x l IH]; intros sel avail found parts changed Hu Hs;
    cbn [splitting_sets_finder_step_d splitting_sets_finder_step]; (destruct (List.length parts <? 2); [auto|]).
  - rewrite (intersection_d_ok f K) by auto. destruct changed; cbn [bind andb]; [destruct (is_quorum_intersection sel f parts); auto|auto].
  - rewrite (intersection_d_ok f K) by auto.
    assert (Hx : mem x K = true) by (apply Hu; left; reflexivity). assert (Hl : forall y, In y l -> mem y K = true) by (intros y Hy; apply Hu; right; exact Hy).
    assert (Hi : incl_set (insert x sel) K).
    { intros y Hy. rewrite mem_insert in Hy. apply orb_true_iff in Hy. destruct Hy as [Hy|Hy]; [|auto]. apply Nat.eqb_eq in Hy. subst y. exact Hx. }
    match goal with |- context [splitting_sets_finder_step_d f l (insert x sel) avail found ?p true] =>
      destruct (IH (insert x sel) avail found p true Hl Hi) as [E1 S1] end. rewrite E1.
    set (b := changed && is_quorum_intersection sel f parts).
    replace (if changed then Ok (is_quorum_intersection sel f parts) else Ok false) with (Ok b) by (unfold b; destruct changed; reflexivity).
    cbn [bind]. destruct b; [auto|].
    destruct (splitting_sets_finder_step f l (insert x sel) avail found _ true) as [[s1 a1] f1]. cbn [fst] in S1.
    assert (Hr : incl_set (remove x s1) K) by (intros y Hy; rewrite mem_remove in Hy; apply andb_true_iff in Hy; apply S1; tauto).
    rewrite (has_potential_d_ok f K) by auto. cbn [bind]. destruct (has_potential (remove x s1) (remove x a1) f).
    + match goal with |- context [splitting_sets_finder_step_d f l (remove x s1) (remove x a1) f1 ?p false] =>
        destruct (IH (remove x s1) (remove x a1) f1 p false Hl Hr) as [E2 S2] end. rewrite E2. cbn [bind].
      destruct (splitting_sets_finder_step f l (remove x s1) (remove x a1) f1 _ false) as [[s2 a2] f2]. auto.
    + auto.
Qed.

Section Main.
Variable E : ext. Hypothesis HE : ext_ok E.

Lemma nonintersecting_checked f : find_nonintersecting_quorums_d E f = find_nonintersecting_quorums E f.
Proof.
  unfold find_nonintersecting_quorums_d, find_nonintersecting_quorums, find_sets. f_equal.
  unfold nonintersecting_quorums_finder_d, nonintersecting_quorums_finder. destruct (1 <? List.length (consensus_clusters E f)); auto.
  match goal with |- context [nonintersecting_step_d f ?u ?s ?a ?n ?p ?c] => destruct (step_checked f u s a n p c) as [-> _] end.
  - apply disjoint_iff. intros x Hx. rewrite mem_empty in Hx. discriminate.
  - reflexivity.
Qed.

Lemma symmetric_loop_in f : forall ids occ found q, In q (symmetric_loop f ids occ found) -> In q found \/ exists x, In x ids /\ q = qset_of f x.
Proof.
  induction ids as [|x ids IH]; intros occ found q; cbn [symmetric_loop]; auto.
  assert (IH' : forall occ found, In q (symmetric_loop f ids occ found) -> In q found \/ exists y, In y (x :: ids) /\ q = qset_of f y).
  { intros o g H. destruct (IH o g q H) as [H'|(y & Hy & Eq)]; [left; exact H'|right; exists y; split; [right; exact Hy|exact Eq]]. }
  destruct (mem x (contained_nodes (qset_of f x))); [|apply IH'].
  destruct (match assoc qset_eqb (qset_of f x) occ with Some (counter, goal) => (S counter, goal) | None => (1, len (contained_nodes (qset_of f x))) end) as [count goal].
  intro H. apply IH' in H. destruct H as [H|H]; auto. destruct (count =? goal); auto. apply in_app_or in H.
  destruct H as [H|[H|[]]]; auto. right. exists x. split; [left; reflexivity|auto].
Qed.
Lemma found_in_fbas f K c q : find_symmetric_cluster_in_consensus_cluster c f = Ok (Some q) -> doubling_on K f -> incl_set c K -> can_double q.
Proof.
  unfold find_symmetric_cluster_in_consensus_cluster, assert. intros H Hd Hc.
  destruct (find_symmetric_clusters_in_node_set c f) as [|q' rest] eqn:Ef; [discriminate|].
  assert (Hin : In q' (symmetric_loop f (elements c) [] [])) by (unfold find_symmetric_clusters_in_node_set in Ef; rewrite Ef; left; auto).
  apply symmetric_loop_in in Hin. destruct Hin as [[]|(x & Hx & ->)].
  destruct rest; [|discriminate]. destruct (beq (contained_nodes (qset_of f x)) c); [|discriminate]. injection H as <-.
  apply (doubling_on_qset f K); [exact Hd|]. apply Hc, elements_spec, Hx.
Qed.
Lemma splitting_finder_checked f mq : wf_fbas f -> doubling_on (relevant_nodes E f) f -> forall clusters, incl clusters (consensus_clusters E f) ->
  minimal_splitting_sets_finder_d E mq clusters f = minimal_splitting_sets_finder E mq clusters f.
Proof.
  intros Hwf Hd. induction clusters as [|c cl IH]; intro Hcl; cbn [minimal_splitting_sets_finder_d minimal_splitting_sets_finder]; auto.
  assert (Hc : In c (consensus_clusters E f)) by (apply Hcl; left; reflexivity).
  assert (IH' := IH (fun d Hd' => Hcl d (or_intror Hd'))). clear IH.
  assert (Hin : incl_set c (relevant_nodes E f)) by (intros x Hx; apply mem_relevant_nodes; exists c; auto).
  destruct (find_symmetric_cluster_in_consensus_cluster c f) as [[q|]|] eqn:Ef; cbn [bind]; auto.
  - unfold to_minimal_splitting_sets_d, to_minimal_splitting_sets. rewrite (to_splitting_sets_d_ok q (found_in_fbas f _ c q Ef Hd Hin)). cbn [bind].
    rewrite remove_non_minimal_checked. destruct (contains_duplicates q); cbn [bind]; rewrite IH'; reflexivity.
  - match goal with |- context [splitting_sets_finder_step_d f ?u ?s ?a ?fd ?p ?ch] =>
      destruct (splitting_step_d_ok f (relevant_nodes E f) Hd u s a fd p ch) as [-> _] end.
    + intros x Hx. apply Hin, elements_spec. apply (Permutation_in x (rank_sort_perm E HE f Hwf c (cluster_nodes E f c Hc))). exact Hx.
    + intros x Hx. rewrite mem_empty in Hx. discriminate.
    + cbn [bind]. destruct (splitting_sets_finder_step _ _ _ _ _ _ _) as [[s a] found].
      rewrite remove_non_minimal_checked. cbn [bind]. rewrite IH'. reflexivity.
Qed.

Section Fbas.
Variable f : fbas. Hypothesis Hwf : wf_fbas f.

Lemma minimal_sets_checked finder l : find_minimal_sets E f finder = Ok l ->
  (clean l -> find_minimal_sets_d E f finder = Ok l) /\ (~ clean l -> find_minimal_sets_d E f finder = Panic).
Proof.
  unfold find_minimal_sets_d, find_minimal_sets. destruct (find_sets E f finder) as [r|]; simpl; [|discriminate].
  intro H. injection H as <-. split; intro H.
  - rewrite check_ok; auto. eapply clean_perm; [|exact H]. apply sort_sets_perm.
  - rewrite check_panic; auto. intro H'. apply H. eapply clean_perm; [|exact H']. symmetry. apply sort_sets_perm.
Qed.

(** minimal quorums: the debug build panics exactly if a set is found twice *)
Lemma quorums_loop_checked clusters : incl clusters (consensus_clusters E f) -> forall found new,
  minimal_quorums_finder_loop E f clusters found = Ok (found ++ new) ->
  minimal_quorums_finder_loop_d E f clusters found = Ok (found ++ new) \/
  minimal_quorums_finder_loop_d E f clusters found = Panic /\ ~ NoDup new.
Proof.
  induction clusters as [|c cl IH]; intros Hi found new; cbn [minimal_quorums_finder_loop minimal_quorums_finder_loop_d]; auto.
  assert (Hcin : In c (consensus_clusters E f)) by (apply Hi; left; auto).
  assert (Hi' : incl cl (consensus_clusters E f)) by (intros d Hd; apply Hi; right; auto).
  destruct (find_symmetric_cluster_cases E HE f Hwf c Hcin) as [[Es _]|(q & Es & Ef & Hq & Hall)]; rewrite Es; cbn [bind].
  - destruct (nonsymmetric_quorums E HE f Hwf c Hcin Es found) as (s & a & new1 & -> & _).
    intro H. destruct (finder_loop_flat E HE f Hwf cl Hi' (found ++ new1)) as (new2 & E2 & _). rewrite E2 in H. injection H as H.
    rewrite <- app_assoc in H. apply app_inv_head in H. subst new. rewrite app_assoc.
    destruct (IH Hi' (found ++ new1) new2 E2) as [->|[-> Hn]]; auto. right. split; auto. intro H. apply NoDup_app_inv in H. tauto.
  - intro H. destruct (finder_loop_flat E HE f Hwf cl Hi' (found ++ to_minimal_quorums q f)) as (new2 & E2 & _). rewrite E2 in H. injection H as H.
    rewrite <- app_assoc in H. apply app_inv_head in H. subst new. rewrite app_assoc.
    assert (C : to_minimal_quorums_d q f = Ok (to_minimal_quorums q f) \/ to_minimal_quorums_d q f = Panic /\ ~ NoDup (to_minimal_quorums q f)).
    { unfold to_minimal_quorums_d. destruct (contains_duplicates q) eqn:Ed; [|left; unfold to_minimal_quorums; rewrite Ed; auto].
      unfold remove_non_minimal_x_d. replace (remove_non_minimal_x (to_quorum_slices q) (fun s => is_minimal_for_quorum s f))
        with (to_minimal_quorums q f) by (unfold to_minimal_quorums; rewrite Ed; auto).
      destruct (is_set_of_minimal_node_sets (to_minimal_quorums q f)) eqn:Ec.
      - left. apply check_ok, checker_iff; auto.
      - right. assert (Hna : ~ clean (to_minimal_quorums q f)) by (intro H; apply checker_iff in H; congruence).
        split; [apply check_panic; auto|]. intro Hn. apply Hna. apply (minimal_clean (quorum f)); auto.
        intros Q HQ. apply (to_minimal_quorums_iff f q c Hq Hall) in HQ. apply HQ. }
    destruct C as [->|[-> Hn]]; cbn [bind].
    + destruct (IH Hi' _ new2 E2) as [->|[-> Hn]]; auto. right. split; auto. intro H. apply NoDup_app_inv in H. tauto.
    + right. split; auto. intro H. apply NoDup_app_inv in H. tauto.
Qed.

Lemma minimal_quorums_checked l : find_minimal_quorums E f = Ok l ->
  (NoDup l -> find_minimal_quorums_d E f = Ok l) /\ (~ NoDup l -> find_minimal_quorums_d E f = Panic).
Proof.
  intro El. assert (Hm : forall Q, In Q l -> minimal_quorum f Q).
  { destruct (find_minimal_quorums_spec E HE f Hwf) as (l' & El' & Hl & _). rewrite El in El'. injection El' as <-. intro Q. apply Hl. }
  unfold find_minimal_quorums, find_minimal_sets, find_sets, minimal_quorums_finder in El.
  destruct (finder_loop_flat E HE f Hwf (consensus_clusters E f) (fun c Hc => Hc) []) as (new & En & _).
  rewrite En in El. cbn in El. injection El as El.
  assert (P : Permutation l new) by (subst l; apply sort_sets_perm).
  unfold find_minimal_quorums_d, find_minimal_sets_d, find_sets.
  assert (Hmn : NoDup new -> clean new).
  { intro H. apply (minimal_clean (quorum f)); auto. intros Q HQ. apply Hm. eapply Permutation_in; [symmetry; exact P|auto]. }
  destruct (quorums_loop_checked (consensus_clusters E f) (fun c Hc => Hc) [] new En) as [->|[-> Hn]]; cbn [bind app]; split; intro H.
  - rewrite check_ok; [cbn [bind]; subst; auto|]. apply Hmn. eapply Permutation_NoDup; eauto.
  - rewrite check_panic; auto. intros [H' _]. apply H. eapply Permutation_NoDup; [symmetry; exact P|auto].
  - exfalso. apply Hn. eapply Permutation_NoDup; eauto.
  - auto.
Qed.

Lemma blocking_finder_checked : (forall q, satisfiable_cluster f q -> no_repetitions q) ->
  minimal_blocking_sets_finder_d E (consensus_clusters E f) f = minimal_blocking_sets_finder E (consensus_clusters E f) f.
Proof.
  intro Hno. unfold minimal_blocking_sets_finder_d, minimal_blocking_sets_finder. f_equal.
  assert (G : forall cl, incl cl (consensus_clusters E f) -> mapM (blocking_sets_in_cluster_d E f) cl = mapM (blocking_sets_in_cluster E f) cl).
  { induction cl as [|c cl IH]; intro Hi; auto. cbn [mapM]. rewrite IH by (intros d Hd; apply Hi; right; auto). f_equal.
    assert (Hc : In c (consensus_clusters E f)) by (apply Hi; left; auto).
    unfold blocking_sets_in_cluster_d, blocking_sets_in_cluster.
    destruct (find_symmetric_cluster_cases E HE f Hwf c Hc) as [[Es _]|(q & Es & Ef & _)]; rewrite Es; cbn [bind]; auto.
    unfold to_minimal_blocking_sets_d, to_minimal_blocking_sets.
    assert (Hn : nodup_qset q) by (apply no_repetitions_nodup, Hno, (found_cluster_satisfiable E HE f Hwf c q Hc Ef)).
    apply contains_duplicates_false in Hn. rewrite Hn. auto. }
  apply G. intros c Hc; auto.
Qed.

Lemma blocking_sets_checked : (forall q, satisfiable_cluster f q -> no_repetitions q) ->
  find_minimal_blocking_sets_d E f = find_minimal_blocking_sets E f.
Proof.
  intros Hno. destruct (blocking_sets_order E HE f Hwf Hno) as (l & El & Hs & Ha). rewrite El.
  unfold find_minimal_blocking_sets_d, find_minimal_sets_d, find_sets. rewrite blocking_finder_checked by auto.
  apply (minimal_sets_checked (minimal_blocking_sets_finder E) l El). split; auto. apply before_nodup; auto.
Qed.

Lemma splitting_sets_checked mq : (forall x q, relevant f x -> node_of f x q -> can_double q) -> find_minimal_splitting_sets_d E f mq = find_minimal_splitting_sets E f mq.
Proof.
  intro Hd. destruct (splitting_sets_order E HE f Hwf mq) as (l & El & Hs & Ha). rewrite El.
  unfold find_minimal_splitting_sets_d, find_minimal_sets_d, find_sets. rewrite splitting_finder_checked;
    [|exact Hwf|intros x q Hx; apply Hd, (mem_relevant_iff E f x HE Hwf), Hx|intros c Hc; exact Hc].
  apply (minimal_sets_checked (minimal_splitting_sets_finder E mq) l El). split; auto. apply before_nodup; auto.
Qed.

Lemma quorums_no_repetitions : (forall q, satisfiable_cluster f q -> no_repetitions q) ->
  find_minimal_quorums_d E f = find_minimal_quorums E f.
Proof.
  intro Hno. destruct (find_minimal_quorums_spec E HE f Hwf) as (l & El & _ & _ & Hs). rewrite El.
  apply (minimal_quorums_checked l El). apply before_nodup, Hs. intros q Hq. apply no_repetitions_nodup; auto.
Qed.
End Fbas.
End Main.


(** ** all calls of an [Analysis], for quorum sets without repetitions *)
Definition plain (f : fbas) : Prop := forall x q, node_of f x q -> no_repetitions q.

Lemma restrict_fewer K x q : times_mentioned x (restrict K q) <= times_mentioned x q.
Proof.
  induction q as [t vs is_ IH] using qset_ind'. cbn [restrict times_mentioned]. apply Nat.add_le_mono.
  - clear IH. induction vs as [|v vs IHv]; simpl; auto. destruct (mem v K); simpl; destruct (Nat.eq_dec v x); lia.
  - induction is_ as [|i is_ IHi]; simpl; auto. assert (H1 := IH i (or_introl eq_refl)). assert (H2 := IHi (fun j Hj => IH j (or_intror Hj))). lia.
Qed.

(** the nodes of [K0] mention none of them twice *)
Definition plain_on (K0 : bset) (f : fbas) : Prop :=
  forall x y q, mem x K0 = true -> mem y K0 = true -> node_of f x q -> times_mentioned y q <= 1.

Lemma restrict_outside K x q : mem x K = false -> times_mentioned x (restrict K q) = 0.
Proof.
  intro Hx. induction q as [t vs is_ IH] using qset_ind'. cbn [restrict times_mentioned].
  replace (count_occ Nat.eq_dec (filter (fun x0 => mem x0 K) vs) x) with 0.
  - simpl. induction is_ as [|i is_ IHi]; simpl; auto. rewrite (IH i (or_introl eq_refl)). apply (IHi (fun j Hj => IH j (or_intror Hj))).
  - symmetry. apply count_occ_not_In. intro H. apply filter_In in H. destruct H. congruence.
Qed.

Lemma plain_shrunken f K K0 q : plain_on K0 f -> incl_set K K0 -> satisfiable_cluster (shrunken_fbas K f) q -> no_repetitions q.
Proof.
  intros Hp HK [[(i & Hi) Hall] _]. assert (Hn := Hall i Hi). apply node_of_qset_of in Hn. rewrite shrunken_qset in Hn.
  destruct (nth_error (elements K) i) as [x|] eqn:Ex.
  - subst q. apply nth_error_In, elements_spec in Ex. apply restrict_no_repetitions. intro y.
    destruct (mem y K) eqn:Ey; [|rewrite restrict_outside by exact Ey; lia]. eapply Nat.le_trans; [apply restrict_fewer|].
    unfold qset_of. destruct (nth_error (nodes f) x) as [n|] eqn:En; [|simpl; lia]. apply (Hp x y); auto. exists n. auto.
  - subst q. intro y. simpl. lia.
Qed.

Lemma doubling_shrunken f K K0 : doubling_on K0 f -> incl_set K K0 -> doubling (shrunken_fbas K f).
Proof.
  intros Hd HK i q Hn. apply node_of_qset_of in Hn. rewrite shrunken_qset in Hn. destruct (nth_error (elements K) i) as [x|] eqn:Ex.
  - subst q. apply nth_error_In, elements_spec in Ex. assert (H : can_double (qset_of f x)).
    { unfold qset_of. destruct (nth_error (nodes f) x) as [n|] eqn:En; [apply (Hd x); [apply HK, Ex|exists n; auto]|]. constructor; [cbn; lia|constructor]. }
    revert H. generalize (qset_of f x). clear. intro q.
    induction q as [t vs is_ IH] using qset_ind'. intro H. inversion H as [t' vs' is' Ht Hi]; subst. cbn [qset_shrunken]. constructor; auto.
    rewrite Forall_forall in *. intros j Hj.
    assert (Hj' : In j (filter (fun i => negb (qset_eqb i qset_new)) (map (qset_shrunken (shrink_map (sm_new K))) is_))).
    { eapply Permutation_in; [|exact Hj]. apply sort_by_perm. }
    apply filter_In in Hj'. destruct Hj' as [Hj' _]. apply in_map_iff in Hj'. destruct Hj' as (i' & <- & Hi'). apply IH; auto.
  - subst q. constructor; [cbn; lia|constructor].
Qed.

(** an [Analysis] only ever works on nodes it started with *)
Definition stays (K0 : bset) (a : analysis) : Prop := forall x, In x (unshrink_table (a_sm a)) -> mem x K0 = true.
Lemma stays_within K0 f a K : winv f a K -> stays K0 a -> incl_set K K0.
Proof. intros Hi Hs x Hx. apply Hs. rewrite (w_sm f a K Hi). cbn. apply elements_spec, Hx. Qed.
Lemma unshrink_stays t u v x : unshrink_set_with t u = Ok v -> mem x v = true -> In x t.
Proof.
  unfold unshrink_set_with. destruct (mapM (fun id => unwrap (nth_error t id)) (elements u)) as [l|] eqn:Em; [|discriminate].
  cbn [res_map bind]. intro H. injection H as <-. rewrite mem_of_list. intro Hx. apply mapM_inv in Em.
  induction Em as [|i y is_ l Hi Hr IH]; [destruct Hx|]. destruct Hx as [->|Hx]; auto.
  destruct (nth_error t i) as [z|] eqn:En; [|discriminate]. injection Hi as ->. apply nth_error_In in En. exact En.
Qed.
Lemma shrink_stays K0 a a' : stays K0 a -> shrink_id_space_to_top_tier a = Ok a' -> stays K0 a'.
Proof.
  unfold shrink_id_space_to_top_tier. intros Hk H.
  destruct (match mq_cache a with Some mq => _ | None => _ end) as [t|]; cbn [bind] in H; [|discriminate].
  destruct (unshrink_set (a_sm a) t) as [o|] eqn:Eo; cbn [bind] in H; [|discriminate].
  rewrite shrunken_eq in H. cbn [bind] in H.
  unfold assert in H. destruct (_ || _); [|discriminate].
  destruct (mapM_option _ (mq_cache a)); cbn [bind] in H; [|discriminate].
  destruct (mapM_option _ (mbs_cache a)); cbn [bind] in H; [|discriminate].
  inversion H; subst. unfold stays. cbn. intros x Hx. apply elements_spec in Hx.
  apply Hk. eapply unshrink_stays; eauto.
Qed.
Lemma mq_stays K0 E a l a' : stays K0 a -> minimal_quorums_shrunken E a = Ok (l, a') -> stays K0 a'.
Proof.
  unfold minimal_quorums_shrunken. intros Ha H. destruct (mq_cache a) eqn:Ec; [inversion H; subst; auto|].
  destruct (find_minimal_quorums E (fbas_shrunken a)) as [mq|]; cbn [bind] in H; [|discriminate].
  match type of H with bind ?e _ = _ => destruct e as [a2|] eqn:E2 end; cbn [bind] in H; [|discriminate].
  destruct (unwrap (mq_cache a2)); cbn [bind] in H; [|discriminate]. inversion H; subst.
  destruct (_ && _) in E2; [eapply shrink_stays; [|eauto]|inversion E2; subst]; exact Ha.
Qed.
Lemma mbs_stays K0 E a l a' : stays K0 a -> minimal_blocking_sets_shrunken E a = Ok (l, a') -> stays K0 a'.
Proof.
  unfold minimal_blocking_sets_shrunken. intros Ha H. destruct (mbs_cache a) eqn:Ec; [inversion H; subst; auto|].
  destruct (find_minimal_blocking_sets E (fbas_shrunken a)) as [mq|]; cbn [bind] in H; [|discriminate].
  match type of H with bind ?e _ = _ => destruct e as [a2|] eqn:E2 end; cbn [bind] in H; [|discriminate].
  destruct (unwrap (mbs_cache a2)); cbn [bind] in H; [|discriminate]. inversion H; subst.
  destruct (_ && _) in E2; [eapply shrink_stays; [|eauto]|inversion E2; subst]; exact Ha.
Qed.
Lemma hqi_stays K0 E a b a' : stays K0 a -> has_quorum_intersection E a = Ok (b, a') -> stays K0 a'.
Proof.
  unfold has_quorum_intersection. intros Ha H. destruct (hqi_cache a); [inversion H; subst; auto|].
  destruct (minimal_quorums_shrunken E a) as [[l a2]|] eqn:E2; cbn [bind] in H; [|discriminate]. inversion H; subst.
  apply (mq_stays K0 E a l a2 Ha E2).
Qed.
Lemma mss_stays K0 E a l a' : stays K0 a -> minimal_splitting_sets_shrunken E a = Ok (l, a') -> stays K0 a'.
Proof.
  unfold minimal_splitting_sets_shrunken. intros Ha H.
  destruct (minimal_quorums_shrunken E a) as [[mq a1]|] eqn:E1; cbn [bind] in H; [|discriminate].
  pose proof (mq_stays K0 E a mq a1 Ha E1) as H1. destruct (mss_cache a1); [inversion H; subst; auto|].
  destruct (has_quorum_intersection E a1) as [[b a2]|] eqn:E2; cbn [bind] in H; [|discriminate].
  pose proof (hqi_stays K0 E a1 b a2 H1 E2) as H2.
  match type of H with bind ?e _ = _ => destruct e as [s|] end; cbn [bind] in H; [|discriminate]. cbn in H.
  inversion H; subst. exact H2.
Qed.
Lemma top_tier_stays K0 E a s a' : stays K0 a -> top_tier_shrunken E a = Ok (s, a') -> stays K0 a'.
Proof.
  unfold top_tier_shrunken. intros Ha H. destruct (_ || _).
  - destruct (minimal_quorums_shrunken E a) as [[mq a1]|] eqn:E1; cbn in H; [|discriminate]. inversion H; subst. apply (mq_stays K0 E a mq); auto.
  - destruct (minimal_blocking_sets_shrunken E a) as [[mq a1]|] eqn:E1; cbn in H; [|discriminate]. inversion H; subst. apply (mbs_stays K0 E a mq); auto.
Qed.
Lemma perform_stays K0 E a c x a' : stays K0 a -> perform E a c = Ok (x, a') -> stays K0 a'.
Proof.
  intros Ha H. destruct c; cbn [perform] in H; try (inversion H; subst; exact Ha).
  - destruct (has_quorum_intersection E a) as [[b a1]|] eqn:E1; cbn in H; [|discriminate]. inversion H; subst. eapply hqi_stays; eauto.
  - destruct (alternative_check E a) as [r|]; cbn in H; [|discriminate]. inversion H; subst. exact Ha.
  - destruct (minimal_quorums_shrunken E a) as [[l a1]|] eqn:E1; cbn in H; [|discriminate]. inversion H; subst. eapply mq_stays; eauto.
  - destruct (minimal_blocking_sets_shrunken E a) as [[l a1]|] eqn:E1; cbn in H; [|discriminate]. inversion H; subst. eapply mbs_stays; eauto.
  - destruct (minimal_splitting_sets_shrunken E a) as [[l a1]|] eqn:E1; cbn in H; [|discriminate]. inversion H; subst. eapply mss_stays; eauto.
  - destruct (top_tier_shrunken E a) as [[t a1]|] eqn:E1; cbn [bind fst snd] in H; [|discriminate].
    destruct (set_result_new t (Some (a_sm a1))); cbn [bind] in H; [|discriminate]. inversion H; subst. eapply top_tier_stays; eauto.
Qed.

Section Analysis.
Variable E : ext. Hypothesis HE : ext_ok E.
Variable f : fbas. Hypothesis Hwf : wf_fbas f.
Variable K0 : bset.
Hypothesis Hp : plain_on K0 f.
Hypothesis Hd : doubling_on K0 f.

Lemma mq_d a K : winv f a K -> stays K0 a -> minimal_quorums_shrunken_d E a = minimal_quorums_shrunken E a.
Proof.
  intros Hinv Hs. unfold minimal_quorums_shrunken_d, minimal_quorums_shrunken. rewrite (w_sh f a K Hinv).
  rewrite (quorums_no_repetitions E HE _ (shrunken_wf K f) (fun q => plain_shrunken f K K0 q Hp (stays_within K0 f a K Hinv Hs))). reflexivity.
Qed.
Lemma mbs_d a K : winv f a K -> stays K0 a -> minimal_blocking_sets_shrunken_d E a = minimal_blocking_sets_shrunken E a.
Proof.
  intros Hinv Hs. unfold minimal_blocking_sets_shrunken_d, minimal_blocking_sets_shrunken. rewrite (w_sh f a K Hinv).
  rewrite (blocking_sets_checked E HE _ (shrunken_wf K f) (fun q => plain_shrunken f K K0 q Hp (stays_within K0 f a K Hinv Hs))). reflexivity.
Qed.
Lemma hqi_d a K : winv f a K -> stays K0 a -> has_quorum_intersection_d E a = has_quorum_intersection E a.
Proof. intros Hinv Hs. unfold has_quorum_intersection_d, has_quorum_intersection. rewrite (mq_d a K Hinv Hs). reflexivity. Qed.
Lemma mss_d a K : winv f a K -> stays K0 a -> minimal_splitting_sets_shrunken_d E a = minimal_splitting_sets_shrunken E a.
Proof.
  intros Hinv Hs. unfold minimal_splitting_sets_shrunken_d, minimal_splitting_sets_shrunken. rewrite (mq_d a K Hinv Hs).
  destruct (w_mq_step E HE f Hwf a K Hinv) as (mq & a1 & K1 & E1 & I1 & _). assert (Hs1 := mq_stays _ _ _ _ _ Hs E1). rewrite E1. cbn [bind].
  rewrite (hqi_d a1 K1 I1 Hs1), (w_sh f a1 K1 I1), (splitting_sets_checked E HE _ (shrunken_wf K1 f) _ (fun x q _ => doubling_shrunken f K1 K0 Hd (stays_within K0 f a1 K1 I1 Hs1) x q)). reflexivity.
Qed.
Lemma tt_d a K : winv f a K -> stays K0 a -> top_tier_shrunken_d E a = top_tier_shrunken E a.
Proof. intros Hinv Hs. unfold top_tier_shrunken_d, top_tier_shrunken. rewrite (mq_d a K Hinv Hs), (mbs_d a K Hinv Hs). reflexivity. Qed.

Lemma perform_d_eq a K c : winv f a K -> stays K0 a -> perform_d E a c = perform E a c.
Proof.
  intros Hinv Hs. destruct c; cbn [perform_d perform]; auto.
  - rewrite (hqi_d a K Hinv Hs). auto.
  - unfold alternative_check_d, alternative_check. rewrite nonintersecting_checked. auto.
  - rewrite (mq_d a K Hinv Hs). auto.
  - rewrite (mbs_d a K Hinv Hs). auto.
  - rewrite (mss_d a K Hinv Hs). auto.
  - rewrite (tt_d a K Hinv Hs). auto.
Qed.

Lemma perform_all_d_eq cs : forall a K, winv f a K -> stays K0 a -> perform_all_d E a cs = perform_all E a cs.
Proof.
  induction cs as [|c cs IH]; intros a K Hinv Hs; cbn [perform_all_d perform_all]; auto.
  rewrite (perform_d_eq a K c Hinv Hs). assert (Hc : c = AlternativeCheck \/ c <> AlternativeCheck) by (destruct c; auto; right; discriminate).
  destruct Hc as [-> | Hc].
  - cbn [perform]. destruct (alternative_check E a); cbn [bind fst snd]; auto. rewrite (IH a K Hinv Hs). auto.
  - destruct (w_perform E HE f Hwf a K c Hinv Hc) as (x & a1 & K1 & E1 & I1). assert (Hs1 := perform_stays _ _ _ _ _ _ Hs E1). rewrite E1. cbn [bind snd]. rewrite (IH a1 K1 I1 Hs1). auto.
Qed.

Lemma analyze_d_eq cs : incl_set (relevant_nodes E f) K0 -> analyze_d E f cs = analyze E f cs.
Proof.
  intro HK. unfold analyze_d, analyze. destruct (inv_new E HE f Hwf) as (a & Ea & Hi). rewrite Ea. cbn [bind].
  assert (Hw : winv f a (relevant_nodes E f)).
  { destruct Hi as [I1 I2 I3 I4 I5 I6 I7 I8 I9 I10]. constructor; auto.
    - intros l H. apply (I8 l H).
    - intros l H. apply (I9 l H).
    - intros l H. apply (I10 l H). }
  assert (Hs : stays K0 a) by (intros x Hx; rewrite (w_sm f a _ Hw) in Hx; apply HK, elements_spec, Hx).
  rewrite (perform_all_d_eq cs a _ Hw Hs). reflexivity.
Qed.
End Analysis.

Lemma analysis_checked E f cs : ext_ok E -> wf_fbas f ->
  (forall x y q, relevant f x -> relevant f y -> node_of f x q -> times_mentioned y q <= 1) ->
  (forall x q, relevant f x -> node_of f x q -> can_double q) -> analyze_d E f cs = analyze E f cs.
Proof.
  intros HE Hwf Hp Hd. apply (analyze_d_eq E HE f Hwf (relevant_nodes E f)); [| |intros x Hx; exact Hx].
  - intros x y q Hx Hy. apply Hp; apply (mem_relevant_iff E f _ HE Hwf); auto.
  - intros x q Hx. apply Hd. apply (mem_relevant_iff E f _ HE Hwf). auto.
Qed.

(** the debug build panics *)
Lemma debug_panics : exists f, wf_fbas f /\ analyze std_ext f [HasQuorumIntersection] = Ok [ABool true] /\
  analyze_d std_ext f [HasQuorumIntersection] = Panic /\ find_minimal_quorums_d std_ext f = Panic.
Proof. exists dup_fbas. split; [apply wfb_ok; vm_compute; reflexivity|]. repeat split; vm_compute; reflexivity. Qed.

Lemma plain_ok f : forallb (fun n => negb (contains_duplicates (node_qset n))) (nodes f) = true -> plain f.
Proof.
  intros H x q (n & Hn & <-). rewrite forallb_forall in H. apply nth_error_In in Hn. apply H in Hn. apply negb_true_iff in Hn.
  apply no_repetitions_nodup. apply contains_duplicates_false. auto.
Qed.
