(** Proofs about the ranking heuristic (preprocessing.rs l.86-131). *)
From Coq Require Import ZArith Reals Lia Lra Permutation Sorted.
From Flocq Require Import Core IEEE754.BinarySingleNaN.
From Verif Require Export P_Float P_Groupings M_Ext.
Local Open Scope R_scope.
Local Open Scope list_scope.

(** neither NaN nor negative *)
Definition score_ok (x : f64) : Prop := fnan x = false /\ @Bsign 53 1024 x = false.

Lemma B2SF_inf (x : f64) s : B2SF x = SpecFloat.S754_infinity s -> x = B754_infinity s.
Proof. destruct x; cbn; intros H; inversion H; auto. Qed.
Lemma finite_not_nan (x : f64) : finite x = true -> fnan x = false.
Proof. destruct x; auto. Qed.
Lemma sign_nonneg (x : f64) : @Bsign 53 1024 x = false -> 0 <= R_of x.
Proof.
  destruct x as [s|s| |s m e He]; cbn; intros Hs; try lra. subst s. apply F2R_ge_0. cbn. lia.
Qed.
Lemma score_cases (x : f64) : score_ok x -> x = B754_infinity false \/ (finite x = true /\ 0 <= R_of x).
Proof.
  intros [Hn Hs]. destruct x as [s|s| |s m e He] eqn:E; try discriminate; cbn in Hs; subst s; auto; right; split; auto.
  - cbn. lra.
  - apply sign_nonneg. reflexivity.
Qed.
Lemma score_zero : score_ok fzero. Proof. split; reflexivity. Qed.

Lemma score_add_ok x y : score_ok x -> score_ok y -> score_ok (fadd x y).
Proof.
  intros Hx Hy. destruct (score_cases x Hx) as [->|[Fx Px]].
  - destruct Hy as [Hn Hs]. destruct y as [s|s| |s m e He]; try discriminate; cbn in Hs; subst; split; reflexivity.
  - destruct (score_cases y Hy) as [->|[Fy Py]].
    + destruct Hx as [Hn Hs]. destruct x as [s|s| |s m e He]; try discriminate; cbn in Hs; subst; split; reflexivity.
    + pose proof (Bplus_correct 53 1024 prec_ok emax_ok mode_NE x y Fx Fy) as H. fold (fadd x y) in H.
      destruct Hx as [_ Hsx], Hy as [_ Hsy]. rewrite Hsx, Hsy in H.
      destruct (Rlt_bool _ _).
      * destruct H as (_ & Hf & Hs). split; [now apply finite_not_nan|]. rewrite Hs.
        destruct (Rcompare_spec (R_of x + R_of y) 0); auto. lra.
      * destruct H as [H _]. apply B2SF_inf in H. rewrite H. split; reflexivity.
Qed.
Lemma score_div_ok x (n : nat) : score_ok x -> (1 <= n)%nat -> (Z.of_nat n <= 2 ^ 53)%Z -> score_ok (fdiv x (f64_of_nat n)).
Proof.
  intros Hx Hn Hb. destruct (f64_of_nat_exact n Hb) as [A1 A2]. assert (Hp : 0 < R_of (f64_of_nat n)) by (rewrite A1; apply lt_0_INR; lia).
  set (y := f64_of_nat n) in *. clearbody y.
  assert (Hsy : @Bsign 53 1024 y = false).
  { destruct y as [s|s| |s m e He]; try discriminate; cbn in Hp; [lra|]. destruct s; auto.
    exfalso. pose proof (F2R_lt_0 radix2 (Float radix2 (Z.neg m) e) eq_refl). cbn in *. lra. }
  destruct (score_cases x Hx) as [->|[Fx Px]].
  - destruct y as [s|s| |s m e He]; try discriminate; cbn in Hp; [lra|]. cbn in Hsy. subst s. split; reflexivity.
  - pose proof (Bdiv_correct 53 1024 prec_ok emax_ok mode_NE x y ltac:(lra)) as H. fold (fdiv x y) in H.
    destruct Hx as [_ Hsx]. rewrite Hsx, Hsy in H. cbn [xorb] in H. destruct (Rlt_bool _ _).
    + destruct H as (_ & Hf & Hs). rewrite Fx in Hf. assert (Hnan : is_nan (fdiv x y) = false) by now apply finite_not_nan.
      split; auto.
    + apply B2SF_inf in H. rewrite H. split; reflexivity.
Qed.
Lemma one_div_ok (n : nat) : (Z.of_nat n <= 2 ^ 53)%Z -> score_ok (fdiv (f64_of_nat 1) (f64_of_nat n)).
Proof.
  intros Hn. destruct n as [|n].
  - vm_compute. auto.
  - apply score_div_ok; auto; [|lia]. vm_compute. auto.
Qed.

(** order of scores *)
Definition score_le (x y : f64) : Prop := y = B754_infinity false \/ (finite x = true /\ finite y = true /\ R_of x <= R_of y).
Lemma score_compare x y : score_ok x -> score_ok y -> exists c, fcompare x y = Some c /\ (c <> Gt <-> score_le x y) /\ (c = Gt -> score_le y x).
Proof.
  intros Hx Hy. destruct (score_cases x Hx) as [->|[Fx Px]], (score_cases y Hy) as [->|[Fy Py]].
  - exists Eq. split; [reflexivity|]. split; [split; [left; auto|discriminate]|discriminate].
  - exists Gt. split; [destruct Hy as [Hn Hs]; destruct y as [s|s| |s m e He]; try discriminate; reflexivity|].
    split; [|left; auto]. split; [congruence|]. intros [->|[H _]]; discriminate.
  - exists Lt. split; [destruct Hx as [Hn Hs]; destruct x as [s|s| |s m e He]; try discriminate; reflexivity|].
    split; [|discriminate]. split; [left; auto|discriminate].
  - exists (Rcompare (R_of x) (R_of y)). split; [now apply Bcompare_correct|].
    destruct (Rcompare_spec (R_of x) (R_of y)).
    + split; [|discriminate]. split; [intros _; right; split; auto; split; auto; lra|discriminate].
    + split; [|discriminate]. split; [intros _; right; split; auto; split; auto; lra|discriminate].
    + split; [|intros _; right; split; auto; split; auto; lra]. split; [congruence|]. intros [->|(_ & _ & ?)]; [discriminate|lra].
Qed.
Lemma score_le_trans x y z : score_le x y -> score_le y z -> score_le x z.
Proof.
  intros [->|(Fx & Fy & Hxy)] [->|(Fy' & Fz & Hyz)]; try (left; reflexivity); [discriminate|]. right. split; auto. split; auto. lra.
Qed.

(** ** [rank_nodes] *)
Definition scores_ok (n : nat) (l : list f64) : Prop := List.length l = n /\ Forall score_ok l.
Lemma scores_nth n l i : scores_ok n l -> (i < n)%nat -> exists x, nth_error l i = Some x /\ score_ok x.
Proof.
  intros [Hl Hf] Hi. destruct (nth_error l i) as [x|] eqn:E; [|apply nth_error_None in E; lia]. exists x. split; auto.
  rewrite Forall_forall in Hf. apply Hf. eapply nth_error_In; eauto.
Qed.
Lemma score_add_spec n l i s : scores_ok n l -> (i < n)%nat -> score_ok s -> exists l', score_add l i s = Ok l' /\ scores_ok n l'.
Proof.
  intros Hl Hi Hs. destruct (scores_nth n l i Hl Hi) as (x & Ex & Hx). unfold score_add. rewrite Ex. cbn [unwrap bind].
  eexists. split; [reflexivity|]. destruct Hl as [Hlen Hf]. split; [now rewrite update_length|].
  rewrite Forall_forall in *. intros y Hy. apply In_nth_error in Hy as [j Hj]. rewrite nth_error_update in Hj.
  match type of Hj with (if ?b then _ else _) = _ => destruct b end.
  - inversion Hj; subst. now apply score_add_ok.
  - eapply Hf, nth_error_In; eauto.
Qed.
Lemma foldM_inv {A B} (I : A -> Prop) (k : A -> B -> res A) l : (forall a b, In b l -> I a -> exists a', k a b = Ok a' /\ I a') ->
  forall a, I a -> exists a', foldM k a l = Ok a' /\ I a'.
Proof.
  induction l as [|b l IH]; intros H a Ha; cbn [foldM]; [eauto|].
  destruct (H a b (or_introl eq_refl) Ha) as (a' & -> & Ha'). cbn [bind]. apply IH; auto. intros; apply H; auto. now right.
Qed.
Section Ranking.
Context (f : fbas) (ids : list nat) (Hwf : wf_fbas f) (Hnd : NoDup ids) (Hids : forall x, In x ids -> (x < number_of_nodes f)%nat)
        (Hsize : (Z.of_nat (number_of_nodes f) <= 2 ^ 53)%Z).

Lemma trusted_count id n : nth_error (nodes f) id = Some n -> (len (contained_nodes (node_qset n)) <= number_of_nodes f)%nat.
Proof.
  intros Hn. rewrite len_elements. rewrite <- (seq_length (number_of_nodes f) 0). apply NoDup_incl_length; [apply elements_nodup|].
  intros x Hx. rewrite elements_spec, contained_nodes_spec in Hx. apply in_seq.
  assert (x < number_of_nodes f)%nat; [|lia]. eapply (Hwf id); [exists n; split; [exact Hn|reflexivity]|exact Hx].
Qed.

Lemma rank_node_ok last scores id : scores_ok (number_of_nodes f) last -> scores_ok (number_of_nodes f) scores -> In id ids ->
  exists scores', rank_node f (of_list ids) last scores id = Ok scores' /\ scores_ok (number_of_nodes f) scores'.
Proof.
  intros Hl Hs Hid. unfold rank_node. pose proof (Hids id Hid) as Hlt.
  destruct (nth_error (nodes f) id) as [n|] eqn:En; [|apply nth_error_None in En; unfold number_of_nodes in Hlt; lia]. cbn [unwrap bind].
  apply (foldM_inv (scores_ok (number_of_nodes f))); auto.
  intros sc t Ht Hsc. apply filter_In in Ht as [Ht Hm]. destruct (scores_nth _ last id Hl Hlt) as (x & Ex & Hx). rewrite Ex. cbn [unwrap bind].
  apply score_add_spec; auto.
  - apply Hids. now apply mem_of_list.
  - apply score_div_ok; auto.
    + rewrite len_elements. destruct (elements (contained_nodes (node_qset n))); [contradiction|cbn; lia].
    + pose proof (trusted_count id n En). lia.
Qed.

Lemma zeros_ok : scores_ok (number_of_nodes f) (repeat fzero (number_of_nodes f)).
Proof. split; [apply repeat_length|]. apply Forall_forall. intros x Hx. apply repeat_spec in Hx. subst. apply score_zero. Qed.
Lemma rank_run_ok last : scores_ok (number_of_nodes f) last ->
  exists scores', rank_run f ids (of_list ids) last = Ok scores' /\ scores_ok (number_of_nodes f) scores'.
Proof.
  intros Hl. unfold rank_run. apply (foldM_inv (scores_ok (number_of_nodes f))); [|apply zeros_ok].
  intros a b Hb Ha. now apply rank_node_ok.
Qed.
Lemma rank_runs_ok k : forall scores, scores_ok (number_of_nodes f) scores ->
  exists scores', rank_runs k f ids (of_list ids) scores = Ok scores' /\ scores_ok (number_of_nodes f) scores'.
Proof.
  induction k as [|k IH]; intros scores Hs; cbn [rank_runs]; [eauto|].
  destruct (rank_run_ok scores Hs) as (s' & -> & Hs'). cbn [bind]. auto.
Qed.
Lemma rank_nodes_ok : exists scores, rank_nodes ids f = Ok scores /\ scores_ok (number_of_nodes f) scores.
Proof.
  unfold rank_nodes. assert (El : (List.length ids =? len (of_list ids))%nat = true).
  { apply Nat.eqb_eq. rewrite len_elements. apply Permutation_length. apply NoDup_Permutation; auto; [apply elements_nodup|].
    intros x. rewrite elements_spec. symmetry. apply mem_of_list. }
  rewrite El. cbn [assert]. apply rank_runs_ok. split; [apply repeat_length|].
  apply Forall_forall. intros x Hx. apply repeat_spec in Hx. subst. apply one_div_ok.
  assert (List.length ids <= number_of_nodes f)%nat; [|lia]. rewrite <- (seq_length (number_of_nodes f) 0).
  apply NoDup_incl_length; auto. intros x Hx. apply in_seq. specialize (Hids x Hx). lia.
Qed.
End Ranking.

(** ** sorting with a comparison that may panic *)
Lemma insert_byM_perm {A} (cmp : A -> A -> res comparison) x l : forall l', insert_byM cmp x l = Ok l' -> Permutation l' (x :: l).
Proof.
  induction l as [|y l IH]; cbn [insert_byM]; intros l' H; [inversion H; auto|].
  destruct (cmp x y) as [[]|]; cbn [bind] in H; try discriminate; try (inversion H; subst; apply Permutation_refl).
  destruct (insert_byM cmp x l) as [r|]; cbn [bind] in H; [|discriminate]. inversion H; subst.
  eapply perm_trans; [apply perm_skip, IH; reflexivity|]. apply perm_swap.
Qed.
Lemma sort_byM_perm {A} (cmp : A -> A -> res comparison) l : forall l', sort_byM cmp l = Ok l' -> Permutation l' l.
Proof.
  induction l as [|x l IH]; cbn [sort_byM]; intros l' H; [inversion H; auto|].
  destruct (sort_byM cmp l) as [r|]; cbn [bind] in H; [|discriminate].
  eapply perm_trans; [eapply insert_byM_perm; eauto|]. apply perm_skip. auto.
Qed.
Section SortM.
Context {A} (cmp : A -> A -> res comparison) (R : A -> A -> Prop) (D : A -> Prop)
        (Hcmp : forall x y, D x -> D y -> exists c, cmp x y = Ok c /\ (c <> Gt -> R x y) /\ (c = Gt -> R y x))
        (Htrans : forall x y z, R x y -> R y z -> R x z).
Lemma insert_byM_sorted x l : D x -> Forall D l -> StronglySorted R l -> exists l', insert_byM cmp x l = Ok l' /\ StronglySorted R l'.
Proof.
  intros Hx. induction l as [|y l IH]; intros Hl Hs; cbn [insert_byM].
  - eexists. split; [reflexivity|]. repeat constructor.
  - inversion Hl as [|? ? Hy Hl']; subst. inversion Hs as [|? ? Hs' Hf]; subst.
    destruct (Hcmp x y Hx Hy) as (c & -> & H1 & H2). cbn [bind].
    assert (Hins : c <> Gt -> StronglySorted R (x :: y :: l)).
    { intros Hc. constructor; auto. constructor; auto. apply Forall_forall. intros z Hz. rewrite Forall_forall in Hf. apply (Htrans x y z); auto. }
    destruct c; try (eexists; split; [reflexivity|apply Hins; discriminate]).
    destruct (IH Hl' Hs') as (r & Er & Hr). rewrite Er. cbn [bind]. eexists. split; [reflexivity|]. constructor; auto.
    apply Forall_forall. intros z Hz. apply insert_byM_perm in Er. apply (Permutation_in _ Er) in Hz. destruct Hz as [<-|Hz]; auto.
    rewrite Forall_forall in Hf. auto.
Qed.
Lemma sort_byM_sorted l : Forall D l -> exists l', sort_byM cmp l = Ok l' /\ StronglySorted R l'.
Proof.
  induction l as [|x l IH]; intros Hl; cbn [sort_byM]; [eexists; split; [reflexivity|constructor]|].
  inversion Hl; subst. destruct IH as (r & Er & Hr); auto. rewrite Er. cbn [bind]. apply insert_byM_sorted; auto.
  apply sort_byM_perm in Er. apply Forall_forall. intros z Hz. apply (Permutation_in _ Er) in Hz. rewrite Forall_forall in *. auto.
Qed.
End SortM.

Lemma sort_by_rank_ok f ids : wf_fbas f -> NoDup ids -> (forall x, In x ids -> (x < number_of_nodes f)%nat) ->
  (Z.of_nat (number_of_nodes f) <= 2 ^ 53)%Z ->
  exists scores sorted, rank_nodes ids f = Ok scores /\ List.length scores = number_of_nodes f /\
    Forall (fun s => fnan s = false) scores /\
    sort_by_rank ids f = Ok sorted /\ Permutation sorted ids /\
    StronglySorted (fun x y => exists sx sy c, nth_error scores x = Some sx /\ nth_error scores y = Some sy /\
                                fcompare sx sy = Some c /\ c <> Lt) sorted.
Proof.
  intros Hwf Hnd Hids Hsize. destruct (rank_nodes_ok f ids Hwf Hnd Hids Hsize) as (scores & E & Hs).
  set (R := fun x y => exists sx sy, nth_error scores x = Some sx /\ nth_error scores y = Some sy /\ score_le sy sx).
  set (cmp := fun x y => sy <- unwrap (nth_error scores y) ;; sx <- unwrap (nth_error scores x) ;; unwrap (fcompare sy sx)).
  destruct (sort_byM_sorted cmp R (fun x => x < number_of_nodes f)%nat) with (l := ids) as (sorted & Esort & Hsorted).
  - intros x y Hx Hy. destruct (scores_nth _ _ x Hs Hx) as (sx & Ex & Hsx). destruct (scores_nth _ _ y Hs Hy) as (sy & Ey & Hsy).
    unfold cmp. rewrite Ex, Ey. cbn [unwrap bind]. destruct (score_compare sy sx Hsy Hsx) as (c & -> & H1 & H2). cbn [unwrap].
    exists c. split; auto. split; intros Hc.
    + exists sx, sy. split; auto. split; auto. now apply H1.
    + exists sy, sx. split; auto.
  - intros x y z (sx & sy & Ex & Ey & H1) (sy' & sz & Ey' & Ez & H2). rewrite Ey in Ey'. inversion Ey'; subst sy'.
    exists sx, sz. split; auto. split; auto. now apply (score_le_trans sz sy sx).
  - apply Forall_forall. auto.
  - exists scores, sorted. split; auto. split; [apply Hs|]. split.
    { destruct Hs as [_ Hs]. apply Forall_forall. intros s Hin. rewrite Forall_forall in Hs. apply Hs; auto. }
    assert (Esr : sort_by_rank ids f = Ok sorted) by (unfold sort_by_rank; rewrite E; exact Esort).
    split; auto. split; [eapply sort_byM_perm; exact Esort|].
    assert (Hin : forall x, In x sorted -> (x < number_of_nodes f)%nat).
    { intros x Hx. apply Hids. eapply Permutation_in; [eapply sort_byM_perm; exact Esort|exact Hx]. }
    clear -Hsorted Hs Hin. induction Hsorted as [|x l Hl IH Hf]; constructor.
    + apply IH. intros; apply Hin; now right.
    + apply Forall_forall. intros y Hy. rewrite Forall_forall in Hf. destruct (Hf y Hy) as (sx & sy & Ex & Ey & Hle).
      assert (Hsx : score_ok sx).
      { destruct (scores_nth _ _ x Hs (Hin x (or_introl eq_refl))) as (s & Es & Hok). congruence. }
      assert (Hsy : score_ok sy).
      { destruct (scores_nth _ _ y Hs (Hin y (or_intror Hy))) as (s & Es & Hok). congruence. }
      destruct (score_compare sx sy Hsx Hsy) as (c & Ec & H1 & H2). exists sx, sy, c. split; auto. split; auto. split; auto.
      intros ->. destruct (score_cases sx Hsx) as [->|[Fx _]].
      * destruct sy as [s|s| |s m e He]; try discriminate. destruct s; discriminate.
      * destruct Hle as [->|(Fy & _ & Hle)]; [discriminate|]. unfold fcompare in Ec. rewrite Bcompare_correct in Ec by auto.
        inversion Ec as [Hc]. apply Rcompare_Lt_inv in Hc. lra.
Qed.

(** the real ranking is an admissible order *)
Lemma ranked_ext_ok components :
  (forall n start succ, (forall x, In x start -> (x < n)%nat) -> (forall x y, (x < n)%nat -> In y (succ x) -> (y < n)%nat) ->
     scc_spec start succ (components n start succ)) -> ext_ok (ranked_ext components).
Proof.
  intros H. split; [exact H|]. intros f l _ _ _. cbn. unfold sort_by_rank.
  destruct (rank_nodes l f) as [scores|]; cbn [bind]; [|apply Permutation_refl].
  match goal with |- Permutation (match ?e with Ok _ => _ | Panic => _ end) _ => destruct e as [l'|] eqn:E end; [|apply Permutation_refl].
  eapply sort_byM_perm; eauto.
Qed.

