(** Quorums of shrunken FBASs. *)
From Verif Require Export P_Shrink.
Local Open Scope list_scope.

Lemma add_generic_nodes_build n : forall f, add_generic_nodes n f = build_all f (map B_add_generic_node (repeat qset_new n)).
Proof.
  induction n as [|n IH]; intro f; simpl; auto. unfold res_map. destruct (add_generic_node f qset_new) as [[f' i]|]; simpl; auto.
Qed.

Lemma new_generic_ok n : exists g, new_generic_unconfigured n = Ok g /\ keys_ok g /\ generic_keys g /\
  map node_qset (nodes g) = repeat qset_new n.
Proof.
  unfold new_generic_unconfigured. rewrite add_generic_nodes_build.
  destruct (generic_build (repeat qset_new n) fbas_new keys_ok_new generic_new) as (g & Hg & H1 & H2 & H3).
  exists g. auto.
Qed.

Lemma overwrite_length f m ns x : List.length (overwrite f m ns x) = List.length ns.
Proof. unfold overwrite. destruct (assoc Nat.eqb x m), (nth_error (nodes f) x); auto. apply update_length. Qed.

Lemma fold_overwrite_length f m l : forall ns, List.length (fold_left (overwrite f m) l ns) = List.length ns.
Proof. induction l as [|x l IH]; intro ns; simpl; auto. rewrite IH. apply overwrite_length. Qed.

Lemma fold_overwrite f K l i x : nth_error (elements K) i = Some x -> forall ns, i < List.length ns ->
  nth_error (fold_left (overwrite f (shrink_map (sm_new K))) l ns) i =
  match nth_error (nodes f) x with
  | Some n => if in_dec Nat.eq_dec x l then Some (node_shrunken (shrink_map (sm_new K)) n) else nth_error ns i
  | None => nth_error ns i
  end.
Proof.
  intros Hx. set (m := shrink_map (sm_new K)).
  induction l as [|y l IH]; intros ns Hi; [destruct (nth_error (nodes f) x); auto|].
  cbn [fold_left]. rewrite IH by (rewrite overwrite_length; auto).
  destruct (Nat.eq_dec y x) as [->|Hne].
  - assert (Ha := proj2 (shrink_map_spec K x i) Hx). fold m in Ha.
    destruct (nth_error (nodes f) x) as [n|] eqn:En.
    + destruct (in_dec Nat.eq_dec x (x :: l)) as [_|H]; [|exfalso; apply H; left; auto].
      destruct (in_dec Nat.eq_dec x l); auto. unfold overwrite. rewrite Ha, En, nth_error_update, Nat.eqb_refl.
      rewrite (proj2 (Nat.ltb_lt _ _) Hi). auto.
    + unfold overwrite. rewrite Ha, En. auto.
  - assert (Ho : nth_error (overwrite f m ns y) i = nth_error ns i).
    { unfold overwrite. destruct (assoc Nat.eqb y m) as [j|] eqn:Ej; auto. destruct (nth_error (nodes f) y); auto.
      rewrite nth_error_update. destruct (Nat.eqb_spec i j) as [->|]; auto. exfalso.
      apply shrink_map_spec in Ej. congruence. }
    rewrite Ho. destruct (nth_error (nodes f) x); auto.
    destruct (in_dec Nat.eq_dec x l) as [H|H], (in_dec Nat.eq_dec x (y :: l)) as [H'|H']; auto.
    + exfalso. apply H'. right; auto.
    + destruct H' as [H'|H']; [congruence|contradiction].
Qed.

Lemma filter_perm_length {A} (p : A -> bool) l l' : Permutation l l' -> List.length (filter p l) = List.length (filter p l').
Proof. induction 1; simpl; try congruence; repeat (destruct (p _); simpl); congruence. Qed.

Section Shrunk.
Variables (K : bset).
Let table := elements K.
Let m := shrink_map (sm_new K).

Lemma mem_up_shrink s' x i : assoc Nat.eqb x m = Some i -> mem i s' = mem x (up table s').
Proof.
  intro H. apply shrink_map_spec in H. apply eq_true_iff_eq. rewrite mem_up. split.
  - intro Hi. eauto.
  - intros (j & Hj & E). rewrite (nth_error_inj table i j x); auto. apply elements_nodup.
Qed.

Lemma mem_up_none s' x : assoc Nat.eqb x m = None -> mem x (up table s') = false.
Proof.
  intro H. apply shrink_map_none in H. apply not_true_iff_false. intro Hx. apply up_range, elements_spec in Hx. congruence.
Qed.

Lemma qset_shrunken_slice q s' : is_quorum_slice (qset_shrunken m q) s' = is_quorum_slice q (up table s').
Proof.
  induction q as [t vs is_ IH] using qset_ind'. apply eq_true_iff_eq. cbn [qset_shrunken].
  rewrite !is_quorum_slice_matches. unfold matches.
  assert (Ev : List.length (filter (fun x => mem x s') (sort_by Nat.compare (filter_map (fun old_id => assoc Nat.eqb old_id m) vs))) =
               List.length (filter (fun x => mem x (up table s')) vs)).
  { rewrite (filter_perm_length _ _ _ (sort_by_perm _ _)). clear IH. induction vs as [|v vs IHv]; simpl; auto.
    destruct (assoc Nat.eqb v m) as [i|] eqn:Ea; simpl.
    - rewrite (mem_up_shrink s' v i) by auto. destruct (mem v (up table s')); simpl; auto.
    - rewrite mem_up_none by auto. auto. }
  assert (Ei : List.length (filter (fun i => is_quorum_slice i s') (sort_by qset_compare (filter (fun i => negb (qset_eqb i qset_new)) (map (qset_shrunken m) is_)))) =
               List.length (filter (fun i => is_quorum_slice i (up table s')) is_)).
  { rewrite (filter_perm_length _ _ _ (sort_by_perm _ _)). clear Ev. induction is_ as [|i is_ IHi]; simpl; auto.
    assert (IH1 := IH i (or_introl eq_refl)). assert (IHi' := IHi (fun j Hj => IH j (or_intror Hj))).
    destruct (qset_eqb (qset_shrunken m i) qset_new) eqn:Eq; simpl.
    - apply qset_eqb_eq in Eq. rewrite Eq in IH1. rewrite <- IH1. simpl. auto.
    - rewrite IH1. destruct (is_quorum_slice i (up table s')); simpl; auto. }
  rewrite Ev, Ei. tauto.
Qed.

Lemma qset_shrunken_mentions q i : mentions i (qset_shrunken m q) -> exists x, mentions x q /\ nth_error table i = Some x.
Proof.
  induction q as [t vs is_ IH] using qset_ind'. cbn [qset_shrunken]. rewrite mentions_inv. intros [H|(j & Hj & H)].
  - apply sort_by_in, filter_map_in in H. destruct H as (x & Hx & E). apply shrink_map_spec in E. exists x. split; auto.
    constructor. auto.
  - apply sort_by_in, filter_In in Hj. destruct Hj as [Hj _]. apply in_map_iff in Hj. destruct Hj as (i0 & <- & Hi0).
    destruct (IH i0 Hi0 H) as (x & Hx & E). exists x. split; auto. eapply mentions_inner; eauto.
Qed.

(** and conversely, up to inner sets that vanish *)
Lemma qset_shrunken_mentions_back q i x : mentions x q -> nth_error table i = Some x -> mentions i (qset_shrunken m q).
Proof.
  intros Hx Hi. assert (Ha := proj2 (shrink_map_spec K x i) Hi). fold m in Ha.
  induction q as [t vs is_ IH] using qset_ind'. cbn [qset_shrunken]. rewrite mentions_inv in Hx. rewrite mentions_inv.
  destruct Hx as [Hx|(j & Hj & Hx)].
  - left. apply sort_by_in, filter_map_in. eauto.
  - right. exists (qset_shrunken m j). split; [|apply IH; auto]. apply sort_by_in, filter_In. split; [apply in_map; auto|].
    apply negb_true_iff, not_true_iff_false. intro E. apply qset_eqb_eq in E. specialize (IH j Hj Hx). rewrite E in IH.
    rewrite <- contained_list_spec in IH. destruct IH.
Qed.

Variable f : fbas.

Definition shrunken_fbas : fbas := match shrunken f K with Ok r => fst r | Panic => fbas_new end.

Lemma shrunken_eq : shrunken f K = Ok (shrunken_fbas, sm_new K).
Proof.
  unfold shrunken_fbas, shrunken. destruct (new_generic_ok (List.length (unshrink_table (sm_new K)))) as (g & Hg & _). rewrite Hg. auto.
Qed.

Lemma shrunken_node i : nth_error (nodes shrunken_fbas) i =
  match nth_error table i with
  | None => None
  | Some x => match nth_error (nodes f) x with
              | Some n => Some (node_shrunken m n)
              | None => Some (mk_node (generate_generic_node_name i) qset_new)
              end
  end.
Proof.
  unfold shrunken_fbas, shrunken. simpl. fold table.
  destruct (new_generic_ok (List.length table)) as (g & Hg & _ & Hgk & Hq). rewrite Hg. cbn [fst bind nodes]. fold m.
  assert (Hl : List.length (nodes g) = List.length table).
  { rewrite <- (map_length node_qset), Hq, repeat_length. auto. }
  destruct (nth_error table i) as [x|] eqn:Ex.
  - assert (Hi : i < List.length table) by (apply nth_error_Some; congruence).
    unfold m. rewrite (fold_overwrite f K _ i x Ex) by lia.
    destruct (nth_error (nodes f) x) as [n|] eqn:En.
    + destruct (in_dec Nat.eq_dec x _) as [H|H]; auto. exfalso. apply H, in_seq.
      assert (x < List.length (nodes f)) by (apply nth_error_Some; congruence). lia.
    + destruct (nth_error (nodes g) i) as [n|] eqn:Eg; [|apply nth_error_None in Eg; lia]. f_equal.
      assert (Hqn : nth_error (map node_qset (nodes g)) i = Some (node_qset n)) by (apply map_nth_error; auto).
      rewrite Hq in Hqn. apply nth_error_In, repeat_spec in Hqn.
      destruct n as [pk q]. simpl in Hqn. subst q. f_equal. apply Hgk in Eg. auto.
  - apply nth_error_None. rewrite fold_overwrite_length, Hl. apply nth_error_None. auto.
Qed.

Lemma shrunken_nodes : number_of_nodes shrunken_fbas = len K.
Proof.
  unfold number_of_nodes. rewrite len_elements. fold table.
  assert (H : forall i, nth_error (nodes shrunken_fbas) i = None <-> nth_error table i = None).
  { intro i. rewrite shrunken_node. destruct (nth_error table i) as [x|]; [|tauto]. destruct (nth_error (nodes f) x); split; discriminate. }
  destruct (lt_eq_lt_dec (List.length (nodes shrunken_fbas)) (List.length table)) as [[L|L]|L]; auto.
  - apply nth_error_Some in L. exfalso. apply L, H, nth_error_None. lia.
  - apply nth_error_Some in L. exfalso. apply L, H, nth_error_None. lia.
Qed.

Lemma shrunken_qset i : qset_of shrunken_fbas i =
  match nth_error table i with Some x => qset_shrunken m (qset_of f x) | None => qset_new end.
Proof.
  unfold qset_of. rewrite shrunken_node. destruct (nth_error table i) as [x|]; auto. destruct (nth_error (nodes f) x) as [n|]; auto.
Qed.

Lemma shrunken_wf : wf_fbas shrunken_fbas.
Proof.
  intros i q j (n & Hn & <-) Hm. rewrite shrunken_nodes, len_elements. fold table. rewrite shrunken_node in Hn.
  destruct (nth_error table i) as [x|]; [|discriminate]. destruct (nth_error (nodes f) x) as [n'|]; inversion Hn; subst n; simpl in Hm.
  - apply qset_shrunken_mentions in Hm. destruct Hm as (y & _ & E). apply nth_error_Some. congruence.
  - apply contained_list_spec in Hm. destruct Hm.
Qed.

Lemma shrunken_sat i x s' : nth_error table i = Some x -> sat shrunken_fbas i s' = sat f x (up table s').
Proof. intro H. unfold sat. rewrite shrunken_qset, H. apply qset_shrunken_slice. Qed.

Lemma shrunken_quorum s' : in_range table s' -> (quorum shrunken_fbas s' <-> quorum f (up table s')).
Proof.
  intro Hr. rewrite !quorum_closed. split; intros [(i & Hi) Hc]; split.
  - assert (Hl := Hr i Hi). apply nth_error_Some in Hl. destruct (nth_error table i) as [x|] eqn:E; [|congruence].
    exists x. apply mem_up. eauto.
  - intros x Hx. apply mem_up in Hx. destruct Hx as (j & Hj & E). rewrite <- (shrunken_sat j); auto.
  - apply mem_up in Hi. destruct Hi as (j & Hj & E). exists j. auto.
  - intros j Hj. assert (Hl := Hr j Hj). apply nth_error_Some in Hl. destruct (nth_error table j) as [x|] eqn:E; [|congruence].
    rewrite (shrunken_sat j x); auto. apply Hc, mem_up. eauto.
Qed.

Lemma shrunken_quorum_range s' : quorum shrunken_fbas s' -> in_range table s'.
Proof. intros H i Hi. apply quorum_nodes in H. apply H, mem_all_nodes in Hi. rewrite shrunken_nodes, len_elements in Hi. auto. Qed.

Lemma minimal_quorum_shrunken s' : in_range table s' -> (minimal_quorum shrunken_fbas s' <-> minimal_quorum f (up table s')).
Proof.
  assert (Hnd : NoDup table) by apply elements_nodup.
  intro Hr. split; intros [HQ Hm]; split.
  - apply shrunken_quorum; auto.
  - intros S HS Hi. assert (Hin : forall x, mem x S = true -> In x table) by (intros x Hx; apply (up_range table s'), Hi; auto).
    assert (ES := up_down table S Hin). rewrite <- ES. f_equal. apply Hm.
    + apply shrunken_quorum; [intros j Hj; exact (down_range table S j Hj)|]. fold table. rewrite ES. auto.
    + rewrite <- (down_up table s') by auto. apply down_incl. auto.
  - apply shrunken_quorum; auto.
  - intros S HS Hi. assert (HSr : in_range table S) by (intros j Hj; auto).
    rewrite <- (down_up table S), <- (down_up table s') by auto. f_equal. apply Hm.
    + apply shrunken_quorum; auto.
    + apply up_incl; auto.
Qed.
End Shrunk.
