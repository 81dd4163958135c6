(** Statements of Th_Core derived from the lemmas. *)
From Verif Require Export Examples.
Local Open Scope list_scope.

Lemma to_quorum_slices_exact_minimal q : no_repetitions q ->
  NoDup (to_quorum_slices q) /\
  forall s, In s (to_quorum_slices q) <-> minimal (fun S => slice (fun x => mem x S = true) q) s.
Proof.
  intro H. apply no_repetitions_nodup in H. split; [apply to_quorum_slices_nodup; auto|].
  intro s. apply to_quorum_slices_exact; auto.
Qed.

Lemma add_node_cases f n :
  match add_node f n with
  | Ok (f', i) => i = number_of_nodes f /\ nodes f' = nodes f ++ [n] /\ get_node_id f (node_pk n) = None /\
                  get_node_id f' (node_pk n) = Some i
  | Panic => get_node_id f (node_pk n) <> None
  end.
Proof.
  destruct (add_node f n) as [[f' i]|] eqn:Ea.
  - apply add_node_spec in Ea. destruct Ea as (-> & H1 & H2 & H3). repeat split; auto.
    unfold get_node_id. rewrite H3. simpl. rewrite String.eqb_refl. auto.
  - unfold add_node in Ea. unfold get_node_id. destruct (assoc _ _ _); [discriminate|discriminate].
Qed.

Lemma map_update_same {A B} (g : A -> B) i x y l : nth_error l i = Some y -> g x = g y -> map g (update i x l) = map g l.
Proof.
  revert i. induction l as [|a l IH]; intros [|i] H E; simpl in *; try discriminate; f_equal; auto. congruence.
Qed.

Lemma swap_cases f i q :
  match swap_quorum_set f i q with
  | Ok (f', q') => get_quorum_set f i = Some q' /\ get_quorum_set f' i = Some q /\
      (forall j, j <> i -> nth_error (nodes f') j = nth_error (nodes f) j) /\
      map node_pk (nodes f') = map node_pk (nodes f) /\ pk_to_id f' = pk_to_id f /\
      swap_quorum_set f' i q' = Ok (f, q)
  | Panic => number_of_nodes f <= i
  end.
Proof.
  destruct (swap_quorum_set f i q) as [[f' q']|] eqn:Es.
  - assert (Hb := swap_back _ _ _ _ _ Es). apply swap_spec in Es. destruct Es as (n & Hn & -> & Ep & En).
    unfold get_quorum_set. rewrite Hn, En.
    assert (L : i < List.length (nodes f)) by (apply nth_error_Some; congruence).
    split; auto. split; [|split; [|split; [|split]]]; auto.
    + rewrite nth_error_update, Nat.eqb_refl, (proj2 (Nat.ltb_lt _ _) L). auto.
    + intros j Hj. rewrite nth_error_update. apply Nat.eqb_neq in Hj. rewrite Hj. auto.
    + eapply map_update_same; eauto.
  - unfold swap_quorum_set in Es. destruct (nth_error (nodes f) i) eqn:En; [discriminate|]. apply nth_error_None in En. auto.
Qed.

Lemma find_minimal_quorums_exact E f : ext_ok E -> wf_fbas f ->
  exists l, find_minimal_quorums E f = Ok l /\
    (forall Q, In Q l <-> minimal_quorum f Q) /\
    (forall Q, quorum f Q -> exists m, In m l /\ incl_set m Q).
Proof.
  intros HE Hwf. destruct (find_minimal_quorums_spec E HE f Hwf) as (l & El & Hl & _). exists l. split; auto. split; auto.
  intros Q HQ. destruct (minimal_quorum_below f Q HQ) as (m & Hm & Hmm). exists m. split; auto. apply Hl; auto.
Qed.

Lemma find_minimal_quorums_weak_order E f : ext_ok E -> wf_fbas f ->
  exists l, find_minimal_quorums E f = Ok l /\ StronglySorted (fun a b => before a b \/ a = b) l.
Proof.
  intros HE Hwf. destruct (find_minimal_quorums_spec E HE f Hwf) as (l & El & _ & Hs & _). exists l. split; auto.
  clear - Hs. induction Hs as [|x l Hs IH Hx]; constructor; auto. rewrite Forall_forall in *. intros y Hy.
  destruct (bset_eq_dec x y); auto. left. apply before_or_eq_before; auto.
Qed.

Lemma find_minimal_quorums_order E f : ext_ok E -> wf_fbas f ->
  (forall q, satisfiable_cluster f q -> no_repetitions q) ->
  exists l, find_minimal_quorums E f = Ok l /\ StronglySorted before l /\
    (forall a b, In a l -> In b l -> incl_set a b -> a = b).
Proof.
  intros HE Hwf Hn. destruct (find_minimal_quorums_spec E HE f Hwf) as (l & El & Hl & _ & Hs). exists l. split; auto. split.
  - apply Hs. intros q H. apply no_repetitions_nodup. auto.
  - intros a b Ha Hb Hi. apply Hl in Ha, Hb. destruct Ha as [Ha _]. destruct Hb as [_ Hb]. auto.
Qed.

Lemma remove_non_minimal_exact l :
  StronglySorted before (remove_non_minimal_node_sets l) /\
  forall s, In s (remove_non_minimal_node_sets l) <-> minimal (fun x => In x l) s.
Proof. split; [apply remove_non_minimal_before|]. apply remove_non_minimal_node_sets_spec. Qed.

Lemma find_symmetric_clusters_exact E f : ext_ok E -> wf_fbas f ->
  exists l, find_symmetric_clusters E f = Ok l /\ NoDup l /\
    (forall q, In q l <-> satisfiable_cluster f q) /\
    (forall q q', In q l -> In q' l -> q <> q' ->
       exists Q Q', quorum f Q /\ quorum f Q' /\ ~ meets Q Q').
Proof.
  intros HE Hwf. destruct (find_symmetric_clusters_iff E HE f Hwf) as (l & El & Nl & Hl). exists l.
  split; auto. split; auto. split.
  - intro q. apply Hl.
  - intros q q' Hq Hq' Hne. apply Hl in Hq, Hq'. exists (contained_nodes q), (contained_nodes q').
    split; [apply satisfiable_cluster_quorum; auto|split; [apply satisfiable_cluster_quorum; auto|]].
    eapply two_symmetric_clusters; eauto.
Qed.

(** ** counterexamples *)
Definition dup_fbas := sample [QS 1 [0;0] []].
Lemma duplicate_quorums : exists f, wf_fbas f /\ exists Q, find_minimal_quorums std_ext f = Ok [Q; Q].
Proof.
  exists dup_fbas. split; [apply wfb_ok; vm_compute; reflexivity|]. exists (of_list [0]). vm_compute. reflexivity.
Qed.

(** deciding blocking sets of small FBASs by the complement *)
Lemma blocking_iff f B : blocking f B <-> contains_quorum (diff (all_nodes f) B) f = false.
Proof.
  rewrite contains_quorum_false. split.
  - intros H Q HQ Hi. destruct (H Q HQ) as (x & Hx & HxQ). apply Hi in HxQ. rewrite mem_diff, Hx, andb_false_r in HxQ. discriminate.
  - intros H Q HQ. apply not_disjoint_meets. apply not_true_iff_false. intro Hd. apply (H Q HQ). intros x Hx.
    rewrite mem_diff, (quorum_nodes f Q HQ x Hx). simpl. rewrite disjoint_iff in Hd. destruct (mem x B) eqn:E; auto.
    exfalso. eauto.
Qed.

Lemma blocking_mono f B B' : incl_set B B' -> blocking f B -> blocking f B'.
Proof. intros Hi H Q HQ. destruct (H Q HQ) as (x & Hx & HxQ). exists x. auto. Qed.

Lemma minimal_blocking_iff f B : minimal_blocking f B <->
  blocking f B /\ forall x, mem x B = true -> ~ blocking f (remove x B).
Proof.
  split.
  - intros [H1 H2]. split; auto. intros x Hx Hb.
    assert (E : remove x B = B).
    { apply H2; auto. intros y Hy. rewrite mem_remove, andb_true_iff in Hy. tauto. }
    rewrite <- E, mem_remove, Nat.eqb_refl, andb_false_r in Hx. discriminate.
  - intros [H1 H2]. split; auto. intros B' HB' Hi. apply incl_antisym; auto. intros x Hx.
    destruct (mem x B') eqn:Ex; auto. exfalso. apply (H2 x Hx). eapply blocking_mono; [|exact HB']. apply incl_remove. auto.
Qed.

Definition blockingb f B := negb (contains_quorum (diff (all_nodes f) B) f).
Definition minimal_blockingb f B := blockingb f B && forallb (fun x => negb (blockingb f (remove x B))) (elements B).
Lemma minimal_blockingb_iff f B : minimal_blockingb f B = true <-> minimal_blocking f B.
Proof.
  assert (Hb : forall B, blockingb f B = true <-> blocking f B).
  { intro. unfold blockingb. rewrite negb_true_iff. symmetry. apply blocking_iff. }
  unfold minimal_blockingb. rewrite andb_true_iff, Hb, forallb_forall, minimal_blocking_iff. split; intros [H1 H2]; split; auto.
  - intros x Hx. rewrite <- Hb, not_true_iff_false, <- negb_true_iff. apply H2, elements_spec; auto.
  - intros x Hx. rewrite negb_true_iff, <- not_true_iff_false, Hb. apply H2, elements_spec; auto.
Qed.

Lemma not_in_eqb (B : bset) l : existsb (beq B) l = false -> ~ In B l.
Proof.
  intros H Hin. apply not_true_iff_false in H. apply H. apply existsb_exists. exists B. split; auto. apply beq_refl.
Qed.

Lemma blocking_no_quorum : exists f, wf_fbas f /\ minimal_blocking f bempty /\ find_minimal_blocking_sets std_ext f = Ok [].
Proof.
  exists (sample [QS 2 [0] []]). split; [apply wfb_ok; vm_compute; reflexivity|]. split.
  - apply minimal_blockingb_iff. vm_compute. reflexivity.
  - vm_compute. reflexivity.
Qed.

Definition rep_fbas := let q := QS 2 [0;1] [QS 1 [1;2] []] in sample [q;q;q].
Lemma blocking_repetition : exists f B, wf_fbas f /\ (exists Q, quorum f Q) /\ minimal_blocking f B /\
  exists l, find_minimal_blocking_sets std_ext f = Ok l /\ ~ In B l.
Proof.
  exists rep_fbas, (of_list [1;2]). split; [apply wfb_ok; vm_compute; reflexivity|].
  split; [apply (has_quorum rep_fbas (of_list [1])); vm_compute; reflexivity|].
  split; [apply minimal_blockingb_iff; vm_compute; reflexivity|].
  eexists. split; [vm_compute; reflexivity|]. apply not_in_eqb. vm_compute. reflexivity.
Qed.

Definition inner_fbas := let q := QS 1 [0] [QS 2 [1] []] in sample [q;q].
Lemma blocking_unsatisfiable_inner : exists f B, wf_fbas f /\ (exists Q, quorum f Q) /\ 
  (forall x q, node_of f x q -> no_repetitions q) /\ minimal_blocking f B /\ find_minimal_blocking_sets std_ext f = Ok [].
Proof.
  exists inner_fbas, (of_list [0]). split; [apply wfb_ok; vm_compute; reflexivity|].
  split; [apply (has_quorum inner_fbas (of_list [0])); vm_compute; reflexivity|].
  split; [|split; [apply minimal_blockingb_iff; vm_compute; reflexivity|vm_compute; reflexivity]].
  intros x q H. apply no_repetitions_nodup, contains_duplicates_false.
  destruct H as (n & Hn & <-). destruct x as [|[|x]]; [| |destruct x]; vm_compute in Hn; try discriminate; inversion Hn; vm_compute; reflexivity.
Qed.
