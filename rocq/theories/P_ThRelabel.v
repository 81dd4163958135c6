(** Examples and counterexamples for renumbered FBASs. *)
From Verif Require Export P_Relabel P_ThOrders.
Local Open Scope list_scope.

Lemma relabel_splitting_thm (E E' : ext) p f g mq mq' : ext_ok E -> ext_ok E' -> wf_fbas f -> relabelling p f g ->
  find_minimal_quorums E f = Ok mq -> find_minimal_quorums E' g = Ok mq' ->
  exists l l', find_minimal_splitting_sets E f mq = Ok l /\ find_minimal_splitting_sets E' g mq' = Ok l' /\ same_sets_under p l l'.
Proof. intros HE HE' Hf Hr. apply relabel_splitting; auto. Qed.

Lemma relabel_blocking_thm (E E' : ext) p f g : ext_ok E -> ext_ok E' -> wf_fbas f -> relabelling p f g ->
  (forall q, satisfiable_cluster f q -> no_repetitions q) ->
  exists l l', find_minimal_blocking_sets E f = Ok l /\ find_minimal_blocking_sets E' g = Ok l' /\ same_sets_under p l l'.
Proof. intros HE HE' Hf Hr Hno. eapply relabel_blocking; eauto. Qed.

(** a repeated validator: the same network with the two nodes exchanged *)
Definition exchange (x : nat) : nat := match x with 0 => 1 | 1 => 0 | _ => x end.
Definition twice_exchanged := let q := QS 2 [0;0;1] [] in sample [q;q].
Lemma twice_relabelling : relabelling exchange twice_fbas twice_exchanged.
Proof.
  split; [reflexivity|]. split; [|split].
  - intros [|[|x]]; cbn; intros; lia.
  - intros [|[|x]] [|[|y]]; cbn; intros; try lia; try discriminate.
  - intros x q (n & Hn & <-). destruct x as [|[|x]]; vm_compute in Hn; try (destruct x; discriminate); inversion Hn; subst n; clear Hn;
      (eexists; split; [vm_compute; reflexivity|reflexivity]).
Qed.
Lemma relabel_repetition : exists p f g l l', wf_fbas f /\ relabelling p f g /\
  find_minimal_blocking_sets std_ext f = Ok l /\ find_minimal_blocking_sets std_ext g = Ok l' /\ ~ same_sets_under p l l'.
Proof.
  exists exchange, twice_fbas, twice_exchanged, [of_list [1]; of_list [0;1]; of_list [0;1]], [of_list [0]].
  split; [apply wfb_ok; vm_compute; reflexivity|]. split; [exact twice_relabelling|].
  split; [vm_compute; reflexivity|]. split; [vm_compute; reflexivity|].
  intro H. assert (Hin : In (image exchange (of_list [0;1])) [of_list [0]]).
  { apply H. exists (of_list [0;1]). split; [right; left; reflexivity|reflexivity]. }
  destruct Hin as [Hin|[]]. vm_compute in Hin. discriminate.
Qed.

(** an inner set that can never be satisfied: the same network with the validators of one node listed in another order *)
Definition listed := let q := QS 1 [0;2] [QS 2 [1] []] in sample [q;q;q].
Definition listed' := let q := QS 1 [0;2] [QS 2 [1] []] in sample [q;q;QS 1 [2;0] [QS 2 [1] []]].
Lemma listed_renumbering : renumbering (fun x => x) listed listed'.
Proof.
  split; [reflexivity|]. split; [auto|]. split; [auto|].
  intros x q (n & Hn & <-). destruct x as [|[|[|x]]]; vm_compute in Hn; try (destruct x; discriminate); inversion Hn; subst n; clear Hn; cbn [node_qset].
  - exists (QS 1 [0;2] [QS 2 [1] []]). split; [eexists; split; [vm_compute; reflexivity|reflexivity]|].
    apply renamed_intro with (is1 := [QS 2 [1] []]); auto. repeat constructor. apply renamed_intro with (is1 := []); auto.
  - exists (QS 1 [0;2] [QS 2 [1] []]). split; [eexists; split; [vm_compute; reflexivity|reflexivity]|].
    apply renamed_intro with (is1 := [QS 2 [1] []]); auto. repeat constructor. apply renamed_intro with (is1 := []); auto.
  - exists (QS 1 [2;0] [QS 2 [1] []]). split; [eexists; split; [vm_compute; reflexivity|reflexivity]|].
    apply renamed_intro with (is1 := [QS 2 [1] []]); auto; [apply perm_swap|]. repeat constructor. apply renamed_intro with (is1 := []); auto.
Qed.
Lemma listing_order : exists f g l', wf_fbas f /\ (forall x q, node_of f x q -> no_repetitions q) /\ renumbering (fun x => x) f g /\
  find_minimal_blocking_sets std_ext f = Ok [] /\ find_minimal_blocking_sets std_ext g = Ok [l'].
Proof.
  exists listed, listed', (of_list [0;2]). split; [apply wfb_ok; vm_compute; reflexivity|]. split; [|split; [exact listed_renumbering|]].
  - intros x q (n & Hn & <-). apply no_repetitions_nodup, contains_duplicates_false.
    destruct x as [|[|[|x]]]; vm_compute in Hn; try (destruct x; discriminate); inversion Hn; vm_compute; reflexivity.
  - split; vm_compute; reflexivity.
Qed.

(** two clusters, and the same with the nodes of one rotated *)
Definition rotate (x : nat) : nat := match x with 0 => 1 | 1 => 2 | 2 => 0 | _ => x end.
Definition rotated := let q := QS 2 [1;2;0] [] in sample [q;q;q;QS 1 [3;1] []].
Definition unrotated := let q := QS 2 [0;1;2] [] in sample [q;q;q;QS 1 [3;0] []].
Lemma rotated_relabelling : relabelling rotate unrotated rotated.
Proof.
  split; [reflexivity|]. split; [|split].
  - intros [|[|[|[|x]]]]; cbn; intros; lia.
  - intros [|[|[|[|x]]]] [|[|[|[|y]]]]; cbn; intros; try lia; try discriminate.
  - intros x q (n & Hn & <-). destruct x as [|[|[|[|x]]]]; vm_compute in Hn; try (destruct x; discriminate); inversion Hn; subst n; clear Hn;
      (eexists; split; [vm_compute; reflexivity|reflexivity]).
Qed.
