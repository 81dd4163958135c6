(** Theorems on the order of result lists and on renumbering, for blocking and splitting sets. *)
From Verif Require Import P_ThRelabel.
Local Open Scope list_scope.

(** C13: the documented order always ... *)
Theorem C13_minimal_blocking_sets_order : forall (E : ext) (f : fbas), ext_ok E -> wf_fbas f ->
  exists l, find_minimal_blocking_sets E f = Ok l /\ StronglySorted (fun a b => before a b \/ a = b) l.
Proof. exact (fun E f HE Hf => blocking_sets_weak_order E HE f Hf). Qed.
Print Assumptions C13_minimal_blocking_sets_order.

(** ... and no set twice, none inside another, unless a validator is listed twice *)
Theorem C13_minimal_blocking_sets_partial : forall (E : ext) (f : fbas), ext_ok E -> wf_fbas f ->
  (forall q, satisfiable_cluster f q -> no_repetitions q) ->
  exists l, find_minimal_blocking_sets E f = Ok l /\ StronglySorted before l /\
    (forall a b, In a l -> In b l -> incl_set a b -> a = b).
Proof. exact (fun E f HE Hf => blocking_sets_order E HE f Hf). Qed.
Print Assumptions C13_minimal_blocking_sets_partial.

Theorem C13_blocking_duplicates_refuted : exists f, wf_fbas f /\
  exists a b, find_minimal_blocking_sets std_ext f = Ok [a; b; b] /\ incl_set a b /\ a <> b.
Proof. exact blocking_not_antichain. Qed.
Print Assumptions C13_blocking_duplicates_refuted.

(** for every FBAS, whatever list of minimal quorums is given *)
Theorem C13_minimal_splitting_sets : forall (E : ext) (f : fbas) (mq : list bset), ext_ok E -> wf_fbas f ->
  exists l, find_minimal_splitting_sets E f mq = Ok l /\ StronglySorted before l /\
    (forall a b, In a l -> In b l -> incl_set a b -> a = b).
Proof. exact (fun E f mq HE Hf => splitting_sets_order E HE f Hf mq). Qed.
Print Assumptions C13_minimal_splitting_sets.

Example C13_lists_example : wf_fbas unrotated /\ (forall q, satisfiable_cluster unrotated q -> no_repetitions q) /\
  show (find_minimal_blocking_sets std_ext unrotated) = Ok [[0;1;3];[0;2;3];[1;2;3]] /\
  show (find_minimal_splitting_sets std_ext unrotated [of_list [3]; of_list [0;1]; of_list [0;2]; of_list [1;2]]) = Ok [[0];[1];[2]].
Proof.
  split; [apply wfb_ok; vm_compute; reflexivity|]. split; [|split; vm_compute; reflexivity].
  intros q H. eapply good_clusters; [|exact H]. apply goodb_ok. vm_compute. reflexivity.
Qed.

(** C53: FBASs that differ only in their node ids *)
Theorem C53_relabelled_splitting_sets : forall (E E' : ext) (p : nat -> nat) (f g : fbas) (mq mq' : list bset),
  ext_ok E -> ext_ok E' -> wf_fbas f -> relabelling p f g ->
  find_minimal_quorums E f = Ok mq -> find_minimal_quorums E' g = Ok mq' ->
  exists l l', find_minimal_splitting_sets E f mq = Ok l /\ find_minimal_splitting_sets E' g mq' = Ok l' /\ same_sets_under p l l'.
Proof. exact relabel_splitting_thm. Qed.
Print Assumptions C53_relabelled_splitting_sets.

(** missing: quorum sets of clusters that list a validator twice, for which it is false *)
Theorem C53_relabelled_blocking_sets_partial : forall (E E' : ext) (p : nat -> nat) (f g : fbas),
  ext_ok E -> ext_ok E' -> wf_fbas f -> relabelling p f g ->
  (forall q, satisfiable_cluster f q -> no_repetitions q) ->
  exists l l', find_minimal_blocking_sets E f = Ok l /\ find_minimal_blocking_sets E' g = Ok l' /\ same_sets_under p l l'.
Proof. exact relabel_blocking_thm. Qed.
Print Assumptions C53_relabelled_blocking_sets_partial.

Theorem C53_repetition_refuted : exists p f g l l', wf_fbas f /\ relabelling p f g /\
  find_minimal_blocking_sets std_ext f = Ok l /\ find_minimal_blocking_sets std_ext g = Ok l' /\ ~ same_sets_under p l l'.
Proof. exact relabel_repetition. Qed.
Print Assumptions C53_repetition_refuted.

(** the order in which validators are listed matters if a threshold cannot be met *)
Theorem C53_listing_order_refuted : exists f g l', wf_fbas f /\ (forall x q, node_of f x q -> no_repetitions q) /\
  renumbering (fun x => x) f g /\
  find_minimal_blocking_sets std_ext f = Ok [] /\ find_minimal_blocking_sets std_ext g = Ok [l'].
Proof. exact listing_order. Qed.
Print Assumptions C53_listing_order_refuted.

Example C53_relabelled_example : wf_fbas unrotated /\ relabelling rotate unrotated rotated /\
  (forall q, satisfiable_cluster unrotated q -> no_repetitions q) /\
  show (find_minimal_quorums std_ext unrotated) = Ok [[3];[0;1];[0;2];[1;2]] /\
  show (find_minimal_quorums std_ext rotated) = Ok [[3];[0;1];[0;2];[1;2]].
Proof.
  split; [apply wfb_ok; vm_compute; reflexivity|]. split; [exact rotated_relabelling|]. split; [|split; vm_compute; reflexivity].
  intros q H. eapply good_clusters; [|exact H]. apply goodb_ok. vm_compute. reflexivity.
Qed.
