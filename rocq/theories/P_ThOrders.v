(** Concrete cases for the theorems of Th_Orders. *)
From Verif Require Export P_Renumber.
Local Open Scope list_scope.

(** orders different from those of [std_ext]: everything the other way round *)
Definition rev_ext : ext := mk_ext (fun n s succ => rev (std_scc n s succ)) (fun _ l => rev l).

Lemma concat_perm {A} (l l' : list (list A)) : Permutation l l' -> Permutation (concat l) (concat l').
Proof.
  induction 1; simpl; auto.
  - apply Permutation_app_head; auto.
  - rewrite !app_assoc. apply Permutation_app_tail, Permutation_app_comm.
  - etransitivity; eauto.
Qed.

Lemma rev_ext_ok : ext_ok rev_ext.
Proof.
  destruct std_ext_ok as [H _]. split.
  - intros n start succ Hs Hsucc. cbn [scc rev_ext]. destruct (H n start succ) as [A B C D N]; auto.
    cbn [scc std_ext] in A, B, C, D, N. constructor.
    + intros x Hx. destruct (A x) as (c & Hc & Hxc); auto. exists c. split; auto. apply in_rev in Hc; auto.
    + intros c x y Hc. apply B. apply in_rev; auto.
    + intros c Hc. apply C. apply in_rev; auto.
    + intros c x Hc Hx. apply in_rev in Hc. apply (D c x Hc Hx).
    + eapply Permutation_NoDup; [|exact N]. apply concat_perm, Permutation_rev.
  - intros f l _ _ _. cbn. symmetry. apply Permutation_rev.
Qed.

(** [flat] with ids shifted by one *)
Definition shift (x : nat) : nat := if x =? 3 then 0 else x + 1.
Definition flat_shifted := sample [QS 2 [1;0] []; QS 2 [1;2;3] []; QS 2 [3;1;2] []; QS 2 [1;2;3] []].
Lemma flat_renumbering : renumbering shift flat flat_shifted.
Proof.
  split; [reflexivity|]. split; [|split].
  - intros [|[|[|[|x]]]]; cbn; intros; lia.
  - intros [|[|[|[|x]]]] [|[|[|[|y]]]]; cbn; intros; try lia; try discriminate.
  - intros x q (n & Hn & <-).
    destruct x as [|[|[|[|x]]]]; vm_compute in Hn; try (destruct x; discriminate); inversion Hn; subst n; clear Hn.
    + exists (QS 2 [1;2;3] []). split; [eexists; split; [vm_compute; reflexivity|reflexivity]|]. cbn. apply renamed_intro with (is1 := []); auto.
    + exists (QS 2 [3;1;2] []). split; [eexists; split; [vm_compute; reflexivity|reflexivity]|]. cbn. apply renamed_intro with (is1 := []); auto.
      vm_compute. apply Permutation_sym. apply (Permutation_cons_app [1;2] [] 3). auto.
    + exists (QS 2 [1;2;3] []). split; [eexists; split; [vm_compute; reflexivity|reflexivity]|]. cbn. apply renamed_intro with (is1 := []); auto.
    + exists (QS 2 [1;0] []). split; [eexists; split; [vm_compute; reflexivity|reflexivity]|]. cbn. apply renamed_intro with (is1 := []); auto.
Qed.
