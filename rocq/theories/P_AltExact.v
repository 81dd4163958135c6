(** When the alternative check panics. *)
From Verif Require Export P_ThHistories.
Local Open Scope list_scope.

Section Alternative.
Variable E : ext. Hypothesis HE : ext_ok E.
Variable f : fbas. Hypothesis Hwf : wf_fbas f.

Lemma no_quorum_panics g : wf_fbas g -> (forall Q, ~ quorum g Q) -> find_nonintersecting_quorums E g = Panic.
Proof.
  intros Hg Hn. unfold find_nonintersecting_quorums, find_sets. rewrite (proj2 (clusters_none E HE g Hg) Hn).
  unfold nonintersecting_quorums_finder. cbn [List.length Nat.ltb Nat.leb].
  assert (Er : rank_sort E g (elements bempty) = []).
  { assert (P : Permutation (rank_sort E g (elements bempty)) (elements bempty)) by (apply rank_sort_perm; auto; intros x Hx; rewrite mem_empty in Hx; discriminate). assert (En : elements bempty = []) by (vm_compute; reflexivity). rewrite En in *.
    first [apply Permutation_nil, P | apply Permutation_nil; symmetry; apply P]. }
  rewrite Er. cbn [List.length].
  assert (Hb : is_quorum g bempty = false).
  { apply is_quorum_false, Hn. }
  assert (En : of_list [] = bempty) by reflexivity. rewrite En. cbn [nonintersecting_step]. rewrite Hb. cbn. rewrite Hb. reflexivity.
Qed.

Lemma shrunken_no_quorum K : (forall Q, ~ quorum f Q) -> forall Q, ~ quorum (shrunken_fbas K f) Q.
Proof. intros H Q HQ. assert (Hr := shrunken_quorum_range K f Q HQ). apply (shrunken_quorum K f Q Hr) in HQ. exact (H _ HQ). Qed.

Lemma check_panics cs : (forall Q, ~ quorum f Q) -> forall a K, winv f a K -> In AlternativeCheck cs -> perform_all E a cs = Panic.
Proof.
  intros Hn. induction cs as [|c cs IH]; intros a K Hi Hin; [destruct Hin|]. cbn [perform_all].
  assert (Hc : c = AlternativeCheck \/ c <> AlternativeCheck) by (destruct c; auto; right; discriminate).
  destruct Hc as [->|Hc].
  - cbn [perform]. unfold alternative_check. rewrite (w_sh f a K Hi), (no_quorum_panics _ (shrunken_wf K f) (shrunken_no_quorum K Hn)). reflexivity.
  - destruct Hin as [->|Hin]; [congruence|]. destruct (w_perform E HE f Hwf a K c Hi Hc) as (x & a1 & K1 & E1 & I1).
    rewrite E1. cbn [bind snd]. rewrite (IH a1 K1 I1 Hin). reflexivity.
Qed.

Lemma check_without_quorum cs : ~ has_a_quorum f -> In AlternativeCheck cs -> analyze E f cs = Panic.
Proof.
  intros Hn Hin. unfold analyze. destruct (inv_new E HE f Hwf) as (a & Ea & Hi). rewrite Ea. cbn [bind].
  assert (Hw : winv f a (relevant_nodes E f)).
  { destruct Hi as [I1 I2 I3 I4 I5 I6 I7 I8 I9 I10]. constructor; auto.
    - intros l H. apply (I8 l H).
    - intros l H. apply (I9 l H).
    - intros l H. apply (I10 l H). }
  rewrite (check_panics cs (fun Q HQ => Hn (ex_intro _ Q HQ)) a _ Hw Hin). reflexivity.
Qed.

Lemma check_panics_exactly cs :
  (forall earlier later, cs = earlier ++ MinimalBlockingSets :: later -> (exists c, In c earlier /\ needs_quorums c) \/ sane_clusters f) ->
  (analyze E f cs = Panic <-> In AlternativeCheck cs /\ ~ has_a_quorum f).
Proof.
  intro Hb. split.
  - intro Ep. split.
    + destruct (in_dec (fun a b : call => ltac:(decide equality) : {a = b} + {a <> b}) AlternativeCheck cs) as [H|H]; auto. exfalso.
      destruct (analyze_no_panic E HE f Hwf cs H) as (ans & Ea). congruence.
    + intro Hq. destruct (harmless_allowed E HE f Hwf cs) as (ans & Ea & _); [split; auto|]. congruence.
  - intros [Hin Hn]. apply check_without_quorum; auto.
Qed.
End Alternative.

(** blocking sets asked for first *)
Lemma blocking_first_panics : exists f, wf_fbas f /\ quorum_intersection f /\ has_a_quorum f /\
  analyze std_ext f [AlternativeCheck] = Ok [AAlternative true None] /\ analyze std_ext f [MinimalBlockingSets; AlternativeCheck] = Panic.
Proof.
  exists hollow. split; [exact hollow_wf|]. split; [|split; [|split; vm_compute; reflexivity]].
  - destruct (last_answer std_ext hollow [] HasQuorumIntersection std_ext_ok hollow_wf (Forall_nil _) I) as (ans & a & Ea & b & -> & Hb).
    apply Hb. assert (Ev : analyze std_ext hollow [HasQuorumIntersection] = Ok [ABool true]) by (vm_compute; reflexivity).
    simpl app in Ea. rewrite Ev in Ea. destruct ans as [|a0 [|a1 ans]]; inversion Ea; auto.
  - apply (has_quorum hollow (of_list [0])); vm_compute; reflexivity.
Qed.
