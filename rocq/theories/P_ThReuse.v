(** Proofs for Th_Reuse: counterexamples and examples. *)
From Coq Require Import String.
From Verif Require Import P_Analysis P_Results P_ThAnalysis P_ThFloat P_ThGroupings P_StandardIter.
From Verif Require Export P_ReuseMain P_ReuseGroups P_ReuseFirst P_ReuseStats Examples.
Local Open Scope string_scope.
Local Open Scope list_scope.

Lemma equal_results E f g : fbas_eqb f g = true ->
  (forall cs, analyze E f cs = analyze E g cs) /\ to_standard_form E f = to_standard_form E g.
Proof. intro H. apply fbas_eqb_eq in H. split; [intro cs; now apply analyze_same|now apply standard_same]. Qed.

Lemma standard_sets E f s : ext_ok E -> wf_fbas f -> distinct_keys f -> to_standard_form E f = Ok s ->
  (has_a_quorum f <-> has_a_quorum s) /\
  (quorum_intersection f <-> quorum_intersection s) /\
  (forall pk, (exists x, in_top_tier f x /\ has_key f x pk) <-> (exists y, in_top_tier s y /\ has_key s y pk)) /\
  ((forall B, minimal_blocking f B -> exists B', minimal_blocking s B' /\ same_keys f B s B' /\ len B' = len B) /\
   (forall B', minimal_blocking s B' -> exists B, minimal_blocking f B /\ same_keys f B s B' /\ len B' = len B)) /\
  ((forall S, minimal_splitting f S -> exists S', minimal_splitting s S' /\ same_keys f S s S' /\ len S' = len S) /\
   (forall S', minimal_splitting s S' -> exists S, minimal_splitting f S /\ same_keys f S s S' /\ len S' = len S)).
Proof.
  intros HE Hwf Hd Hs. split; [now apply (standard_has_quorum E)|]. split; [now apply (standard_intersection E)|].
  split; [now apply (standard_top_tier E)|]. split; [now apply (standard_blocking E)|now apply (standard_splitting E)].
Qed.

(** distinct keys can be checked *)
Fixpoint distinctb_list (l : list string) : bool := match l with [] => true | a :: l' => negb (existsb (String.eqb a) l') && distinctb_list l' end.
Definition distinct_keysb (f : fbas) : bool := distinctb_list (map node_pk (nodes f)).
Lemma distinctb_list_ok l : distinctb_list l = true -> NoDup l.
Proof.
  induction l as [|a l IH]; cbn; [constructor|]. rewrite andb_true_iff, negb_true_iff. intros [H1 H2]. constructor; [|auto].
  intro Hi. apply not_true_iff_false in H1. apply H1. apply existsb_exists. exists a. split; [auto|apply String.eqb_refl].
Qed.
Lemma distinct_keysb_ok f : distinct_keysb f = true -> distinct_keys f.
Proof. apply distinctb_list_ok. Qed.

Definition standard_of (f : fbas) : fbas := match to_standard_form std_ext f with Ok s => s | Panic => fbas_new end.
Definition standard3 : fbas := standard_of nested3.

(** ** equal FBASs that find different nodes *)
Definition alice : fbas := fbas_from_raw [mk_raw_node "alice" (RQ 1 ["alice"] []) None None].
Lemma lookup_differs : exists f g pk, wf_fbas f /\ distinct_keys f /\ (exists sm, shrunken f (all_nodes f) = Ok (g, sm)) /\
  fbas_eqb f g = true /\ get_node_id f pk = Some 0 /\ get_node_id g pk = None.
Proof.
  exists alice. eexists. exists "alice". split; [apply wfb_ok; vm_compute; reflexivity|]. split; [apply distinct_keysb_ok; vm_compute; reflexivity|].
  split; [eexists; vm_compute; reflexivity|]. repeat split; vm_compute; reflexivity.
Qed.

(** ** no quorums *)
Definition stuck : fbas := sample [QS 2 [0;1] []; QS 3 [0;1] []].
Definition results_of (s : fbas) : custom_results := match do_analysis std_ext s with Ok r => r | Panic => mk_results (mk_vec_result [] None) (mk_vec_result [] None) bempty false end.
Lemma no_first : exists f s r, wf_fbas f /\ distinct_keys f /\ to_standard_form std_ext f = Ok s /\
  do_analysis std_ext s = Ok r /\ ~ has_a_quorum f /\ smallest_blocking (r_blocking r) s = Panic.
Proof.
  exists stuck, (standard_of stuck), (results_of (standard_of stuck)). split; [apply wfb_ok; vm_compute; reflexivity|].
  split; [apply distinct_keysb_ok; vm_compute; reflexivity|]. split; [vm_compute; reflexivity|]. split; [vm_compute; reflexivity|].
  split; [|vm_compute; reflexivity]. intros (Q & HQ). assert (E : contains_quorum (all_nodes stuck) stuck = false) by (vm_compute; reflexivity).
  rewrite contains_quorum_false in E. apply (E Q HQ). intros x Hx. apply mem_all_nodes. now apply (quorum_in_range stuck Q x HQ).
Qed.

(** ** a single minimal quorum *)
Definition pair_fbas : fbas := sample [QS 2 [0;1] []; QS 2 [0;1] []].
Lemma nothing_splits : exists f s r, wf_fbas f /\ distinct_keys f /\ to_standard_form std_ext f = Ok s /\
  sane_clusters s /\ splittable_clusters s /\ do_analysis std_ext s = Ok r /\
  more_evil_nodes (r_splitting r) [] = Ok (Some 0) /\ has_a_quorum f /\ ~ exists S, splitting f S.
Proof.
  assert (Hwf : wf_fbas pair_fbas) by (apply wfb_ok; vm_compute; reflexivity).
  assert (Hq : has_a_quorum pair_fbas) by (apply (has_quorum pair_fbas (of_list [0;1])); vm_compute; reflexivity).
  exists pair_fbas, (standard_of pair_fbas), (results_of (standard_of pair_fbas)). split; [auto|].
  split; [apply distinct_keysb_ok; vm_compute; reflexivity|]. split; [vm_compute; reflexivity|]. split; [apply saneCb_ok; vm_compute; reflexivity|].
  split; [apply splitCb_ok; vm_compute; reflexivity|]. split; [vm_compute; reflexivity|]. split; [vm_compute; reflexivity|]. split; [auto|].
  intros (S & HS). destruct (minimal_below (splitting pair_fbas) (fun S => splitting_dec pair_fbas S Hwf) S HS) as (M & _ & HM).
  destruct (mss_after std_ext pair_fbas [] std_ext_ok Hwf (Forall_nil _)) as (ans & r & l & Ea & Er & _ & Hl); auto.
  { apply splitCb_ok; vm_compute; reflexivity. }
  apply Hl in HM. assert (E : res_map (map (fun a => match a with AVec r => vr_unwrap r | _ => Ok [] end)) (analyze std_ext pair_fbas [MinimalSplittingSets]) = Ok [Ok []])
    by (vm_compute; reflexivity).
  cbn [app] in Ea. rewrite Ea in E. cbn [res_map bind] in E. injection E as E. rewrite map_app in E. cbn in E. rewrite Er in E.
  destruct ans as [|a ans]; cbn in E; [injection E as E; subst l; contradiction|]. destruct ans; discriminate.
Qed.

(** ** examples *)
Lemma reordered_example : wf_fbas cyc /\ distinct_keys cyc /\ renumbering cyc_p cyc cyc' /\
  (forall x pk, has_key cyc x pk -> has_key cyc' (cyc_p x) pk) /\ fbas_eqb cyc cyc' = false /\
  exists r cache, reuse std_ext [] cyc = Ok (r, cache).
Proof.
  split; [apply from_raw_wf|]. split; [exact cyc_distinct|]. split; [exact cyc_renumbering|]. split; [exact cyc_keys|].
  split; [vm_compute; reflexivity|]. eexists. eexists. vm_compute. reflexivity.
Qed.

Definition two_orgs : list raw_grouping := [mk_raw_grouping "A" ["n0"; "n1"; "n2"]; mk_raw_grouping "B" ["n3"; "n4"; "n5"; "unknown"]].
Lemma two_orgs_disjoint : disjoint_lists two_orgs.
Proof.
  intros [|[|[|i]]] [|[|[|j]]] gi gj pk; cbn; intros; try discriminate; auto;
  repeat match goal with H : Some _ = Some _ |- _ => inversion H; clear H; subst end;
  exfalso; cbn in *; intuition (subst; discriminate).
Qed.
Definition some_orgs : list grouping := [mk_grouping "a" [1;0]; mk_grouping "b" [3;2]].
Lemma stats_example : exists r l, analyze std_ext mixed [MinimalQuorums] = Ok [AVec r] /\ ascending_table r /\ vr_unwrap r = Ok l /\
  map elements l = [[0;1];[2;3]] /\ vr_len r = 2 /\
  groups_of nested some_orgs /\ disjoint_groups some_orgs /\
  exists G f' sm G', groupings_new some_orgs nested = Ok G /\ incl_set (of_list [1;2;3;6]) (all_nodes nested) /\
  shrunken nested (of_list [1;2;3;6]) = Ok (f', sm) /\ groupings_shrunken G sm f' = Ok G' /\
  map g_validators (g_groupings G') = [[0]; [1;2]].
Proof.
  destruct (analyze std_ext mixed [MinimalQuorums]) as [ans|] eqn:Ea; [|vm_compute in Ea; discriminate].
  pose proof Ea as Ea'. vm_compute in Ea'. injection Ea' as <-. eexists. eexists. split; [reflexivity|].
  split; [apply (describe_analysis std_ext mixed [MinimalQuorums] _ _ Ea); now left|]. split; [vm_compute; reflexivity|].
  split; [vm_compute; reflexivity|]. split; [reflexivity|]. split; [intros g x [<-|[<-|[]]] [<-|[<-|[]]]; vm_compute; lia|]. split.
  - clear Ea. intros [|[|[|i]]] [|[|[|j]]] gi gj x; cbn; intros; try discriminate; auto;
    repeat match goal with H : Some _ = Some _ |- _ => inversion H; clear H; subst end;
    exfalso; unfold member in *; cbn in *; lia.
  - do 4 eexists. split; [vm_compute; reflexivity|]. split; [|split; [vm_compute; reflexivity|split; vm_compute; reflexivity]].
    intros x Hx. rewrite mem_of_list in Hx. destruct Hx as [<-|[<-|[<-|[<-|[]]]]]; vm_compute; reflexivity.
Qed.
