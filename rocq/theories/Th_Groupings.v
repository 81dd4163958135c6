(** Theorems about groupings and about results merged by group or shown by name. *)
From Verif Require Import P_ThGroupings.
Local Open Scope string_scope.
Local Open Scope list_scope.

(** two organizations of two nodes each, and a node that belongs to none *)
Definition ab : list grouping := [mk_grouping "a" [1;0]; mk_grouping "b" [2;3]].
Lemma ab_groups_of : groups_of nested ab.
Proof. intros g x [<-|[<-|[]]] [<-|[<-|[]]]; vm_compute; lia. Qed.
Lemma ab_disjoint : disjoint_groups ab.
Proof.
  intros [|[|[|i]]] [|[|[|j]]] gi gj x; cbn; intros; try discriminate; auto;
  repeat match goal with H : Some _ = Some _ |- _ => inversion H; clear H; subst end;
  exfalso; unfold member in *; cbn in *; lia.
Qed.

(** C27 *)
Theorem C27_consistent : forall (f : fbas) (gs : list grouping), groups_of f gs -> disjoint_groups gs ->
  exists G, groupings_new gs f = Ok G /\
  g_groupings G = gs /\
  (forall x, merge_node G x = Panic <-> number_of_nodes f <= x) /\
  (forall x r, x < number_of_nodes f -> (merge_node G x = Ok r <-> represents gs r x)) /\
  (forall x y, x < number_of_nodes f -> y < number_of_nodes f -> (merge_node G x = merge_node G y <-> x = y \/ same_group gs x y)) /\
  (forall x r, merge_node G x = Ok r -> merge_node G r = Ok r) /\
  (forall x g, get_by_member G x = Ok (Some g) <-> In g gs /\ member x g) /\
  (forall x, get_by_member G x = Ok None <-> forall g, In g gs -> ~ member x g).
Proof. exact groupings_consistent. Qed.
Print Assumptions C27_consistent.

Theorem C27_get_by_name : forall (gs : list grouping) (f : fbas) (G : groupings) (name : string), groupings_new gs f = Ok G ->
  match get_by_name G name with
  | Some g => g_name g = name /\ exists pre post, gs = pre ++ g :: post /\ forall g', In g' pre -> g_name g' <> name
  | None => forall g, In g gs -> g_name g <> name
  end.
Proof. exact get_by_name_spec. Qed.
Print Assumptions C27_get_by_name.

Theorem C27_panic : forall (gs : list grouping) (f : fbas), groupings_new gs f = Panic <->
  exists g r rest v, In g gs /\ g_validators g = r :: rest /\ In v rest /\ number_of_nodes f <= v.
Proof. exact groupings_new_panic. Qed.
Print Assumptions C27_panic.

(** Without disjointness merging is not idempotent. *)
Theorem C27_overlapping_refuted : exists gs f G, groupings_new gs f = Ok G /\ groups_of f gs /\
  merge_node G 0 = Ok 1 /\ merge_node G 1 = Ok 0.
Proof. exact (ex_intro _ overlap overlapping_groups). Qed.
Print Assumptions C27_overlapping_refuted.

Example C27_example : groups_of nested ab /\ disjoint_groups ab /\
  exists G, groupings_new ab nested = Ok G /\ map (merge_node G) [0;1;2;3;4] = map (@Ok nat) [1;1;2;2;4] /\
    get_by_name G "b" = Some (mk_grouping "b" [2;3]) /\ groupings_new [mk_grouping "c" [0;7]] nested = Panic.
Proof. split; [exact ab_groups_of|]. split; [exact ab_disjoint|]. eexists. split; vm_compute; auto. Qed.

(** C26: the group-level question. The merging itself is exact for every property that is inherited
    by supersets, of any result that lists the minimal sets. *)
Theorem C26_merged_exact : forall (f : fbas) (gs : list grouping), groups_of f gs -> disjoint_groups gs ->
  forall (P : bset -> Prop) (r : vec_result) (l : list bset),
  (forall a b, incl_set a b -> P a -> P b) -> (forall S, P S \/ ~ P S) ->
  vr_unwrap r = Ok l -> (forall S, In S l <-> minimal P S) -> (forall s x, In s l -> mem x s = true -> x < number_of_nodes f) ->
  exists G r' l', groupings_new gs f = Ok G /\ vr_merged_by_group r G = Ok r' /\ vr_unwrap (vr_minimal_sets r') = Ok l' /\
    StronglySorted before l' /\ forall R, In R l' <-> minimal (by_groups f gs P) R.
Proof. exact merged_result_minimal. Qed.
Print Assumptions C26_merged_exact.

Theorem C26_minimal_quorums : forall (E : ext) (f : fbas) (gs : list grouping) (cs : list call), ext_ok E -> wf_fbas f ->
  Forall (allowed f) cs -> groups_of f gs -> disjoint_groups gs ->
  exists ans r G r' l, analyze E f (cs ++ [MinimalQuorums]) = Ok (ans ++ [AVec r]) /\ groupings_new gs f = Ok G /\
    vr_merged_by_group r G = Ok r' /\ vr_unwrap (vr_minimal_sets r') = Ok l /\
    StronglySorted before l /\ forall R, In R l <-> minimal (by_groups f gs (includes_quorum f)) R.
Proof. exact quorums_merged. Qed.
Print Assumptions C26_minimal_quorums.

Theorem C26_merge_minimal_node_sets : forall (f : fbas) (gs : list grouping), groups_of f gs -> disjoint_groups gs ->
  forall (P : bset -> Prop) (l : list bset),
  (forall a b, incl_set a b -> P a -> P b) -> (forall S, P S \/ ~ P S) ->
  (forall S, In S l <-> minimal P S) -> (forall s x, In s l -> mem x s = true -> x < number_of_nodes f) ->
  exists G l', groupings_new gs f = Ok G /\ merge_minimal_node_sets G l = Ok l' /\
    StronglySorted before l' /\ forall R, In R l' <-> minimal (by_groups f gs P) R.
Proof. exact merge_minimal. Qed.
Print Assumptions C26_merge_minimal_node_sets.

(** For blocking and splitting sets the conditions of C17 and C18 are needed. *)
Theorem C26_minimal_blocking_sets_partial : forall (E : ext) (f : fbas) (gs : list grouping) (cs : list call), ext_ok E -> wf_fbas f ->
  Forall (allowed f) cs -> groups_of f gs -> disjoint_groups gs -> sane_clusters f -> has_a_quorum f ->
  exists ans r G r' l, analyze E f (cs ++ [MinimalBlockingSets]) = Ok (ans ++ [AVec r]) /\ groupings_new gs f = Ok G /\
    vr_merged_by_group r G = Ok r' /\ vr_unwrap (vr_minimal_sets r') = Ok l /\
    StronglySorted before l /\ forall R, In R l <-> minimal (by_groups f gs (blocking f)) R.
Proof. exact blocking_merged. Qed.
Print Assumptions C26_minimal_blocking_sets_partial.

Theorem C26_minimal_splitting_sets_partial : forall (E : ext) (f : fbas) (gs : list grouping) (cs : list call), ext_ok E -> wf_fbas f ->
  Forall (allowed f) cs -> groups_of f gs -> disjoint_groups gs -> splittable_clusters f -> has_a_quorum f ->
  exists ans r G r' l, analyze E f (cs ++ [MinimalSplittingSets]) = Ok (ans ++ [AVec r]) /\ groupings_new gs f = Ok G /\
    vr_merged_by_group r G = Ok r' /\ vr_unwrap (vr_minimal_sets r') = Ok l /\
    StronglySorted before l /\ forall R, In R l <-> minimal (by_groups f gs (splitting f)) R.
Proof. exact splitting_merged. Qed.
Print Assumptions C26_minimal_splitting_sets_partial.

(** merged and minimal sets as lists of ids *)
Definition merged_ids (ans : res (list answer)) (gs : list grouping) (f : fbas) : res (list (list nat)) :=
  match ans with
  | Ok [AVec r] => G <- groupings_new gs f ;; r' <- vr_merged_by_group r G ;; vr_into_vec_vec (vr_minimal_sets r')
  | _ => Panic
  end.
Example C26_example : wf_fbas nested /\ groups_of nested ab /\ disjoint_groups ab /\ sane_clusters nested /\ has_a_quorum nested /\
  merged_ids (analyze std_ext nested [MinimalQuorums]) ab nested = Ok [[1;2];[1;4];[1;5];[1;6];[2;4];[2;5];[2;6];[4;6];[5;6]] /\
  merged_ids (analyze std_ext nested [MinimalBlockingSets]) ab nested = Ok [[1;2;6];[1;2;4;5];[1;4;5;6];[2;4;5;6]].
Proof.
  split; [apply wfb_ok; vm_compute; reflexivity|]. split; [exact ab_groups_of|]. split; [exact ab_disjoint|].
  split; [apply saneCb_ok; vm_compute; reflexivity|]. split; [apply (has_quorum nested (of_list [0;2])); vm_compute; reflexivity|].
  split; vm_compute; reflexivity.
Qed.

(** C30: [merged_by_group] replaces original ids *)
Theorem C30_merged_by_group : forall (f : fbas) (gs : list grouping), groups_of f gs -> disjoint_groups gs ->
  forall (G : groupings) (r : vec_result) (l : list bset), groupings_new gs f = Ok G -> vr_unwrap r = Ok l ->
  (forall s x, In s l -> mem x s = true -> x < number_of_nodes f) ->
  exists r' l', vr_merged_by_group r G = Ok r' /\ vr_unwrap r' = Ok l' /\ Forall2 (group_image gs) l l'.
Proof. exact merged_result. Qed.
Print Assumptions C30_merged_by_group.

(** C25: nodes to ignore, given by name *)
Theorem C25_without_nodes_by_name : forall (f : fbas) (gs : list grouping) (r : vec_result) (l : list bset) (names : list string),
  keys_ok f -> vr_unwrap r = Ok l ->
  (exists r' l', vr_without_nodes_pretty r names f None = Ok r' /\ vr_unwrap r' = Ok l' /\
     Forall2 (fun s s' => forall x, mem x s' = true <-> mem x s = true /\ ~ exists name, In name names /\ meant_by f [] name x) l l') /\
  (forall G, groupings_new gs f = Ok G ->
   exists r' l', vr_without_nodes_pretty r names f (Some G) = Ok r' /\ vr_unwrap r' = Ok l' /\
     Forall2 (fun s s' => forall x, mem x s' = true <-> mem x s = true /\ ~ exists name, In name names /\ meant_by f gs name x) l l').
Proof. exact without_nodes_by_name. Qed.
Print Assumptions C25_without_nodes_by_name.

Example C25_names_example : exists G, groupings_new ab nested = Ok G /\ ids_of_names ["a"; "n4"; "nobody"] nested (Some G) = [1;0;4] /\
  ids_of_names ["a"; "n4"; "n2"] nested None = [4;2].
Proof. eexists. split; vm_compute; auto. Qed.

(** C28: satisfaction is preserved unless an inner quorum set is reduced to a single validator and
    loses its own inner sets. *)
Theorem C28_merge_preserves_partial : forall (f : fbas) (gs : list grouping) (q : qset) (S : bset),
  groups_of f gs -> disjoint_groups gs -> ids_known f q ->
  separable gs q -> (forall x, mem x S = true -> x < number_of_nodes f) ->
  slice (fun x => mem x S = true) q ->
  exists G q' R, groupings_new gs f = Ok G /\ merge_quorum_set G q = Ok q' /\ merge_node_set G S = Ok R /\
    group_image gs S R /\ slice (fun x => mem x R = true) q'.
Proof. exact merge_preserves_slices. Qed.
Print Assumptions C28_merge_preserves_partial.

Theorem C28_two_level : forall (gs : list grouping) (q : qset), two_level q -> separable gs q.
Proof. exact two_level_separable. Qed.
Print Assumptions C28_two_level.

Theorem C28_nested_set_lost_refuted : exists f q S G q' R, ids_known f q /\ groupings_new [] f = Ok G /\ merge_quorum_set G q = Ok q' /\
  merge_node_set G S = Ok R /\ slice (fun x => mem x S = true) q /\ ~ slice (fun x => mem x R = true) q'.
Proof. destruct merge_loses as (f & G & q' & R & H). exact (ex_intro _ f (ex_intro _ deep (ex_intro _ (of_list [1]) (ex_intro _ G (ex_intro _ q' (ex_intro _ R H)))))). Qed.
Print Assumptions C28_nested_set_lost_refuted.

Example C28_example : separable ab orgs /\ slice (fun x => mem x (of_list [0;6]) = true) orgs /\
  exists G, groupings_new ab nested = Ok G /\ merge_quorum_set G orgs = Ok (QS 2 [6;1;2] [QS 1 [4;5] []]).
Proof.
  split; [|split].
  - apply two_level_separable. intros i [<-|[<-|[<-|[]]]]; constructor.
  - apply is_quorum_slice_iff. vm_compute. reflexivity.
  - eexists. split; vm_compute; reflexivity.
Qed.

(** C31: names *)
Theorem C31_public_keys : forall (f : fbas) (r : vec_result) (l : list bset), vr_unwrap r = Ok l ->
  (forall s x, In s l -> mem x s = true -> x < number_of_nodes f) ->
  exists ll, vr_into_pretty_vec_vec r f None = Ok ll /\ Forall2 (shown_list f []) l ll.
Proof. exact pretty_by_key. Qed.
Print Assumptions C31_public_keys.

Theorem C31_group_names : forall (f : fbas) (gs : list grouping) (r : vec_result) (l : list bset), groups_of f gs -> disjoint_groups gs ->
  vr_unwrap r = Ok l -> (forall s x, In s l -> mem x s = true -> x < number_of_nodes f) ->
  exists G ll, groupings_new gs f = Ok G /\ vr_into_pretty_vec_vec r f (Some G) = Ok ll /\ Forall2 (shown_list f gs) l ll.
Proof. exact pretty_by_group. Qed.
Print Assumptions C31_group_names.

Theorem C31_quorum_set_public_keys : forall (f : fbas) (q : qset), ids_known f q ->
  exists p, into_pretty_quorum_set q f None = Ok p /\ shown_qset f [] q p.
Proof. exact pretty_qset_by_key. Qed.
Print Assumptions C31_quorum_set_public_keys.

(** with groups, the merged quorum set is shown *)
Theorem C31_quorum_set_group_names : forall (f : fbas) (gs : list grouping) (q : qset), groups_of f gs -> disjoint_groups gs -> ids_known f q ->
  exists G q' p, groupings_new gs f = Ok G /\ merge_quorum_set G q = Ok q' /\
    into_pretty_quorum_set q f (Some G) = Ok p /\ shown_qset f gs q' p.
Proof. exact pretty_qset_by_group. Qed.
Print Assumptions C31_quorum_set_group_names.

Example C31_example : exists G, groupings_new ab nested = Ok G /\
  vr_into_pretty_vec_vec (mk_vec_result [of_list [0;1]; of_list [2]] (Some [1;3;6])) nested (Some G) = Ok [["a";"b"];["n6"]] /\
  vr_into_pretty_vec_vec (mk_vec_result [of_list [0;1]; of_list [2]] (Some [1;3;6])) nested None = Ok [["n1";"n3"];["n6"]] /\
  into_pretty_quorum_set orgs nested (Some G) = Ok (PQS 2 ["n6";"a";"b"] [PQS 1 ["n4";"n5"] []]).
Proof. eexists. split; vm_compute; auto. Qed.
