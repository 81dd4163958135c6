(** Theorems about quorum sets, quorums and the searches for minimal sets. *)
From Verif Require Import P_ThCore.
Local Open Scope list_scope.

(** C01: satisfaction of quorum sets *)
Theorem C01_is_quorum_slice : forall (q : qset) (S : bset),
  is_quorum_slice q S = true <-> slice (fun x => mem x S = true) q.
Proof. exact is_quorum_slice_iff. Qed.
Print Assumptions C01_is_quorum_slice.

Theorem C01_monotone : forall (q : qset) (a b : bset),
  (forall x, mem x a = true -> mem x b = true) -> is_quorum_slice q a = true -> is_quorum_slice q b = true.
Proof. exact slice_monotone. Qed.
Print Assumptions C01_monotone.

Theorem C01_threshold_zero : forall q : qset,
  is_quorum_slice q bempty = false /\ forall vs is_ S, is_quorum_slice (QS 0 vs is_) S = false.
Proof. exact threshold_zero. Qed.
Print Assumptions C01_threshold_zero.

Example C01_example : is_quorum_slice orgs (of_list [1;6]) = true /\ is_quorum_slice orgs (of_list [0;1]) = false.
Proof. vm_compute. auto. Qed.

(** C02: quorums *)
Theorem C02_is_quorum : forall (f : fbas) (S : bset),
  (forall b, is_quorum_checked f S = Ok b -> (b = true <-> quorum f S)) /\
  (is_quorum_checked f S = Panic -> exists x, mem x S = true /\ number_of_nodes f <= x).
Proof. exact is_quorum_checked_spec. Qed.
Print Assumptions C02_is_quorum.

Theorem C02_no_panic : forall (f : fbas) (S : bset),
  (forall x, mem x S = true -> x < number_of_nodes f) -> is_quorum_checked f S = Ok (is_quorum f S).
Proof. exact is_quorum_checked_ok. Qed.
Print Assumptions C02_no_panic.

Theorem C02_union : forall (f : fbas) (a b : bset), quorum f a -> quorum f b -> quorum f (union a b).
Proof. exact quorum_union. Qed.
Print Assumptions C02_union.

Example C02_example : is_quorum_checked flat (of_list [0;2]) = Ok true /\ is_quorum_checked flat (of_list [0;3]) = Ok false /\
  is_quorum_checked flat (of_list [0;1;7]) = Panic.
Proof. vm_compute. auto. Qed.

(** C03: satisfiable nodes *)
Theorem C03_find_satisfiable_nodes : forall (f : fbas) (S : bset),
  (forall x, mem x (fst (find_satisfiable_nodes S f)) = true <-> exists Q, quorum f Q /\ incl_set Q S /\ mem x Q = true) /\
  (forall x, mem x (snd (find_satisfiable_nodes S f)) = true <->
     mem x S = true /\ ~ exists Q, quorum f Q /\ incl_set Q S /\ mem x Q = true) /\
  (inhabited_set (fst (find_satisfiable_nodes S f)) -> quorum f (fst (find_satisfiable_nodes S f))).
Proof. exact find_satisfiable_nodes_quorums. Qed.
Print Assumptions C03_find_satisfiable_nodes.

Example C03_example : elements (satisfiable_nodes mixed) = [0;1;2;3] /\ elements (unsatisfiable_nodes mixed) = [4].
Proof. vm_compute. auto. Qed.

(** C04: enumeration of slices *)
Theorem C04_to_quorum_slices_sound : forall (q : qset) (s : bset), In s (to_quorum_slices q) -> is_quorum_slice q s = true.
Proof. exact to_quorum_slices_sound. Qed.
Print Assumptions C04_to_quorum_slices_sound.

Theorem C04_to_quorum_slices_complete : forall (q : qset) (S : bset), is_quorum_slice q S = true ->
  exists s, In s (to_quorum_slices q) /\ incl_set s S.
Proof. exact to_quorum_slices_complete. Qed.
Print Assumptions C04_to_quorum_slices_complete.

Theorem C04_to_quorum_slices_exact : forall (q : qset), no_repetitions q ->
  NoDup (to_quorum_slices q) /\
  forall s, In s (to_quorum_slices q) <-> minimal (fun S => slice (fun x => mem x S = true) q) s.
Proof. exact to_quorum_slices_exact_minimal. Qed.
Print Assumptions C04_to_quorum_slices_exact.

Example C04_example : no_repetitions orgs /\ List.length (to_quorum_slices orgs) = 18.
Proof. split; [apply no_repetitions_nodup, contains_duplicates_false; vm_compute; reflexivity|vm_compute; reflexivity]. Qed.

(** C05: contained nodes *)
Theorem C05_contained_nodes : forall (q : qset) (x : nat), mem x (contained_nodes q) = true <-> mentions x q.
Proof. exact contained_nodes_spec. Qed.
Print Assumptions C05_contained_nodes.

Theorem C05_contains_duplicates : forall q : qset, contains_duplicates q = true <-> exists x, 2 <= times_mentioned x q.
Proof. exact contains_duplicates_spec. Qed.
Print Assumptions C05_contains_duplicates.

Theorem C05_satisfaction_local : forall (q : qset) (a b : bset),
  (forall x, mentions x q -> mem x a = mem x b) -> is_quorum_slice q a = is_quorum_slice q b.
Proof. exact is_quorum_slice_local. Qed.
Print Assumptions C05_satisfaction_local.

Example C05_example : contains_duplicates (QS 1 [0] [QS 1 [1] [QS 1 [0] []]]) = true /\ contains_duplicates orgs = false.
Proof. vm_compute. auto. Qed.

(** C06: building *)
Theorem C06_keys : forall (l : list build_call) (f : fbas), build_all fbas_new l = Ok f -> keys_ok f.
Proof. exact (fun l f => build_all_keys_ok l fbas_new f keys_ok_new). Qed.
Print Assumptions C06_keys.

Theorem C06_add_node : forall (f : fbas) (n : node),
  match add_node f n with
  | Ok (f', i) => i = number_of_nodes f /\ nodes f' = nodes f ++ [n] /\ get_node_id f (node_pk n) = None /\
                  get_node_id f' (node_pk n) = Some i
  | Panic => get_node_id f (node_pk n) <> None
  end.
Proof. exact add_node_cases. Qed.
Print Assumptions C06_add_node.

Theorem C06_generic : forall l : list qset, exists f, build_all fbas_new (map B_add_generic_node l) = Ok f /\
  keys_ok f /\ generic_keys f /\ map node_qset (nodes f) = l.
Proof. exact (fun l => generic_build l fbas_new keys_ok_new generic_new). Qed.
Print Assumptions C06_generic.

Example C06_example : exists f, build_all fbas_new
    [B_add_node (mk_node "x"%string orgs); B_add_generic_node orgs; B_swap_quorum_set 0 (QS 1 [1] [])] = Ok f /\
    get_node_id f "n1"%string = Some 1 /\
    build f (B_add_node (mk_node "x"%string orgs)) = Panic.
Proof. eexists. vm_compute. auto. Qed.

(** C07: swapping *)
Theorem C07_swap : forall (f : fbas) (i : nat) (q : qset),
  match swap_quorum_set f i q with
  | Ok (f', q') => get_quorum_set f i = Some q' /\ get_quorum_set f' i = Some q /\
      (forall j, j <> i -> nth_error (nodes f') j = nth_error (nodes f) j) /\
      map node_pk (nodes f') = map node_pk (nodes f) /\ pk_to_id f' = pk_to_id f /\
      swap_quorum_set f' i q' = Ok (f, q)
  | Panic => number_of_nodes f <= i
  end.
Proof. exact swap_cases. Qed.
Print Assumptions C07_swap.

Example C07_example : exists f', swap_quorum_set flat 1 orgs = Ok (f', QS 2 [0;1;2] []).
Proof. eexists. vm_compute. reflexivity. Qed.

(** C10: strongly connected components *)
Theorem C10_components : forall (E : ext) (f : fbas), ext_ok E -> wf_fbas f ->
  let l := strongly_connected_components E f in
  ForallOrdPairs (fun a b => ~ meets a b) l /\ (forall c, In c l -> inhabited_set c) /\
  (forall x, (exists c, In c l /\ mem x c = true) <-> x < number_of_nodes f) /\
  (forall c x y, In c l -> mem x c = true ->
     (mem y c = true <-> y < number_of_nodes f /\ trusts_transitively f x y /\ trusts_transitively f y x)).
Proof. exact (fun E f HE Hwf => scc_partition E HE f Hwf). Qed.
Print Assumptions C10_components.

Example C10_example : ext_ok std_ext /\ wf_fbas mixed /\
  map elements (strongly_connected_components std_ext mixed) = [[0;1]; [2;3]; [4]].
Proof. split; [exact std_ext_ok|split; [exact mixed_wf|vm_compute; reflexivity]]. Qed.

(** C11: relevant nodes *)
Theorem C11_relevant_nodes : forall (E : ext) (f : fbas), ext_ok E -> wf_fbas f ->
  exists components : list bset,
  ForallOrdPairs (fun a b => ~ meets a b) components /\
  (forall x, mem x (relevant_nodes E f) = true <-> exists c, In c components /\ mem x c = true) /\
  (forall c, In c components -> exists Q, quorum f Q /\ incl_set Q c) /\
  (forall Q, minimal_quorum f Q -> exists c, In c components /\ incl_set Q c) /\
  (forall c x y, In c components -> mem x c = true -> mem y c = true -> trusts_transitively f x y) /\
  (forall x, mem x (relevant_nodes E f) = true -> exists Q, quorum f Q /\ mem x Q = true) /\
  ((exists Q, quorum f Q) <-> inhabited_set (relevant_nodes E f)).
Proof. exact (fun E f HE Hwf => relevant_nodes_spec E HE f Hwf). Qed.
Print Assumptions C11_relevant_nodes.

Example C11_example : wf_fbas flat /\ elements (relevant_nodes std_ext flat) = [0;1;2].
Proof. split; [exact flat_wf|vm_compute; reflexivity]. Qed.

(** C12: minimal quorums *)
Theorem C12_find_minimal_quorums : forall (E : ext) (f : fbas), ext_ok E -> wf_fbas f ->
  exists l, find_minimal_quorums E f = Ok l /\
    (forall Q, In Q l <-> minimal_quorum f Q) /\
    (forall Q, quorum f Q -> exists m, In m l /\ incl_set m Q).
Proof. exact find_minimal_quorums_exact. Qed.
Print Assumptions C12_find_minimal_quorums.

Example C12_example : wf_fbas mixed /\ show (find_minimal_quorums std_ext mixed) = Ok [[0;1];[2;3]] /\
  show (find_minimal_quorums std_ext flat) = Ok [[0;1];[0;2];[1;2]].
Proof. split; [exact mixed_wf|vm_compute; auto]. Qed.

(** C13 for minimal quorums. The order is as documented; distinctness needs symmetric clusters
    without repeated validators. *)
Theorem C13_minimal_quorums_order : forall (E : ext) (f : fbas), ext_ok E -> wf_fbas f ->
  exists l, find_minimal_quorums E f = Ok l /\ StronglySorted (fun a b => before a b \/ a = b) l.
Proof. exact find_minimal_quorums_weak_order. Qed.
Print Assumptions C13_minimal_quorums_order.

Theorem C13_minimal_quorums_partial : forall (E : ext) (f : fbas), ext_ok E -> wf_fbas f ->
  (forall q, satisfiable_cluster f q -> no_repetitions q) ->
  exists l, find_minimal_quorums E f = Ok l /\ StronglySorted before l /\
    (forall a b, In a l -> In b l -> incl_set a b -> a = b).
Proof. exact find_minimal_quorums_order. Qed.
Print Assumptions C13_minimal_quorums_partial.

Example C13_example : wf_fbas nested /\ (forall q, satisfiable_cluster nested q -> no_repetitions q).
Proof.
  split; [exact nested_wf|]. intros q H. eapply good_clusters; [|exact H]. apply goodb_ok. vm_compute. reflexivity.
Qed.

(** The full claim fails: a validator listed twice makes a minimal quorum appear twice. *)
Theorem C13_duplicates_refuted : exists f, wf_fbas f /\
  exists Q, find_minimal_quorums std_ext f = Ok [Q; Q].
Proof. exact duplicate_quorums. Qed.
Print Assumptions C13_duplicates_refuted.

(** C17: minimal blocking sets *)
Theorem C17_find_minimal_blocking_sets_partial : forall (E : ext) (f : fbas), ext_ok E -> wf_fbas f ->
  (forall q, satisfiable_cluster f q -> no_repetitions q /\ sane q) -> (exists Q, quorum f Q) ->
  exists l, find_minimal_blocking_sets E f = Ok l /\ StronglySorted before l /\
    forall B, In B l <-> minimal_blocking f B.
Proof. exact (fun E f HE Hwf Hg => find_minimal_blocking_sets_spec E HE f Hwf Hg). Qed.
Print Assumptions C17_find_minimal_blocking_sets_partial.

Example C17_example : wf_fbas nested /\ (forall q, satisfiable_cluster nested q -> no_repetitions q /\ sane q) /\
  (exists Q, quorum nested Q) /\
  show (find_minimal_blocking_sets std_ext mixed) = Ok [[0;2];[0;3];[1;2];[1;3]].
Proof.
  split; [exact nested_wf|split; [|split]].
  - apply good_clusters, goodb_ok. vm_compute. reflexivity.
  - apply (has_quorum nested (of_list [0;6])). vm_compute. reflexivity.
  - vm_compute. reflexivity.
Qed.

(** Without the conditions the claim fails: no quorum at all (the empty set blocks, the result is empty) ... *)
Theorem C17_no_quorum_refuted : exists f, wf_fbas f /\ minimal_blocking f bempty /\
  find_minimal_blocking_sets std_ext f = Ok [].
Proof. exact blocking_no_quorum. Qed.
Print Assumptions C17_no_quorum_refuted.

(** ... a repeated validator (a minimal blocking set is missing) ... *)
Theorem C17_repetition_refuted : exists f B, wf_fbas f /\ (exists Q, quorum f Q) /\ minimal_blocking f B /\
  exists l, find_minimal_blocking_sets std_ext f = Ok l /\ ~ In B l.
Proof. exact blocking_repetition. Qed.
Print Assumptions C17_repetition_refuted.

(** ... an inner set that can never be satisfied (the result is empty). *)
Theorem C17_unsatisfiable_inner_refuted : exists f B, wf_fbas f /\ (exists Q, quorum f Q) /\
  (forall x q, node_of f x q -> no_repetitions q) /\ minimal_blocking f B /\ find_minimal_blocking_sets std_ext f = Ok [].
Proof. exact blocking_unsatisfiable_inner. Qed.
Print Assumptions C17_unsatisfiable_inner_refuted.

(** C23: intersection of all sets *)
Theorem C23_all_intersect : forall l : list bset, all_intersect l = true <-> ForallOrdPairs meets l.
Proof. exact all_intersect_iff. Qed.
Print Assumptions C23_all_intersect.

Theorem C23_involved_nodes : forall (l : list bset) (x : nat),
  mem x (involved_nodes l) = true <-> exists s, In s l /\ mem x s = true.
Proof. exact mem_involved. Qed.
Print Assumptions C23_involved_nodes.

Example C23_example : all_intersect [of_list [0;1]; of_list [1;2]; of_list [0;2;3;4]] = true /\
  all_intersect [of_list [0]; of_list [1]] = false.
Proof. vm_compute. auto. Qed.

(** C24: removal of non-minimal sets *)
Theorem C24_remove_non_minimal : forall l : list bset,
  StronglySorted before (remove_non_minimal_node_sets l) /\
  forall s, In s (remove_non_minimal_node_sets l) <-> minimal (fun x => In x l) s.
Proof. exact remove_non_minimal_exact. Qed.
Print Assumptions C24_remove_non_minimal.

Example C24_example : map elements (remove_non_minimal_node_sets
  [of_list [0;1;2]; of_list [1;2]; of_list [3]; of_list [1;2]; of_list [0;4]]) = [[3];[0;4];[1;2]].
Proof. vm_compute. reflexivity. Qed.

(** C32: symmetric clusters *)
Theorem C32_find_symmetric_clusters : forall (E : ext) (f : fbas), ext_ok E -> wf_fbas f ->
  exists l, find_symmetric_clusters E f = Ok l /\ NoDup l /\
    (forall q, In q l <-> satisfiable_cluster f q) /\
    (forall q q', In q l -> In q' l -> q <> q' ->
       exists Q Q', quorum f Q /\ quorum f Q' /\ ~ meets Q Q').
Proof. exact find_symmetric_clusters_exact. Qed.
Print Assumptions C32_find_symmetric_clusters.

Example C32_example : wf_fbas mixed /\ find_symmetric_clusters std_ext mixed = Ok [QS 2 [2;3] []].
Proof. split; [exact mixed_wf|vm_compute; reflexivity]. Qed.

(** C33: symmetric top tier *)
Theorem C33_find_symmetric_top_tier : forall (E : ext) (f : fbas), ext_ok E -> wf_fbas f ->
  exists o, find_symmetric_top_tier E f = Ok o /\
  (forall q, o = Some q ->
     satisfiable_cluster f q /\
     (forall x, in_top_tier f x -> node_of f x q /\ mentions x q) /\
     (forall Q, quorum f Q -> exists x, mem x Q = true /\ mentions x q)) /\
  (forall q, (exists Q, quorum f Q) -> (forall x, in_top_tier f x <-> mentions x q) ->
     (forall x, in_top_tier f x -> node_of f x q) -> o = Some q).
Proof. exact (fun E f HE Hwf => find_symmetric_top_tier_spec E HE f Hwf). Qed.
Print Assumptions C33_find_symmetric_top_tier.

Example C33_example : wf_fbas flat /\ find_symmetric_top_tier std_ext flat = Ok (Some (QS 2 [0;1;2] [])) /\
  find_symmetric_top_tier std_ext mixed = Ok None.
Proof. split; [exact flat_wf|vm_compute; auto]. Qed.
