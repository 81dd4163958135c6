(** Comparing FBASs, reusing results, post-analysis: C77, C78, C79. *)
From Coq Require Import String.
From Verif Require Import P_ReuseMain P_ReuseGroups P_ReuseFirst P_ReuseStats P_Results P_ThAnalysis P_ThGroupings P_StandardIter P_ThReuse.
Local Open Scope string_scope.
Local Open Scope list_scope.

(** C77: equality, order and hash of FBASs *)
Theorem C77_equal : forall (f g : fbas), fbas_eqb f g = true <-> nodes f = nodes g.
Proof. exact fbas_eqb_eq. Qed.
Print Assumptions C77_equal.

Theorem C77_order : forall (f g h : fbas),
  (fbas_compare f g = Eq <-> nodes f = nodes g) /\
  (fbas_compare f g = Lt <-> list_before node_before (nodes f) (nodes g)) /\
  (fbas_compare f g = Gt <-> list_before node_before (nodes g) (nodes f)) /\
  (fbas_compare f g = Lt -> fbas_compare g h = Lt -> fbas_compare f h = Lt).
Proof. exact fbas_order. Qed.
Print Assumptions C77_order.

(** equal FBASs write the same into a hasher, different ones do not *)
Theorem C77_hash : forall (f g : fbas), hash_fbas f = hash_fbas g <-> nodes f = nodes g.
Proof. exact hash_fbas_inj. Qed.
Print Assumptions C77_hash.

(** equal FBASs have equal results *)
Theorem C77_equal_results : forall (E : ext) (f g : fbas), fbas_eqb f g = true ->
  (forall cs, analyze E f cs = analyze E g cs) /\ to_standard_form E f = to_standard_form E g.
Proof. exact equal_results. Qed.
Print Assumptions C77_equal_results.

(** but [get_node_id] may find different nodes *)
Theorem C77_lookup_refuted : exists f g pk, wf_fbas f /\ distinct_keys f /\ (exists sm, shrunken f (all_nodes f) = Ok (g, sm)) /\
  fbas_eqb f g = true /\ get_node_id f pk = Some 0 /\ get_node_id g pk = None.
Proof. exact lookup_differs. Qed.
Print Assumptions C77_lookup_refuted.

(** the text whose digest identifies a standard form *)
Theorem C77_standard_text : forall (E E' : ext) (f g s t : fbas), to_standard_form E f = Ok s -> to_standard_form E' g = Ok t ->
  (M_JsonText.fbas_to_text s = M_JsonText.fbas_to_text t <-> s = t).
Proof. exact standard_text. Qed.
Print Assumptions C77_standard_text.

(** one FBAS after the other with the same cache: every result is that of the FBAS's own standard
    form, and one entry is kept for each standard form *)
Theorem C77_cached : forall (E : ext) (fs : list fbas), ext_ok E ->
  exists rs cache, reuse_all E [] fs = Ok (rs, cache) /\
  Forall2 (fun f r => exists s, to_standard_form E f = Ok s /\ do_analysis E s = Ok r) fs rs /\
  NoDup (map fst cache) /\
  (forall s, In s (map fst cache) <-> exists f, In f fs /\ to_standard_form E f = Ok s).
Proof. exact cached. Qed.
Print Assumptions C77_cached.

(** the same FBAS with its nodes in another order is found in the cache *)
Theorem C77_reordered : forall (E : ext) (p : nat -> nat) (f h : fbas) (cache : results_cache), ext_ok E -> wf_fbas f -> distinct_keys f ->
  renumbering p f h -> (forall x pk, has_key f x pk -> has_key h (p x) pk) ->
  forall r cache', reuse E cache f = Ok (r, cache') -> reuse E cache' h = Ok (r, cache').
Proof. exact reordered_reused. Qed.
Print Assumptions C77_reordered.

(** the standard form has the same quorum intersection, top tier, blocking and splitting sets, by key *)
Theorem C77_standard_sets : forall (E : ext) (f s : fbas), ext_ok E -> wf_fbas f -> distinct_keys f -> to_standard_form E f = Ok s ->
  (has_a_quorum f <-> has_a_quorum s) /\
  (quorum_intersection f <-> quorum_intersection s) /\
  (forall pk, (exists x, in_top_tier f x /\ has_key f x pk) <-> (exists y, in_top_tier s y /\ has_key s y pk)) /\
  ((forall B, minimal_blocking f B -> exists B', minimal_blocking s B' /\ same_keys f B s B' /\ len B' = len B) /\
   (forall B', minimal_blocking s B' -> exists B, minimal_blocking f B /\ same_keys f B s B' /\ len B' = len B)) /\
  ((forall S, minimal_splitting f S -> exists S', minimal_splitting s S' /\ same_keys f S s S' /\ len S' = len S) /\
   (forall S', minimal_splitting s S' -> exists S, minimal_splitting f S /\ same_keys f S s S' /\ len S' = len S)).
Proof. exact standard_sets. Qed.
Print Assumptions C77_standard_sets.

(** missing: standard forms with a symmetric cluster whose quorum set lists a validator twice or
    has thresholds out of range, see C17 and C18 *)
Theorem C77_results_partial : forall (E : ext) (f s : fbas), ext_ok E -> wf_fbas f -> distinct_keys f -> to_standard_form E f = Ok s ->
  sane_clusters s -> splittable_clusters s ->
  exists r lb lp, do_analysis E s = Ok r /\
  vr_unwrap (r_blocking r) = Ok lb /\ lists_by_key f (reported_blocking f) s lb /\
  vr_unwrap (r_splitting r) = Ok lp /\ lists_by_key f (reported_splitting f) s lp /\
  (forall pk, (exists y, mem y (r_top_tier r) = true /\ has_key s y pk) <-> (exists x, in_top_tier f x /\ has_key f x pk)) /\
  (r_intersection r = true <-> quorum_intersection f).
Proof. exact standard_results. Qed.
Print Assumptions C77_results_partial.

Example C77_example : wf_fbas nested3 /\ distinct_keys nested3 /\ to_standard_form std_ext nested3 = Ok standard3 /\
  sane_clusters standard3 /\ splittable_clusters standard3 /\ has_a_quorum nested3 /\
  fbas_compare flat nested3 = Gt /\ fbas_compare nested3 flat = Lt /\
  res_map (fun p => (map (fun r => (vr_len (r_blocking r), r_intersection r)) (fst p), List.length (snd p)))
    (reuse_all std_ext [] [nested3; flat; nested3; mixed]) = Ok ([(27, true); (3, true); (27, true); (4, false)], 3).
Proof.
  split; [apply wfb_ok; vm_compute; reflexivity|]. split; [apply distinct_keysb_ok; vm_compute; reflexivity|]. split; [vm_compute; reflexivity|].
  split; [apply saneCb_ok; vm_compute; reflexivity|]. split; [apply splitCb_ok; vm_compute; reflexivity|].
  split; [apply (has_quorum nested3 (of_list [0;1;3;4])); vm_compute; reflexivity|]. repeat split; vm_compute; reflexivity.
Qed.

Example C77_reordered_example : wf_fbas cyc /\ distinct_keys cyc /\ renumbering cyc_p cyc cyc' /\
  (forall x pk, has_key cyc x pk -> has_key cyc' (cyc_p x) pk) /\ fbas_eqb cyc cyc' = false /\
  exists r cache, reuse std_ext [] cyc = Ok (r, cache).
Proof. exact reordered_example. Qed.

(** C78: what the example computes from the results *)

(** the names first listed are those of a smallest blocking set *)
Theorem C78_smallest_partial : forall (E : ext) (f s : fbas), ext_ok E -> wf_fbas f -> distinct_keys f -> to_standard_form E f = Ok s ->
  sane_clusters s -> splittable_clusters s -> has_a_quorum f ->
  exists r names B, do_analysis E s = Ok r /\ smallest_blocking (r_blocking r) s = Ok names /\
  minimal_blocking f B /\ (forall pk, In pk names <-> exists x, mem x B = true /\ has_key f x pk) /\
  List.length names = len B /\ vr_min (r_blocking r) = len B /\ least_size (blocking f) (len B).
Proof. exact first_listed. Qed.
Print Assumptions C78_smallest_partial.

(** without a quorum there is no first one *)
Theorem C78_smallest_refuted : exists f s r, wf_fbas f /\ distinct_keys f /\ to_standard_form std_ext f = Ok s /\
  do_analysis std_ext s = Ok r /\ ~ has_a_quorum f /\ smallest_blocking (r_blocking r) s = Panic.
Proof. exact no_first. Qed.
Print Assumptions C78_smallest_refuted.

(** [F] are the failing nodes: [n] is the least number of further nodes that block together with them *)
Theorem C78_failures_partial : forall (E : ext) (f s : fbas), ext_ok E -> wf_fbas f -> distinct_keys f -> to_standard_form E f = Ok s ->
  forall (names : list string), sane_clusters s -> splittable_clusters s ->
  exists r n, do_analysis E s = Ok r /\ more_failures (r_blocking r) names s = Ok n /\
  forall F, nodes_with_keys f names F -> least_size (fun X => blocking f (union X F)) n.
Proof. exact failures_counted. Qed.
Print Assumptions C78_failures_partial.

(** [F] are the evil nodes *)
Theorem C78_evil_partial : forall (E : ext) (f s : fbas), ext_ok E -> wf_fbas f -> distinct_keys f -> to_standard_form E f = Ok s ->
  forall (evil : list nat), sane_clusters s -> splittable_clusters s ->
  exists r o, do_analysis E s = Ok r /\ more_evil_nodes (r_splitting r) evil = Ok o /\
  forall F, (forall x, mem x F = true <-> exists y pk, In y evil /\ has_key s y pk /\ has_key f x pk) ->
  (o = None <-> ~ has_a_quorum f \/ splitting f F) /\
  (forall n, o = Some n -> (exists S, splitting f S) -> least_size (fun X => splitting f (union X F)) n).
Proof. exact evil_counted. Qed.
Print Assumptions C78_evil_partial.

(** zero more evil nodes are announced although no number of them endangers safety *)
Theorem C78_no_splitting_sets_refuted : exists f s r, wf_fbas f /\ distinct_keys f /\ to_standard_form std_ext f = Ok s /\
  sane_clusters s /\ splittable_clusters s /\ do_analysis std_ext s = Ok r /\
  more_evil_nodes (r_splitting r) [] = Ok (Some 0) /\ has_a_quorum f /\ ~ exists S, splitting f S.
Proof. exact nothing_splits. Qed.
Print Assumptions C78_no_splitting_sets_refuted.

(** counted by organization; [l] is the list of organizations as read from a file *)
Theorem C78_groups_partial : forall (E : ext) (f s : fbas), ext_ok E -> wf_fbas f -> distinct_keys f -> to_standard_form E f = Ok s ->
  forall (l : list raw_grouping), disjoint_lists l -> sane_clusters s -> splittable_clusters s ->
  exists r G r', do_analysis E s = Ok r /\ groupings_from_raw l s = Ok G /\ by_organization (r_blocking r) G = Ok r' /\
  fewest_groups f l (blocking f) (vr_min r').
Proof. exact groups_counted. Qed.
Print Assumptions C78_groups_partial.

Example C78_example : wf_fbas nested3 /\ distinct_keys nested3 /\ to_standard_form std_ext nested3 = Ok standard3 /\
  sane_clusters standard3 /\ splittable_clusters standard3 /\ has_a_quorum nested3 /\ disjoint_lists two_orgs /\
  exists r G r', do_analysis std_ext standard3 = Ok r /\
  res_map (@List.length string) (smallest_blocking (r_blocking r) standard3) = Ok 4 /\
  more_failures (r_blocking r) ["n0"; "n1"; "nobody"] standard3 = Ok 2 /\
  more_evil_nodes (r_splitting r) [] = Ok (Some 1) /\
  more_evil_nodes (r_splitting r) [0] = Ok None /\
  groupings_from_raw two_orgs standard3 = Ok G /\ by_organization (r_blocking r) G = Ok r' /\ vr_min r' = 2.
Proof.
  split; [apply wfb_ok; vm_compute; reflexivity|]. split; [apply distinct_keysb_ok; vm_compute; reflexivity|]. split; [vm_compute; reflexivity|].
  split; [apply saneCb_ok; vm_compute; reflexivity|]. split; [apply splitCb_ok; vm_compute; reflexivity|].
  split; [apply (has_quorum nested3 (of_list [0;1;3;4])); vm_compute; reflexivity|]. split; [exact two_orgs_disjoint|].
  do 3 eexists. repeat (split; [vm_compute; reflexivity|]). vm_compute; reflexivity.
Qed.

(** C79: numbers of sets, the empty set and minimal sets of results; groupings of reduced FBASs *)
Theorem C79_sizes : forall (r : vec_result) (l : list bset), ascending_table r -> vr_unwrap r = Ok l ->
  vr_len r = List.length l /\ (vr_is_empty r = true <-> l = []) /\ least_of (map len l) (vr_min r) /\ greatest_of (map len l) (vr_max r).
Proof. exact result_size. Qed.
Print Assumptions C79_sizes.

Theorem C79_empty_set : forall (r : vec_result) (l : list bset), vr_unwrap r = Ok l ->
  (vr_contains_empty_set r = true <-> exists S, In S l /\ forall x, mem x S = false).
Proof. exact result_empty_set. Qed.
Print Assumptions C79_empty_set.

Theorem C79_minimal_sets : forall (r : vec_result) (l : list bset), ascending_table r -> vr_unwrap r = Ok l ->
  exists l', vr_unwrap (vr_minimal_sets r) = Ok l' /\ StronglySorted before l' /\ forall S, In S l' <-> minimal (fun X => In X l) S.
Proof. exact result_minimal_sets. Qed.
Print Assumptions C79_minimal_sets.

(** groups keep their names, order and remaining members; sets of nodes of the reduced FBAS count as
    many groups as they do in the original one *)
Theorem C79_reduced_groups : forall (f : fbas) (K : bset) (gs : list grouping) (G : groupings) (f' : fbas) (sm : shrink_manager),
  groups_of f gs -> disjoint_groups gs -> groupings_new gs f = Ok G -> incl_set K (all_nodes f) -> shrunken f K = Ok (f', sm) ->
  exists G', groupings_shrunken G sm f' = Ok G' /\ g_fbas G' = f' /\
    Forall2 (fun g g' => g_name g' = g_name g /\
      (forall y, member y g' <-> exists x, member x g /\ nth_error (elements K) y = Some x) /\
      (NoDup (g_validators g) -> StronglySorted lt (g_validators g'))) gs (g_groupings G') /\
    forall S' S, (forall i, mem i S' = true -> i < len K) ->
      (forall x, mem x S = true <-> exists i, mem i S' = true /\ nth_error (elements K) i = Some x) ->
      exists R' R, merge_node_set G' S' = Ok R' /\ merge_node_set G S = Ok R /\ len R' = len R.
Proof. exact shrunken_groups. Qed.
Print Assumptions C79_reduced_groups.

Example C79_example : exists r l, analyze std_ext mixed [MinimalQuorums] = Ok [AVec r] /\ ascending_table r /\ vr_unwrap r = Ok l /\
  map elements l = [[0;1];[2;3]] /\ vr_len r = 2 /\
  groups_of nested some_orgs /\ disjoint_groups some_orgs /\
  exists G f' sm G', groupings_new some_orgs nested = Ok G /\ incl_set (of_list [1;2;3;6]) (all_nodes nested) /\
  shrunken nested (of_list [1;2;3;6]) = Ok (f', sm) /\ groupings_shrunken G sm f' = Ok G' /\
  map g_validators (g_groupings G') = [[0]; [1;2]].
Proof. exact stats_example. Qed.
