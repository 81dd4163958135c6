(** Model of /repo/src/analysis/front_end.rs and of the result wrappers of
    /repo/src/analysis/results.rs l.1-24, l.61-96, l.152-160, l.174-179. No proofs here. *)
From Verif Require Export M_Splitting.
Local Open Scope list_scope.

(** results.rs l.63-66: [NodeIdSetVecResult] *)
Record vec_result := mk_vec_result { node_sets : list bset; vr_unshrink_table : option (list nat) }.

(** results.rs l.68-73: [NodeIdSetVecResult::new] *)
Definition vec_result_new (sets : list bset) (sm : option shrink_manager) : vec_result :=
  mk_vec_result sets (option_map unshrink_table sm).

(** results.rs l.174-179: [unshrink] *)
Definition vr_unshrink (r : vec_result) : res vec_result :=
  match vr_unshrink_table r with
  | Some table => sets <- unshrink_sets_with table (node_sets r) ;; Ok (mk_vec_result sets None)
  | None => Ok (mk_vec_result (node_sets r) None)
  end.

(** results.rs l.74-77: [unwrap] *)
Definition vr_unwrap (r : vec_result) : res (list bset) := res_map node_sets (vr_unshrink r).

(** results.rs l.78-84: [into_vec_vec] *)
Definition vr_into_vec_vec (r : vec_result) : res (list (list nat)) :=
  res_map (fun r' => map elements (node_sets r')) (vr_unshrink r).

(** results.rs l.85-87: [involved_nodes] *)
Definition vr_involved_nodes (r : vec_result) : bset := involved_nodes (node_sets r).

(** results.rs l.94-96 *)
Definition vr_contains_empty_set (r : vec_result) : bool := existsb (fun s => beq s bempty) (node_sets r).

(** results.rs l.147-151: [minimal_sets] *)
Definition vr_minimal_sets (r : vec_result) : vec_result :=
  mk_vec_result (remove_non_minimal_node_sets (node_sets r)) (vr_unshrink_table r).

(** results.rs l.152-160: [without_nodes] *)
Definition vr_without_nodes (r : vec_result) (ids : list nat) : res vec_result :=
  r' <- vr_unshrink r ;;
  Ok (mk_vec_result (map (fun s => diff s (of_list ids)) (node_sets r')) (vr_unshrink_table r')).

(** results.rs l.9-17: [NodeIdSetResult::new]; only the payload is kept *)
Definition set_result_new (s : bset) (sm : option shrink_manager) : res bset :=
  match sm with Some m => unshrink_set m s | None => Ok s end.

(** front_end.rs l.9-17: [Analysis] *)
Record analysis := mk_analysis {
  fbas_original : fbas;
  fbas_shrunken : fbas;
  a_sm : shrink_manager;
  hqi_cache : option bool;
  mq_cache : option (list bset);
  mbs_cache : option (list bset);
  mss_cache : option (list bset) }.

Definition set_hqi (a : analysis) v := mk_analysis (fbas_original a) (fbas_shrunken a) (a_sm a) v (mq_cache a) (mbs_cache a) (mss_cache a).
Definition set_mq (a : analysis) v := mk_analysis (fbas_original a) (fbas_shrunken a) (a_sm a) (hqi_cache a) v (mbs_cache a) (mss_cache a).
Definition set_mbs (a : analysis) v := mk_analysis (fbas_original a) (fbas_shrunken a) (a_sm a) (hqi_cache a) (mq_cache a) v (mss_cache a).
Definition set_mss (a : analysis) v := mk_analysis (fbas_original a) (fbas_shrunken a) (a_sm a) (hqi_cache a) (mq_cache a) (mbs_cache a) v.

Definition is_none {A} (o : option A) : bool := match o with None => true | Some _ => false end.

Definition mapM_option {A B} (g : A -> res B) (o : option A) : res (option B) :=
  match o with None => Ok None | Some a => b <- g a ;; Ok (Some b) end.

(** l.206-234: [shrink_id_space_to_top_tier]. It is only called right after one of the two caches
    was filled; [top_tier_shrunken] (l.211) then reads that cache. *)
Definition shrink_id_space_to_top_tier (a : analysis) : res analysis :=
  top_tier_sh <- match mq_cache a, mbs_cache a with
                 | Some mq, _ => Ok (involved_nodes mq)
                 | None, Some mbs => Ok (involved_nodes mbs)
                 | None, None => Panic
                 end ;;
  top_tier_original <- unshrink_set (a_sm a) top_tier_sh ;;
  r <- shrunken (fbas_original a) top_tier_original ;;
  let '(new_fbas_shrunken, new_sm) := r in
  assert (is_none (mq_cache a) || is_none (mbs_cache a))
  (mq' <- mapM_option (fun mq => reshrink_sets new_sm mq (a_sm a)) (mq_cache a) ;;
   mbs' <- mapM_option (fun mbs => reshrink_sets new_sm mbs (a_sm a)) (mbs_cache a) ;;
   Ok (mk_analysis (fbas_original a) new_fbas_shrunken new_sm (hqi_cache a) mq' mbs' (mss_cache a))).

Section WithExt.
Variable E : ext.

(** l.20-40: [Analysis::new] *)
Definition analysis_new (f : fbas) : res analysis :=
  r <- shrunken f (relevant_nodes E f) ;;
  Ok (mk_analysis f (fst r) (snd r) None None None None).

(** l.113-120 with l.154-203: [minimal_quorums_shrunken] through [cached_computation] *)
Definition minimal_quorums_shrunken (a : analysis) : res (list bset * analysis) :=
  match mq_cache a with
  | Some v => Ok (v, a)
  | None =>
      let should_shrink := is_none (mq_cache a) && is_none (mbs_cache a) in
      result <- find_minimal_quorums E (fbas_shrunken a) ;;
      let a := set_mq a (Some result) in
      a <- (if should_shrink then shrink_id_space_to_top_tier a else Ok a) ;;
      v <- unwrap (mq_cache a) ;;
      Ok (v, a)
  end.

(** l.121-128: [minimal_blocking_sets_shrunken] *)
Definition minimal_blocking_sets_shrunken (a : analysis) : res (list bset * analysis) :=
  match mbs_cache a with
  | Some v => Ok (v, a)
  | None =>
      let should_shrink := is_none (mq_cache a) && is_none (mbs_cache a) in
      result <- find_minimal_blocking_sets E (fbas_shrunken a) ;;
      let a := set_mbs a (Some result) in
      a <- (if should_shrink then shrink_id_space_to_top_tier a else Ok a) ;;
      v <- unwrap (mbs_cache a) ;;
      Ok (v, a)
  end.

(** l.102-112: [has_quorum_intersection_from_shrunken] *)
Definition has_quorum_intersection (a : analysis) : res (bool * analysis) :=
  match hqi_cache a with
  | Some v => Ok (v, a)
  | None =>
      r <- minimal_quorums_shrunken a ;;
      let '(quorums, a) := r in
      let result := negb (match quorums with [] => true | _ => false end) && all_intersect quorums in
      Ok (result, set_hqi a (Some result))
  end.

(** l.129-143: [minimal_splitting_sets_shrunken] *)
Definition minimal_splitting_sets_shrunken (a : analysis) : res (list bset * analysis) :=
  r <- minimal_quorums_shrunken a ;;
  let '(minimal_quorums, a) := r in
  match mss_cache a with
  | Some v => Ok (v, a)
  | None =>
      (* the borrow of [fbas_shrunken] is taken before [has_quorum_intersection] runs *)
      let f := fbas_shrunken a in
      r <- has_quorum_intersection a ;;
      let '(hqi, a) := r in
      result <- (if hqi : bool then find_minimal_splitting_sets E f minimal_quorums else Ok [bempty]) ;;
      let a := set_mss a (Some result) in
      v <- unwrap (mss_cache a) ;;
      Ok (v, a)
  end.

(** l.144-152: [top_tier_shrunken] *)
Definition top_tier_shrunken (a : analysis) : res (bset * analysis) :=
  if negb (is_none (mq_cache a)) || is_none (mbs_cache a)
  then r <- minimal_quorums_shrunken a ;; Ok (involved_nodes (fst r), snd r)
  else r <- minimal_blocking_sets_shrunken a ;; Ok (involved_nodes (fst r), snd r).

(** l.61-73: [has_quorum_intersection_via_alternative_check] *)
Definition alternative_check (a : analysis) : res (bool * option vec_result) :=
  o <- find_nonintersecting_quorums E (fbas_shrunken a) ;;
  match o with
  | Some quorums =>
      q0 <- unwrap (nth_error quorums 0) ;;
      q1 <- unwrap (nth_error quorums 1) ;;
      assert (disjoint q0 q1) (Ok (false, Some (vec_result_new quorums (Some (a_sm a)))))
  | None => Ok (true, None)
  end.

(** The public methods, l.41-100 *)
Inductive call :=
| AllNodes | SatisfiableNodes | UnsatisfiableNodes
| HasQuorumIntersection | AlternativeCheck
| MinimalQuorums | MinimalBlockingSets | MinimalSplittingSets
| TopTier | SymmetricTopTier | SymmetricClusters.

Inductive answer :=
| ASet (s : bset)
| ABool (b : bool)
| AAlternative (b : bool) (qs : option vec_result)
| AVec (r : vec_result)
| AQset (q : option qset)
| AQsets (qs : list qset).

Definition vec_answer (r : list bset * analysis) : answer * analysis :=
  (AVec (vec_result_new (fst r) (Some (a_sm (snd r)))), snd r).

Definition perform (a : analysis) (c : call) : res (answer * analysis) :=
  match c with
  | AllNodes => Ok (ASet (all_nodes (fbas_original a)), a)
  | SatisfiableNodes => Ok (ASet (satisfiable_nodes (fbas_original a)), a)
  | UnsatisfiableNodes => Ok (ASet (unsatisfiable_nodes (fbas_original a)), a)
  | HasQuorumIntersection => r <- has_quorum_intersection a ;; Ok (ABool (fst r), snd r)
  | AlternativeCheck => r <- alternative_check a ;; Ok (AAlternative (fst r) (snd r), a)
  | MinimalQuorums => res_map vec_answer (minimal_quorums_shrunken a)
  | MinimalBlockingSets => res_map vec_answer (minimal_blocking_sets_shrunken a)
  | MinimalSplittingSets => res_map vec_answer (minimal_splitting_sets_shrunken a)
  | TopTier =>
      r <- top_tier_shrunken a ;;
      s <- set_result_new (fst r) (Some (a_sm (snd r))) ;;
      Ok (ASet s, snd r)
  | SymmetricTopTier => q <- find_symmetric_top_tier E (fbas_original a) ;; Ok (AQset q, a)
  | SymmetricClusters => l <- find_symmetric_clusters E (fbas_original a) ;; Ok (AQsets l, a)
  end.

(** a sequence of calls on one [Analysis]; the answers in order *)
Fixpoint perform_all (a : analysis) (cs : list call) : res (list answer * analysis) :=
  match cs with
  | [] => Ok ([], a)
  | c :: cs' =>
      r <- perform a c ;;
      r' <- perform_all (snd r) cs' ;;
      Ok (fst r :: fst r', snd r')
  end.

Definition analyze (f : fbas) (cs : list call) : res (list answer) :=
  a <- analysis_new f ;; res_map fst (perform_all a cs).

End WithExt.
