(** Model of how FBASs are compared and hashed (/repo/src/core_types/fbas.rs) and of the reuse of
    results in /repo/examples/results_reuse.rs. No proofs here. *)
From Verif Require Export M_IO.
Local Open Scope list_scope.

(** ** fbas.rs l.113-140: comparing FBASs *)

(** l.135: derived [PartialEq] of [Node] *)
Definition node_eqb (a b : node) : bool := String.eqb (node_pk a) (node_pk b) && qset_eqb (node_qset a) (node_qset b).
(** l.135: derived [Ord] of [Node]: public key, then quorum set *)
Definition node_compare (a b : node) : comparison :=
  match string_compare (node_pk a) (node_pk b) with
  | Eq => qset_compare (node_qset a) (node_qset b)
  | c => c
  end.
(** [PartialEq] of vectors *)
Fixpoint list_eqb {A} (eqb : A -> A -> bool) (l l' : list A) : bool :=
  match l, l' with
  | [], [] => true
  | a :: l1, b :: l1' => eqb a b && list_eqb eqb l1 l1'
  | _, _ => false
  end.
(** l.129-133: [PartialEq for Fbas] looks only at the nodes *)
Definition fbas_eqb (f g : fbas) : bool := list_eqb node_eqb (nodes f) (nodes g).
(** l.118-127: [Ord for Fbas] *)
Definition fbas_compare (f g : fbas) : comparison := lex_compare node_compare (nodes f) (nodes g).

(** what is written into a [Hasher] *)
Inductive hash_write :=
| WriteUsize (n : nat)
| WriteBytes (s : string)
| WriteByte (b : nat)
(** the bytes of a slice of [usize], written at once *)
| WriteIds (l : list nat).
(** [Hash for String]: the bytes and a terminator *)
Definition hash_string (s : string) : list hash_write := [WriteBytes s; WriteByte 255].
(** quorum_set.rs l.4: derived [Hash] of [QuorumSet]; vectors write their length first *)
Fixpoint hash_qset (q : qset) : list hash_write :=
  let 'QS t vs is_ := q in
  WriteUsize t :: WriteUsize (List.length vs) :: WriteIds vs :: WriteUsize (List.length is_) ::
  flat_map hash_qset is_.
(** l.135: derived [Hash] of [Node] *)
Definition hash_node (n : node) : list hash_write := hash_string (node_pk n) ++ hash_qset (node_qset n).
(** l.113-117: [Hash for Fbas] *)
Definition hash_fbas (f : fbas) : list hash_write :=
  WriteUsize (List.length (nodes f)) :: flat_map hash_node (nodes f).

(** ** examples/results_reuse.rs *)

(** l.110-116: [CustomResultsStruct] *)
Record custom_results := mk_results {
  r_blocking : vec_result;
  r_splitting : vec_result;
  r_top_tier : bset;
  r_intersection : bool }.

(** l.100-108: [do_analysis] *)
Definition do_analysis (E : ext) (f : fbas) : res custom_results :=
  answers <- analyze E f [MinimalBlockingSets; MinimalSplittingSets; TopTier; HasQuorumIntersection] ;;
  match answers with
  | [AVec mbs; AVec mss; ASet top; ABool hqi] => Ok (mk_results mbs mss top hqi)
  | _ => Panic
  end.

(** l.33: [HashMap<Fbas, CustomResultsStruct>]: a map from FBASs, compared by [Eq for Fbas] *)
Definition results_cache := list (fbas * custom_results).

(** l.21, l.34-40: results for an FBAS, from the cache if possible *)
Definition reuse (E : ext) (cache : results_cache) (f : fbas) : res (custom_results * results_cache) :=
  s <- to_standard_form E f ;;
  match assoc fbas_eqb s cache with
  | Some cached => Ok (cached, cache)
  | None => new <- do_analysis E s ;; Ok (new, (s, new) :: cache)
  end.
(** the use the comment in l.31-32 describes: one FBAS after the other with the same cache *)
Fixpoint reuse_all (E : ext) (cache : results_cache) (fs : list fbas) : res (list custom_results * results_cache) :=
  match fs with
  | [] => Ok ([], cache)
  | f :: fs' =>
      r <- reuse E cache f ;;
      r' <- reuse_all E (snd r) fs' ;;
      Ok (fst r :: fst r', snd r')
  end.

(** ** post-analysis, l.42-97 *)

(** l.50, l.54: the first set that is listed; an index out of bounds is a panic *)
Definition smallest_blocking (mbs : vec_result) (f : fbas) : res (list string) :=
  mbs_pretty <- vr_into_pretty_vec_vec mbs f None ;;
  unwrap (nth_error mbs_pretty 0).
(** l.61: results counted by group *)
Definition by_organization (mbs : vec_result) (organizations : groupings) : res vec_result :=
  res_map vr_minimal_sets (vr_merged_by_group mbs organizations).
(** l.74-80: failures that still have to happen *)
Definition more_failures (mbs : vec_result) (failing : list string) (f : fbas) : res nat :=
  res_map (fun r => vr_min (vr_minimal_sets r)) (vr_without_nodes_pretty mbs failing f None).
(** l.84-97: [None] is the message about missing quorum intersection *)
Definition more_evil_nodes (mss : vec_result) (evil : list nat) : res (option nat) :=
  res_map (fun r => let remaining := vr_minimal_sets r in
                    if vr_contains_empty_set remaining then None else Some (vr_min remaining))
          (vr_without_nodes mss evil).
