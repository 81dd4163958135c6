(** Double precision arithmetic (IEEE 754 binary64, round to nearest even, via Flocq) and the parts of
    the code that use it: thresholds of /repo/src/simulation/qsc/mod.rs, the mean of
    /repo/src/analysis/results.rs, the ranking of /repo/src/analysis/preprocessing.rs and the scores of
    /repo/src/simulation/graph.rs. No proofs here except the two side conditions of the format. *)
From Coq Require Import ZArith.
From Flocq Require Import IEEE754.BinarySingleNaN Core.FLX.
From Verif Require Export M_Groupings.
Local Open Scope list_scope.

Definition f64 := binary_float 53 1024.
Lemma prec_ok : Prec_gt_0 53. Proof. reflexivity. Qed.
Lemma emax_ok : Prec_lt_emax 53 1024. Proof. reflexivity. Qed.

(** [n as f64] *)
Definition f64_of_Z (z : Z) : f64 := binary_normalize 53 1024 prec_ok emax_ok mode_NE z 0 false.
Definition f64_of_nat (n : nat) : f64 := f64_of_Z (Z.of_nat n).
Definition fadd : f64 -> f64 -> f64 := @Bplus 53 1024 prec_ok emax_ok mode_NE.
Definition fsub : f64 -> f64 -> f64 := @Bminus 53 1024 prec_ok emax_ok mode_NE.
Definition fmul : f64 -> f64 -> f64 := @Bmult 53 1024 prec_ok emax_ok mode_NE.
Definition fdiv : f64 -> f64 -> f64 := @Bdiv 53 1024 prec_ok emax_ok mode_NE.
Definition ffloor : f64 -> f64 := @Bnearbyint 53 1024 emax_ok mode_DN.
Definition fceil : f64 -> f64 := @Bnearbyint 53 1024 emax_ok mode_UP.
Definition fcompare : f64 -> f64 -> option comparison := @Bcompare 53 1024.
Definition fltb : f64 -> f64 -> bool := @Bltb 53 1024.
Definition fleb : f64 -> f64 -> bool := @Bleb 53 1024.
Definition fnan : f64 -> bool := @is_nan 53 1024.
Definition fzero : f64 := @B754_zero 53 1024 false.

(** [x as usize]: truncation, saturating at the bounds, NaN becomes 0 *)
Definition usize_max : Z := (2 ^ 64 - 1)%Z.
Definition usize_of_f64 (x : f64) : nat :=
  match x with
  | B754_nan => 0
  | B754_infinity true => 0
  | B754_infinity false => Z.to_nat usize_max
  | _ => Z.to_nat (Z.min (Btrunc x) usize_max)
  end.

(** simulation/qsc/mod.rs l.37-40: [calculate_67p_threshold]. The subtraction would panic (or wrap) if
    the quotient exceeded [n]; [P_Float.v] shows that it does not. *)
Definition calculate_67p_threshold (n : nat) : nat :=
  n - usize_of_f64 (ffloor (fdiv (fsub (f64_of_nat n) (f64_of_nat 1)) (f64_of_nat 3))).
(** simulation/qsc/mod.rs l.43-46: [calculate_x_threshold] *)
Definition calculate_x_threshold (n : nat) (x : f64) : nat :=
  Nat.max 1 (usize_of_f64 (fceil (fmul x (f64_of_nat n)))).
(** simulation/qsc/mod.rs l.28-34: [calculate_threshold] *)
Definition calculate_threshold (n : nat) (relative_threshold : option f64) : nat :=
  match relative_threshold with
  | Some x => calculate_x_threshold n x
  | None => calculate_67p_threshold n
  end.

(** results.rs l.119-126: [mean] *)
Definition vr_mean (r : vec_result) : f64 :=
  match node_sets r with
  | [] => fzero
  | _ => fdiv (f64_of_nat (list_sum (map len (node_sets r)))) (f64_of_nat (List.length (node_sets r)))
  end.
(** results.rs l.107-109: [minmaxmean] *)
Definition vr_minmaxmean (r : vec_result) : nat * nat * f64 := (vr_min r, vr_max r, vr_mean r).
(** results.rs l.98-105: [describe] *)
Definition vr_describe (r : vec_result) : res (nat * nat * (nat * nat * f64) * list nat) :=
  h <- vr_histogram r ;;
  Ok (List.length (node_sets r), len (vr_involved_nodes r), vr_minmaxmean r, h).

(** ** Ranking, preprocessing.rs *)

(** [scores[i] += s] *)
Definition score_add (scores : list f64) (i : nat) (s : f64) : res (list f64) :=
  x <- unwrap (nth_error scores i) ;; Ok (update i (fadd x s) scores).
(** l.100-111: the body of the loop over nodes *)
Definition rank_node (f : fbas) (nodes_set : bset) (last_scores : list f64) (scores : list f64) (node_id : nat) : res (list f64) :=
  n <- unwrap (nth_error (nodes f) node_id) ;;
  let trusted_nodes := contained_nodes (node_qset n) in
  let l := f64_of_nat (len trusted_nodes) in
  foldM (fun scores trusted =>
           last <- unwrap (nth_error last_scores node_id) ;;
           score_add scores trusted (fdiv last l))
        scores (filter (fun id => mem id nodes_set) (elements trusted_nodes)).
(** l.96-112: one run *)
Definition rank_run (f : fbas) (ids : list nat) (nodes_set : bset) (last_scores : list f64) : res (list f64) :=
  foldM (rank_node f nodes_set last_scores) (repeat fzero (number_of_nodes f)) ids.
Fixpoint rank_runs (runs : nat) (f : fbas) (ids : list nat) (nodes_set : bset) (scores : list f64) : res (list f64) :=
  match runs with
  | 0 => Ok scores
  | S k => scores' <- rank_run f ids nodes_set scores ;; rank_runs k f ids nodes_set scores'
  end.
(** l.86-123: [rank_nodes] *)
Definition rank_nodes (ids : list nat) (f : fbas) : res (list f64) :=
  let nodes_set := of_list ids in
  assert (List.length ids =? len nodes_set)
    (rank_runs 100 f ids nodes_set
       (repeat (fdiv (f64_of_nat 1) (f64_of_nat (List.length ids))) (number_of_nodes f))).

(** stable insertion with a comparison that may panic *)
Fixpoint insert_byM {A} (cmp : A -> A -> res comparison) (x : A) (l : list A) : res (list A) :=
  match l with
  | [] => Ok [x]
  | y :: l' => c <- cmp x y ;;
               match c with
               | Gt => r <- insert_byM cmp x l' ;; Ok (y :: r)
               | _ => Ok (x :: l)
               end
  end.
Fixpoint sort_byM {A} (cmp : A -> A -> res comparison) (l : list A) : res (list A) :=
  match l with
  | [] => Ok []
  | x :: l' => r <- sort_byM cmp l' ;; insert_byM cmp x r
  end.
(** l.126-131: [sort_by_rank]; comparing with NaN panics *)
Definition sort_by_rank (ids : list nat) (f : fbas) : res (list nat) :=
  scores <- rank_nodes ids f ;;
  sort_byM (fun x y =>
              sy <- unwrap (nth_error scores y) ;;
              sx <- unwrap (nth_error scores x) ;;
              unwrap (fcompare sy sx)) ids.

(** The library behaviours with the real ranking ([rank_sort] is total: [P_Rank.v] shows that
    [sort_by_rank] does not panic where the code calls it). *)
Definition ranked_ext (components : nat -> list nat -> (nat -> list nat) -> list (list nat)) : ext :=
  mk_ext components (fun f l => match sort_by_rank l f with Ok l' => l' | Panic => l end).
