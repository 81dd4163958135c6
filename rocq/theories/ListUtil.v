(** Library functions used by the code: itertools combinators, sorting, comparison,
    and the [res] type for computations that may panic. *)
From Verif Require Export BitSet.

(** ** Panics *)
Inductive res (A : Type) : Type := Ok (a : A) | Panic.
Arguments Ok {A} a.
Arguments Panic {A}.

Definition bind {A B} (x : res A) (k : A -> res B) : res B :=
  match x with Ok a => k a | Panic => Panic end.
Notation "x <- e ;; k" := (bind e (fun x => k)) (at level 60, e at next level, right associativity).
(** [assert!(b)] *)
Definition assert {A} (b : bool) (k : res A) : res A := if b then k else Panic.
Definition res_map {A B} (f : A -> B) (x : res A) : res B := bind x (fun a => Ok (f a)).
Fixpoint mapM {A B} (f : A -> res B) (l : list A) : res (list B) :=
  match l with
  | [] => Ok []
  | a :: l' => b <- f a ;; bs <- mapM f l' ;; Ok (b :: bs)
  end.
(** [Option::unwrap] *)
Definition unwrap {A} (o : option A) : res A := match o with Some a => Ok a | None => Panic end.

(** ** itertools 0.9 *)

(** [Itertools::combinations(k)]: all [k]-element subsequences, in lexicographic order of
    positions; [k = 0] yields one empty combination, [k] larger than the length yields none. *)
Fixpoint combinations {A} (k : nat) (l : list A) : list (list A) :=
  match k with
  | 0 => [[]]
  | S k' => match l with
            | [] => []
            | a :: l' => map (cons a) (combinations k' l') ++ combinations k l'
            end
  end.

(** product of a non-empty list of iterators; the rightmost one varies fastest *)
Fixpoint product {A} (l : list (list A)) : list (list A) :=
  match l with
  | [] => [[]]
  | xs :: l' => flat_map (fun x => map (cons x) (product l')) xs
  end.

(** [Itertools::multi_cartesian_product]: in version 0.9 the product of zero iterators is empty. *)
Definition multi_cartesian_product {A} (l : list (list A)) : list (list A) :=
  match l with [] => [] | _ => product l end.

(** ** Sorting *)

(** Stable sort by a comparison function ([sort_by]; also [sort_unstable] when elements that
    compare equal are equal). *)
Fixpoint insert_by {A} (cmp : A -> A -> comparison) (x : A) (l : list A) : list A :=
  match l with
  | [] => [x]
  | y :: l' => match cmp x y with Gt => y :: insert_by cmp x l' | _ => x :: l end
  end.
Definition sort_by {A} (cmp : A -> A -> comparison) (l : list A) : list A :=
  fold_right (insert_by cmp) [] l.

(** [Vec::dedup]: removes consecutive repeated elements. *)
Fixpoint dedup {A} (eqb : A -> A -> bool) (l : list A) : list A :=
  match l with
  | [] => []
  | x :: l' => match l' with
               | [] => [x]
               | y :: _ => if eqb x y then dedup eqb l' else x :: dedup eqb l'
               end
  end.

(** lexicographic comparison ([Ord] for [Vec], and for [BitSet] via its iterator) *)
Fixpoint lex_compare {A} (cmp : A -> A -> comparison) (l1 l2 : list A) : comparison :=
  match l1, l2 with
  | [], [] => Eq
  | [], _ => Lt
  | _, [] => Gt
  | a :: l1', b :: l2' => match cmp a b with Eq => lex_compare cmp l1' l2' | c => c end
  end.

(** [Ord for BitSet] *)
Definition bset_compare (a b : bset) : comparison := lex_compare Nat.compare (elements a) (elements b).

(** association lists standing for [HashMap]/[BTreeMap]; the first entry of a key counts *)
Fixpoint assoc {K V} (eqb : K -> K -> bool) (k : K) (m : list (K * V)) : option V :=
  match m with
  | [] => None
  | (k', v) :: m' => if eqb k k' then Some v else assoc eqb k m'
  end.

(** [v[i] = x] for an index in range *)
Fixpoint update {A} (i : nat) (x : A) (l : list A) : list A :=
  match l, i with
  | [], _ => []
  | _ :: l', 0 => x :: l'
  | a :: l', S i' => a :: update i' x l'
  end.
