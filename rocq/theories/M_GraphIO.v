(** Model of /repo/src/io/graph.rs: graphs as text in the format of AS relationship files. Reading and
    writing of (compressed) files is not modelled. Characters are bytes: all characters the code looks for
    are ASCII. No proofs here. *)
From Coq Require Export String Ascii.
From Coq Require Import DecimalString ZArith.
From Verif Require Export M_SimGraph.
Local Open Scope string_scope.
Local Open Scope list_scope.

(** ** Rust's standard library *)

(** [str::split] at a character *)
Fixpoint split_on (c : ascii) (s : string) : list string :=
  match s with
  | EmptyString => [EmptyString]
  | String a s' =>
      if Ascii.eqb a c then EmptyString :: split_on c s'
      else match split_on c s' with
           | x :: l => String a x :: l
           | [] => []
           end
  end.
Definition newline : ascii := "010"%char.
Definition carriage_return : ascii := "013"%char.
(** a carriage return at the end of a line is dropped *)
Fixpoint strip_cr (s : string) : string :=
  match s with
  | EmptyString => EmptyString
  | String a EmptyString => if Ascii.eqb a carriage_return then EmptyString else s
  | String a s' => String a (strip_cr s')
  end.
(** [str::lines] *)
Definition lines (s : string) : list string :=
  map strip_cr (match rev (split_on newline s) with
                | EmptyString :: l => rev l
                | l => rev l
                end).
(** digits, of which there must be at least one *)
Definition parse_digits (s : string) : res N :=
  match s with
  | EmptyString => Panic
  | _ => u <- unwrap (NilEmpty.uint_of_string s) ;; Ok (N.of_uint u)
  end.
(** [parse::<usize>] *)
Definition parse_usize (s : string) : res N :=
  v <- parse_digits (match s with String "+" s' => s' | _ => s end) ;;
  assert (v <? 2 ^ 64)%N (Ok v).
(** [parse::<i32>] *)
Definition parse_i32 (s : string) : res Z :=
  match s with
  | String "-" s' => v <- parse_digits s' ;; assert (v <=? 2 ^ 31)%N (Ok (- Z.of_N v)%Z)
  | String "+" s' => v <- parse_digits s' ;; assert (v <? 2 ^ 31)%N (Ok (Z.of_N v))
  | _ => v <- parse_digits s ;; assert (v <? 2 ^ 31)%N (Ok (Z.of_N v))
  end.
(** an integer in a format string *)
Definition print_nat (n : nat) : string := NilZero.string_of_uint (N.to_uint (N.of_nat n)).

(** ** graph.rs *)

(** l.77-99: [get_edge_from_as_rel_line] *)
Definition get_edge_from_as_rel_line (line : string) : res (option (N * N * bool)) :=
  match line with
  | EmptyString => Ok None
  | String "#" _ => Ok None
  | _ =>
      let parts := split_on "|" line in
      sink <- (p <- unwrap (nth_error parts 0) ;; parse_usize p) ;;
      source <- (p <- unwrap (nth_error parts 1) ;; parse_usize p) ;;
      kind <- (p <- unwrap (nth_error parts 2) ;; parse_i32 p) ;;
      peering <- (if Z.eqb kind (-1) then Ok false else if Z.eqb kind 0 then Ok true else Panic) ;;
      Ok (Some (sink, source, peering))
  end.

(** l.31-37: one edge; ids are [usize], so [max + 1] overflows for the largest; memory is not bounded *)
Definition add_edge (outlinks : list bset) (edge : N * N * bool) : res (list bset) :=
  let '(sink, source, peering) := edge in
  assert (N.max sink source + 1 <? 2 ^ 64)%N
   (let sink := N.to_nat sink in
    let source := N.to_nat source in
    let size := Nat.max (List.length outlinks) (Nat.max sink source + 1) in
    let outlinks := outlinks ++ repeat bempty (size - List.length outlinks) in
    outlinks <- modify source (insert sink) outlinks ;;
    if peering : bool then modify sink (insert source) outlinks else Ok outlinks).
(** l.24-44: [from_as_rel_string] *)
Definition from_as_rel_string (as_rel_file_contents : string) : res graph :=
  outlinks <- foldM (fun outlinks line =>
                       edge <- get_edge_from_as_rel_line line ;;
                       match edge with
                       | Some edge => add_edge outlinks edge
                       | None => Ok outlinks
                       end) [] (lines as_rel_file_contents) ;;
  Ok (map elements outlinks).

(** l.63-70: the text for one link *)
Definition as_rel_line (g : graph) (i j : nat) : res string :=
  cons_j <- unwrap (nth_error g j) ;;
  let is_undirected := existsb (Nat.eqb i) cons_j in
  Ok (if is_undirected && (i <? j)%nat then print_nat i ++ "|" ++ print_nat j ++ "|0" ++ String newline EmptyString
      else if negb is_undirected then print_nat i ++ "|" ++ print_nat j ++ "|-1" ++ String newline EmptyString
      else EmptyString)%string.
(** l.57-74: [to_as_rel_string] *)
Definition to_as_rel_string (g : graph) (head_comment : option string) : res string :=
  let head := match head_comment with
              | Some c => ("# " ++ c ++ String newline EmptyString)%string
              | None => EmptyString
              end in
  foldM (fun text '(i, outlinks) =>
           foldM (fun text j => line <- as_rel_line g i j ;; Ok (text ++ line)%string) text outlinks)
        head (enumerate g).
