(** Texts of floating point numbers: ryu 1 ([Buffer::format], used by serde_json 1 and csv 1.1 for every [f64] that
    /repo/src/bin/fbas_analyzer.rs l.399-421, /repo/src/bin/bulk_fbas_analyzer.rs l.355-372 and
    /repo/src/bin/bulk_performance_experiment.rs l.249-266 write) and [str::parse::<f64>] (used by csv 1.1 for every [f64] that is read).
    Neither library is part of /repo: both are modelled by what they are documented to do, ryu as a search for the shortest decimal that is
    read as the same number. No proofs here. *)
From Coq Require Import ZArith Ascii String.
From Flocq Require Import IEEE754.BinarySingleNaN.
From Verif Require Export M_CliText.
Local Open Scope string_scope.
Local Open Scope list_scope.
Local Open Scope Z_scope.

(** ** decimals as floating point numbers: [d * 10 ^ k] rounded to the nearest, ties to even *)
Definition ratio (negative : bool) (a b : positive) : f64 :=
  SF2B _ (proj1 (Bdiv_correct_aux 53 1024 prec_ok emax_ok mode_NE negative a 0 false b 0)).
Definition pow10 (k : Z) : positive := Z.to_pos (10 ^ k).
Definition f64_of_decimal (negative : bool) (d : N) (k : Z) : f64 :=
  match d with
  | N0 => @B754_zero 53 1024 negative
  | Npos p => ratio negative (p * pow10 (Z.max k 0)) (pow10 (Z.max (- k) 0))
  end.
Definition same_f64 (x y : f64) : bool :=
  match x, y with
  | B754_zero s, B754_zero s' | B754_infinity s, B754_infinity s' => Bool.eqb s s'
  | B754_nan, B754_nan => true
  | B754_finite s m e _, B754_finite s' m' e' _ => Bool.eqb s s' && Pos.eqb m m' && Z.eqb e e'
  | _, _ => false
  end.

(** ** the shortest decimal that is read as the number, of these the nearest, of these the even one *)
(** [m * 2 ^ e / 10 ^ k] as a fraction *)
Definition scaled (m : positive) (e k : Z) : Z * Z :=
  (Zpos m * 2 ^ Z.max e 0 * 10 ^ Z.max (- k) 0, 2 ^ Z.max (- e) 0 * 10 ^ Z.max k 0).
(** the largest [k] with [10 ^ k <= m * 2 ^ e] *)
Definition decimal_exponent (m : positive) (e : Z) : Z :=
  match find (fun k => let '(a, b) := scaled m e k in b <=? a) (map (fun i => 310 - Z.of_nat i) (seq 0 650)) with Some k => k | None => 0 end.
(** the decimals next to the number with the given last place *)
Definition neighbours (m : positive) (e k : Z) : list N :=
  let '(a, b) := scaled m e k in
  let q := a / b in
  let upper_first := match 2 * (a mod b) ?= b with Lt => false | Gt => true | Eq => Z.odd q end in
  map Z.to_N (if upper_first then [q + 1; q] else [q; q + 1]).
Definition with_digits (negative : bool) (m : positive) (e : Z) (x : f64) (n : nat) : option (N * Z) :=
  let k := decimal_exponent m e - Z.of_nat n + 1 in
  option_map (fun d => (d, k)) (find (fun d => same_f64 (f64_of_decimal negative d k) x) (neighbours m e k)).
Fixpoint first_some {A B} (g : A -> option B) (l : list A) : option B :=
  match l with [] => None | a :: l' => match g a with Some b => Some b | None => first_some g l' end end.
Fixpoint strip_zeros (fuel : nat) (d : N) (k : Z) : N * Z :=
  match fuel with
  | O => (d, k)
  | S fuel' => if ((0 <? d) && (d mod 10 =? 0))%N then strip_zeros fuel' (d / 10)%N (k + 1) else (d, k)
  end.
Definition shortest (negative : bool) (m : positive) (e : Z) (x : f64) : option (N * Z) :=
  option_map (fun p => strip_zeros 18 (fst p) (snd p)) (first_some (with_digits negative m e x) (seq 1 17)).

(** ** ryu's layout *)
Definition decimal_text (d : N) (k : Z) : list ascii :=
  let digits := print_N d in
  let length := Z.of_nat (List.length digits) in
  let point := length + k in
  if (0 <=? k) && (point <=? 16) then digits ++ repeat "0"%char (Z.to_nat k) ++ bytes ".0"
  else if (0 <? point) && (point <=? 16) then firstn (Z.to_nat point) digits ++ bytes "." ++ skipn (Z.to_nat point) digits
  else if (-5 <? point) && (point <=? 0) then bytes "0." ++ repeat "0"%char (Z.to_nat (- point)) ++ digits
  else if length =? 1 then digits ++ bytes "e" ++ print_Z (point - 1)
  else firstn 1 digits ++ bytes "." ++ skipn 1 digits ++ bytes "e" ++ print_Z (point - 1).
Definition finite_text (x : f64) : list ascii :=
  match x with
  | B754_zero s => bytes (if s then "-0.0" else "0.0")
  | B754_finite s m e _ =>
      match shortest s m e x with Some (d, k) => bytes (if s then "-" else "") ++ decimal_text d k | None => [] end
  | _ => []
  end.
(** [Buffer::format] *)
Definition ryu_text (x : f64) : list ascii :=
  match x with
  | B754_nan => bytes "NaN"
  | B754_infinity s => bytes (if s then "-inf" else "inf")
  | _ => finite_text x
  end.
(** [serde_json]: numbers that are not finite become [null] *)
Definition json_float_text (x : f64) : list ascii := if @is_finite 53 1024 x then finite_text x else bytes "null".

(** ** [str::parse::<f64>] *)
Definition lower (c : ascii) : ascii := if byte_range "A" "Z" c then ascii_of_N (N_of_ascii c + 32) else c.
Definition take_sign (s : list ascii) : bool * list ascii :=
  match s with
  | c :: s' => if Ascii.eqb c "-" then (true, s') else if Ascii.eqb c "+" then (false, s') else (false, s)
  | [] => (false, [])
  end.
Definition signed (negative : bool) (n : N) : Z := if negative then - Z.of_N n else Z.of_N n.
Definition parse_exponent (s : list ascii) : option Z :=
  match s with
  | [] => Some 0
  | c :: s' =>
      if Ascii.eqb (lower c) "e" then
        let '(negative, t) := take_sign s' in
        let '(ds, r) := span_digits t in
        match ds, r with _ :: _, [] => Some (signed negative (value_of_digits ds)) | _, _ => None end
      else None
  end.
(** digits and the exponent of the last one *)
Definition parse_decimal (s : list ascii) : option (N * Z) :=
  let '(whole, r) := span_digits s in
  let '(fraction, r') := match r with c :: r1 => if Ascii.eqb c "." then span_digits r1 else ([], r) | [] => ([], r) end in
  match whole ++ fraction with
  | [] => None
  | ds => option_map (fun k => (value_of_digits ds, k - Z.of_nat (List.length fraction))) (parse_exponent r')
  end.
Definition parse_f64 (s : list ascii) : option f64 :=
  let '(negative, t) := take_sign s in
  let word := string_of_list_ascii (map lower t) in
  if String.eqb word "inf" || String.eqb word "infinity" then Some (@B754_infinity 53 1024 negative)
  else if String.eqb word "nan" then Some (@B754_nan 53 1024)
  else option_map (fun p => f64_of_decimal negative (fst p) (snd p)) (parse_decimal t).
