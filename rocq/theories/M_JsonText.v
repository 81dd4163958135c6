(** Model of the JSON texts read by [from_json_str] and written by [to_json_string] and [to_json_string_pretty]
    (/repo/src/io/core_types.rs l.31-46, /repo/src/io/groupings.rs l.11-34, /repo/src/io/results.rs l.13-22), that is, of the used
    parts of serde_json 1.0 ([from_str], [to_string], [to_string_pretty]). No proofs here.
    Texts are lists of bytes (UTF-8). /repo has no Cargo.lock: where versions of serde_json differ, this is noted. *)
From Coq Require Import ZArith Ascii.
From Verif Require Export M_IO.
Local Open Scope char_scope.
Local Open Scope list_scope.

Notation text := (list ascii).

Definition quote : ascii := "034".
Definition backslash : ascii := "\".
Definition is_whitespace (c : ascii) : bool := existsb (Ascii.eqb c) [" "; "010"; "009"; "013"].
Fixpoint skip_ws (s : text) : text := match s with c :: s' => if is_whitespace c then skip_ws s' else s | [] => [] end.

(** ** reading *)

(** what a string literal consists of: bytes and escaped code units *)
Inductive part := Byte (c : ascii) | Unit (n : N).

Definition byte_range (a b : ascii) (c : ascii) : bool := (N_of_ascii a <=? N_of_ascii c)%N && (N_of_ascii c <=? N_of_ascii b)%N.
Definition is_digit : ascii -> bool := byte_range "0" "9".
Definition digit_value (c : ascii) : N := (N_of_ascii c - 48)%N.
Definition hex_value (c : ascii) : option N :=
  if is_digit c then Some (digit_value c)
  else if byte_range "a" "f" c then Some (N_of_ascii c - 87)%N
  else if byte_range "A" "F" c then Some (N_of_ascii c - 55)%N
  else None.
Definition hex4 (a b c d : ascii) : option N :=
  match hex_value a, hex_value b, hex_value c, hex_value d with
  | Some w, Some x, Some y, Some z => Some (((w * 16 + x) * 16 + y) * 16 + z)%N
  | _, _, _, _ => None
  end.
Definition short_escape (c : ascii) : option ascii :=
  if Ascii.eqb c quote then Some quote
  else if Ascii.eqb c backslash then Some backslash
  else if Ascii.eqb c "/" then Some "/"
  else if Ascii.eqb c "b" then Some "008"
  else if Ascii.eqb c "f" then Some "012"
  else if Ascii.eqb c "n" then Some "010"
  else if Ascii.eqb c "r" then Some "013"
  else if Ascii.eqb c "t" then Some "009"
  else None.

Definition add_part (p : part) (r : option (list part * text)) : option (list part * text) :=
  match r with Some (ps, s) => Some (p :: ps, s) | None => None end.
(** a string literal after the opening quote; also returns what follows the closing quote *)
Fixpoint read_parts (s : text) : option (list part * text) :=
  match s with
  | [] => None
  | c :: s1 =>
      if Ascii.eqb c quote then Some ([], s1)
      else if Ascii.eqb c backslash then
        match s1 with
        | [] => None
        | e :: s2 =>
            if Ascii.eqb e "u" then
              match s2 with
              | w :: x :: y :: z :: s3 => match hex4 w x y z with Some n => add_part (Unit n) (read_parts s3) | None => None end
              | _ => None
              end
            else match short_escape e with Some b => add_part (Byte b) (read_parts s2) | None => None end
        end
      else if (N_of_ascii c <? 32)%N then None
      else add_part (Byte c) (read_parts s1)
  end.

Definition is_high (n : N) : bool := ((55296 <=? n) && (n <? 56320))%N.
Definition is_low (n : N) : bool := ((56320 <=? n) && (n <? 57344))%N.
(** [char::encode_utf8] *)
Definition utf8 (n : N) : text :=
  map ascii_of_N
    (if n <? 128 then [n]
     else if n <? 2048 then [192 + n / 64; 128 + n mod 64]
     else if n <? 65536 then [224 + n / 4096; 128 + n / 64 mod 64; 128 + n mod 64]
     else [240 + n / 262144; 128 + n / 4096 mod 64; 128 + n / 64 mod 64; 128 + n mod 64])%N.
(** surrogates must come in pairs *)
Fixpoint decode (l : list part) : option text :=
  match l with
  | [] => Some []
  | Byte c :: l' => option_map (cons c) (decode l')
  | Unit n :: l' =>
      if is_high n then
        match l' with
        | Unit m :: l'' =>
            if is_low m then option_map (app (utf8 (65536 + (n - 55296) * 1024 + (m - 56320))%N)) (decode l'') else None
        | _ => None
        end
      else if is_low n then None
      else option_map (app (utf8 n)) (decode l')
  end.

Fixpoint span_digits (s : text) : text * text :=
  match s with
  | c :: s' => if is_digit c then let '(ds, r) := span_digits s' in (c :: ds, r) else ([], s)
  | [] => ([], [])
  end.
Definition value_of_digits (ds : text) : N := fold_left (fun v c => 10 * v + digit_value c)%N ds 0%N.
(** an optional exponent: whether there is one, and what follows *)
Definition read_exponent (s : text) : option (bool * text) :=
  match s with
  | c :: s1 =>
      if Ascii.eqb c "e" || Ascii.eqb c "E" then
        let s2 := match s1 with d :: s2 => if Ascii.eqb d "+" || Ascii.eqb d "-" then s2 else s1 | [] => s1 end in
        let '(ds, r) := span_digits s2 in match ds with [] => None | _ => Some (true, r) end
      else Some (false, s)
  | [] => Some (false, [])
  end.
(** an optional fraction *)
Definition read_fraction (s : text) : option (bool * text) :=
  match s with
  | c :: s1 =>
      if Ascii.eqb c "." then let '(ds, r) := span_digits s1 in match ds with [] => None | _ => Some (true, r) end else Some (false, s)
  | [] => Some (false, [])
  end.
(** the first digit of several may not be 0 *)
Definition leading_zero (ds : text) : bool := match ds with c :: _ :: _ => Ascii.eqb c "0" | _ => false end.
(** Integers beyond 64 bits become floating point numbers in serde_json; as nothing is read as a floating point number, all of them
    are refused alike and it does no harm that they stay integers here. [-0] is an integer or not, depending on the version of serde_json. *)
Definition read_number (minus_zero : bool) (s : text) : option (json * text) :=
  let '(neg, s1) := match s with c :: s' => if Ascii.eqb c "-" then (true, s') else (false, s) | [] => (false, s) end in
  let '(ds, s2) := span_digits s1 in
  match ds with
  | [] => None
  | _ =>
      if leading_zero ds then None
      else match read_fraction s2 with
           | None => None
           | Some (f, s3) =>
               match read_exponent s3 with
               | None => None
               | Some (e, s4) =>
                   Some ((if f || e then JFloat
                          else if neg then (if (value_of_digits ds =? 0)%N && negb minus_zero then JFloat else JInt (- Z.of_N (value_of_digits ds)))
                          else JInt (Z.of_N (value_of_digits ds))), s4)
               end
           end
  end.

(** the rest of a word *)
Fixpoint drop_prefix (p s : text) : option text :=
  match p, s with
  | [], _ => Some s
  | c :: p', d :: s' => if Ascii.eqb c d then drop_prefix p' s' else None
  | _, [] => None
  end.
Definition read_word (word : text) (j : json) (s : text) : option (json * text) := option_map (pair j) (drop_prefix word s).

Definition string_value (o : option text) : json := match o with Some b => JStr (string_of_list_ascii b) | None => JIgnorable end.
(** an object with an undecodable name can only be skipped *)
Fixpoint object_value (l : list (option text * json)) : option (list (string * json)) :=
  match l with
  | [] => Some []
  | (Some k, j) :: l' => option_map (cons (string_of_list_ascii k, j)) (object_value l')
  | (None, _) :: _ => None
  end.
Definition object_of (l : list (option text * json)) : json := match object_value l with Some fs => JObj fs | None => JIgnorable end.

Section Read.
Variable minus_zero : bool.
(** a value, the elements of an array and the members of an object, without whitespace in front *)
Fixpoint read_value (n : nat) (s : text) {struct n} : option (json * text) :=
  match n with
  | 0 => None
  | S n' =>
      match s with
      | [] => None
      | c :: s1 =>
          if Ascii.eqb c quote then match read_parts s1 with Some (ps, r) => Some (string_value (decode ps), r) | None => None end
          else if Ascii.eqb c "[" then
            match skip_ws s1 with
            | [] => None
            | d :: s2 =>
                if Ascii.eqb d "]" then Some (JArr [], s2)
                else match read_elements n' (d :: s2) with Some (l, r) => Some (JArr l, r) | None => None end
            end
          else if Ascii.eqb c "{" then
            match skip_ws s1 with
            | [] => None
            | d :: s2 =>
                if Ascii.eqb d "}" then Some (JObj [], s2)
                else match read_members n' (d :: s2) with Some (l, r) => Some (object_of l, r) | None => None end
            end
          else if Ascii.eqb c "n" then read_word ["u"; "l"; "l"] JNull s1
          else if Ascii.eqb c "t" then read_word ["r"; "u"; "e"] (JBool true) s1
          else if Ascii.eqb c "f" then read_word ["a"; "l"; "s"; "e"] (JBool false) s1
          else read_number minus_zero s
      end
  end
with read_elements (n : nat) (s : text) {struct n} : option (list json * text) :=
  match n with
  | 0 => None
  | S n' =>
      match read_value n' s with
      | None => None
      | Some (j, s1) =>
          match skip_ws s1 with
          | [] => None
          | d :: s2 =>
              if Ascii.eqb d "," then match read_elements n' (skip_ws s2) with Some (l, r) => Some (j :: l, r) | None => None end
              else if Ascii.eqb d "]" then Some ([j], s2)
              else None
          end
      end
  end
with read_members (n : nat) (s : text) {struct n} : option (list (option text * json) * text) :=
  match n with
  | 0 => None
  | S n' =>
      match s with
      | [] => None
      | c :: s0 =>
          if Ascii.eqb c quote then
            match read_parts s0 with
            | None => None
            | Some (ps, s1) =>
                match skip_ws s1 with
                | [] => None
                | d :: s2 =>
                    if Ascii.eqb d ":" then
                      match read_value n' (skip_ws s2) with
                      | None => None
                      | Some (j, s3) =>
                          match skip_ws s3 with
                          | [] => None
                          | d' :: s4 =>
                              if Ascii.eqb d' "," then
                                match read_members n' (skip_ws s4) with Some (l, r) => Some ((decode ps, j) :: l, r) | None => None end
                              else if Ascii.eqb d' "}" then Some ([(decode ps, j)], s4)
                              else None
                          end
                      end
                    else None
                end
            end
          else None
      end
  end.

(** a whole document; nothing but whitespace may follow *)
Definition read_json (s : text) : res json :=
  match read_value (2 * List.length s + 2) (skip_ws s) with
  | Some (j, r) => match skip_ws r with [] => Ok j | _ => Panic end
  | None => Panic
  end.
End Read.

(** the recursion limit: arrays and objects that are read (not skipped) decrease a counter that starts at 128; it may not reach 0 *)
Definition enter (remaining : nat) : option nat := match remaining with S (S r) => Some (S r) | _ => None end.
(** a quorum set is an object (or array) with the array [validators] and possibly an array of inner quorum sets *)
Fixpoint qset_within (remaining : nat) (q : raw_qset) : bool :=
  let 'RQ _ _ is_ := q in
  match enter remaining with
  | None => false
  | Some r1 => match enter r1 with None => false | Some r2 => forallb (qset_within r2) is_ end
  end.
Definition node_within (remaining : nat) (n : raw_node) : bool :=
  match enter remaining with None => false | Some r => qset_within r (raw_quorum_set n) end.
Definition fbas_within (remaining : nat) (l : list raw_node) : bool :=
  match enter remaining with None => false | Some r => forallb (node_within r) l end.
Definition recursion_limit : nat := 128.

(** core_types.rs l.32-34, 80-88: [Fbas::from_json_str]. The other arrays and objects are nested less deeply than quorum sets, the
    limit is not reached in them. *)
Definition raw_nodes_from_text (minus_zero : bool) (s : text) : res (list raw_node) :=
  j <- read_json minus_zero s ;; l <- raw_fbas_of_json j ;; assert (fbas_within recursion_limit l) (Ok l).
Definition fbas_from_text (minus_zero : bool) (s : text) : res fbas := res_map fbas_from_raw (raw_nodes_from_text minus_zero s).
(** groupings.rs l.11-22: [Groupings::from_json_str], [organizations_from_json_str] *)
Definition groupings_from_text (minus_zero : bool) (s : text) (f : fbas) : res groupings := j <- read_json minus_zero s ;; groupings_from_json j f.
(** groupings.rs l.23-34: [isps_from_json_str], [countries_from_json_str] *)
Definition isps_from_text (minus_zero : bool) (s : text) (f : fbas) : res groupings :=
  l <- raw_nodes_from_text minus_zero s ;; r <- isps_from_raw_nodes l ;; groupings_from_raw r f.
Definition countries_from_text (minus_zero : bool) (s : text) (f : fbas) : res groupings :=
  l <- raw_nodes_from_text minus_zero s ;; r <- countries_from_raw_nodes l ;; groupings_from_raw r f.

(** ** writing *)
Definition hex_digit (n : N) : ascii := if (n <? 10)%N then ascii_of_N (48 + n) else ascii_of_N (87 + n).
Definition escape (c : ascii) : text :=
  if Ascii.eqb c quote then [backslash; quote]
  else if Ascii.eqb c backslash then [backslash; backslash]
  else if Ascii.eqb c "008" then [backslash; "b"]
  else if Ascii.eqb c "012" then [backslash; "f"]
  else if Ascii.eqb c "010" then [backslash; "n"]
  else if Ascii.eqb c "013" then [backslash; "r"]
  else if Ascii.eqb c "009" then [backslash; "t"]
  else if (N_of_ascii c <? 32)%N then [backslash; "u"; "0"; "0"; hex_digit (N_of_ascii c / 16); hex_digit (N_of_ascii c mod 16)]
  else [c].
Definition print_string (s : string) : text := quote :: flat_map escape (list_ascii_of_string s) ++ [quote].
(** decimal digits in front of [acc] *)
Fixpoint print_digits (fuel : nat) (n : N) (acc : text) : text :=
  match fuel with
  | 0 => acc
  | S fuel' =>
      let acc' := ascii_of_N (48 + n mod 10) :: acc in
      if (n <? 10)%N then acc' else print_digits fuel' (n / 10) acc'
  end.
Definition print_N (n : N) : text := print_digits (S (N.size_nat n)) n [].
Definition print_Z (z : Z) : text := if (z <? 0)%Z then "-" :: print_N (Z.abs_N z) else print_N (Z.to_N z).

Fixpoint join (sep : text) (l : list text) : text :=
  match l with
  | [] => []
  | [t] => t
  | t :: l' => t ++ sep ++ join sep l'
  end.
(** [serde_json::to_string]. [JFloat] and [JIgnorable] are never written. *)
Fixpoint print_json (j : json) : text :=
  match j with
  | JNull => ["n"; "u"; "l"; "l"]
  | JBool true => ["t"; "r"; "u"; "e"]
  | JBool false => ["f"; "a"; "l"; "s"; "e"]
  | JInt z => print_Z z
  | JStr s => print_string s
  | JArr l => "[" :: join [","] (map print_json l) ++ ["]"]
  | JObj fs => "{" :: join [","] (map (fun e => print_string (fst e) ++ ":" :: print_json (snd e)) fs) ++ ["}"]
  | JFloat | JIgnorable => []
  end.
(** [serde_json::to_string_pretty]: two spaces per level *)
Definition new_line (level : nat) : text := "010" :: repeat " " (2 * level).
Fixpoint print_pretty (level : nat) (j : json) : text :=
  match j with
  | JArr [] => ["["; "]"]
  | JArr l => "[" :: join [","] (map (fun x => new_line (S level) ++ print_pretty (S level) x) l) ++ new_line level ++ ["]"]
  | JObj [] => ["{"; "}"]
  | JObj fs =>
      "{" :: join [","] (map (fun e => new_line (S level) ++ print_string (fst e) ++ ":" :: " " :: print_pretty (S level) (snd e)) fs)
        ++ new_line level ++ ["}"]
  | _ => print_json j
  end.

(** core_types.rs l.41-46: [to_json_string], [to_json_string_pretty] *)
Definition fbas_to_text (f : fbas) : text := print_json (fbas_to_json f).
Definition fbas_to_text_pretty (f : fbas) : text := print_pretty 0 (fbas_to_json f).
