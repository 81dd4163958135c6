(** Model of /repo/src/io/{core_types,groupings}.rs and of [to_standard_form]
    (/repo/src/analysis/preprocessing.rs). No proofs here.
    Texts are byte strings (UTF-8). JSON is modelled as a syntax tree: the conversion between text
    and tree (serde_json's parser and printer) is modelled in M_JsonText. Floating point literals are
    opaque. [JIgnorable] is a value that serde_json refuses to read but is able to skip (with unpaired
    surrogates). *)
From Coq Require Import ZArith Ascii DecimalString DecimalNat.
From Verif Require Export M_Groupings.
Local Open Scope string_scope.
Local Open Scope list_scope.

Inductive json :=
| JNull
| JBool (b : bool)
| JInt (z : Z)
| JFloat
| JStr (s : string)
| JArr (l : list json)
| JObj (fields : list (string * json))
| JIgnorable.

(** core_types.rs l.17-24: [RawQuorumSet]; [threshold] is a [u64], identified with [usize] *)
Inductive raw_qset := RQ (threshold : nat) (validators : list public_key) (inner_quorum_sets : list raw_qset).
(** derived [Default] (l.17) *)
Definition raw_qset_default : raw_qset := RQ 0 [] [].
(** core_types.rs l.6-16, 25-29: [RawNode]; [raw_geo_data] is the content of [RawGeoData] *)
Record raw_node := mk_raw_node {
  raw_public_key : public_key;
  raw_quorum_set : raw_qset;
  raw_isp : option string;
  raw_geo_data : option (option string) }.
(** groupings.rs l.5-9: [RawGrouping] *)
Record raw_grouping := mk_raw_grouping { rg_name : string; rg_validators : list public_key }.

(** ** derived [Deserialize]; an error ends in [expect] (core_types.rs l.32-34), so it is a panic *)

(** [mapM] in a form that allows nested recursion *)
Section MapM.
Context {A B : Type} (g : A -> res B).
Fixpoint read_all (l : list A) : res (list B) :=
  match l with
  | [] => Ok []
  | a :: l' => b <- g a ;; r <- read_all l' ;; Ok (b :: r)
  end.
End MapM.

Definition string_of_json (j : json) : res string := match j with JStr s => Ok s | _ => Panic end.
Definition strings_of_json (j : json) : res (list string) :=
  match j with JArr l => read_all string_of_json l | _ => Panic end.
Definition u64_of_json (j : json) : res nat :=
  match j with JInt z => if ((0 <=? z) && (z <? 2 ^ 64))%Z then Ok (Z.to_nat z) else Panic | _ => Panic end.
Definition option_of_json {A} (g : json -> res A) (j : json) : res (option A) :=
  match j with JNull => Ok None | _ => res_map Some (g j) end.

(** a field that occurs for the first time; a second occurrence is an error *)
Definition set_field {A} (old : option A) (new : res A) : res (option A) :=
  match old with None => res_map Some new | Some _ => Panic end.

(** [RawQuorumSet] from an object (fields in any order, unknown ones ignored, [innerQuorumSets]
    optional) or from an array of the fields in the order of declaration *)
Fixpoint raw_qset_of_json (j : json) : res raw_qset :=
  match j with
  | JObj fields =>
      (fix go (fields : list (string * json)) (t : option nat) (vs : option (list string)) (is_ : option (list raw_qset)) : res raw_qset :=
         match fields with
         | [] => t' <- unwrap t ;; vs' <- unwrap vs ;;
                 Ok (RQ t' vs' (match is_ with Some is' => is' | None => [] end))
         | (k, v) :: fields' =>
             if String.eqb k "threshold" then t' <- set_field t (u64_of_json v) ;; go fields' t' vs is_
             else if String.eqb k "validators" then vs' <- set_field vs (strings_of_json v) ;; go fields' t vs' is_
             else if String.eqb k "innerQuorumSets" then
               is' <- set_field is_ (match v with JArr l => read_all raw_qset_of_json l | _ => Panic end) ;; go fields' t vs is'
             else go fields' t vs is_
         end) fields None None None
  | JArr [t; vs] => t' <- u64_of_json t ;; vs' <- strings_of_json vs ;; Ok (RQ t' vs' [])
  | JArr [t; vs; is_] =>
      t' <- u64_of_json t ;; vs' <- strings_of_json vs ;;
      is' <- (match is_ with JArr l => read_all raw_qset_of_json l | _ => Panic end) ;; Ok (RQ t' vs' is')
  | _ => Panic
  end.

(** [RawGeoData] *)
Fixpoint raw_geo_fields (fields : list (string * json)) (c : option (option string)) : res (option string) :=
  match fields with
  | [] => Ok (match c with Some c' => c' | None => None end)
  | (k, v) :: fields' =>
      if String.eqb k "countryName" then c' <- set_field c (option_of_json string_of_json v) ;; raw_geo_fields fields' c'
      else raw_geo_fields fields' c
  end.
Definition raw_geo_of_json (j : json) : res (option string) :=
  match j with
  | JObj fields => raw_geo_fields fields None
  | JArr [c] => option_of_json string_of_json c
  | _ => Panic
  end.

(** [RawNode] *)
Fixpoint raw_node_fields (fields : list (string * json)) (pk : option string) (q : option raw_qset)
    (isp : option (option string)) (geo : option (option (option string))) : res raw_node :=
  match fields with
  | [] =>
      pk' <- unwrap pk ;;
      Ok (mk_raw_node pk' (match q with Some q' => q' | None => raw_qset_default end)
            (match isp with Some i => i | None => None end) (match geo with Some g => g | None => None end))
  | (k, v) :: fields' =>
      if String.eqb k "publicKey" then pk' <- set_field pk (string_of_json v) ;; raw_node_fields fields' pk' q isp geo
      else if String.eqb k "quorumSet" then q' <- set_field q (raw_qset_of_json v) ;; raw_node_fields fields' pk q' isp geo
      else if String.eqb k "isp" then i' <- set_field isp (option_of_json string_of_json v) ;; raw_node_fields fields' pk q i' geo
      else if String.eqb k "geoData" then g' <- set_field geo (option_of_json raw_geo_of_json v) ;; raw_node_fields fields' pk q isp g'
      else raw_node_fields fields' pk q isp geo
  end.
Definition raw_node_of_json (j : json) : res raw_node :=
  match j with
  | JObj fields => raw_node_fields fields None None None None
  | JArr [pk; q; isp; geo] =>
      pk' <- string_of_json pk ;; q' <- raw_qset_of_json q ;; i' <- option_of_json string_of_json isp ;;
      g' <- option_of_json raw_geo_of_json geo ;; Ok (mk_raw_node pk' q' i' g')
  | _ => Panic
  end.
(** l.4-5: [RawFbas] *)
Definition raw_fbas_of_json (j : json) : res (list raw_node) :=
  match j with JArr l => read_all raw_node_of_json l | _ => Panic end.

(** groupings.rs l.3-9: [RawGroupings], [RawGrouping] *)
Fixpoint raw_grouping_fields (fields : list (string * json)) (name : option string) (vs : option (list string)) : res raw_grouping :=
  match fields with
  | [] => name' <- unwrap name ;; vs' <- unwrap vs ;; Ok (mk_raw_grouping name' vs')
  | (k, v) :: fields' =>
      if String.eqb k "name" then n' <- set_field name (string_of_json v) ;; raw_grouping_fields fields' n' vs
      else if String.eqb k "validators" then vs' <- set_field vs (strings_of_json v) ;; raw_grouping_fields fields' name vs'
      else raw_grouping_fields fields' name vs
  end.
Definition raw_grouping_of_json (j : json) : res raw_grouping :=
  match j with
  | JObj fields => raw_grouping_fields fields None None
  | JArr [name; vs] => n' <- string_of_json name ;; vs' <- strings_of_json vs ;; Ok (mk_raw_grouping n' vs')
  | _ => Panic
  end.
Definition raw_groupings_of_json (j : json) : res (list raw_grouping) :=
  match j with JArr l => read_all raw_grouping_of_json l | _ => Panic end.

(** ** derived [Serialize] *)
Fixpoint json_of_raw_qset (q : raw_qset) : json :=
  let 'RQ t vs is_ := q in
  JObj ([("threshold", JInt (Z.of_nat t)); ("validators", JArr (map JStr vs))] ++
        (match is_ with [] => [] | _ => [("innerQuorumSets", JArr (map json_of_raw_qset is_))] end)).
Definition json_of_option (s : option string) : json := match s with Some s' => JStr s' | None => JNull end.
Definition json_of_raw_node (n : raw_node) : json :=
  JObj ([("publicKey", JStr (raw_public_key n)); ("quorumSet", json_of_raw_qset (raw_quorum_set n))] ++
        (match raw_isp n with Some i => [("isp", JStr i)] | None => [] end) ++
        (match raw_geo_data n with Some c => [("geoData", JObj [("countryName", json_of_option c)])] | None => [] end)).
Definition json_of_raw_fbas (l : list raw_node) : json := JArr (map json_of_raw_node l).
Definition json_of_raw_grouping (g : raw_grouping) : json :=
  JObj [("name", JStr (rg_name g)); ("validators", JArr (map JStr (rg_validators g)))].
Definition json_of_raw_groupings (l : list raw_grouping) : json := JArr (map json_of_raw_grouping l).

(** ** core_types.rs *)

(** l.106-127: [QuorumSet::from_raw] *)
Fixpoint qset_from_raw (q : raw_qset) (m : list (public_key * nat)) : qset :=
  let 'RQ t vs is_ := q in
  QS t (sort_by Nat.compare (filter_map (fun x => assoc String.eqb x m) vs))
       (sort_by qset_compare (map (fun i => qset_from_raw i m) is_)).
(** l.90-95: [Node::from_raw] *)
Definition node_from_raw (m : list (public_key * nat)) (n : raw_node) : node :=
  mk_node (raw_public_key n) (qset_from_raw (raw_quorum_set n) m).
(** l.47-62: [Fbas::from_raw]. Collecting into a map: the last occurrence of a key counts, so later
    pairs come first in the association list. *)
Definition fbas_from_raw (l : list raw_node) : fbas :=
  let m := rev (map (fun p => (raw_public_key (snd p), fst p)) (enumerate l)) in
  mk_fbas (map (node_from_raw m) l) m.

(** l.128-150: [QuorumSet::to_raw] *)
Definition key_or_missing (f : fbas) (v : nat) : public_key :=
  match nth_error (nodes f) v with
  | Some n => node_pk n
  | None => String.append "missing #" (NilZero.string_of_uint (Nat.to_uint v))
  end.
Fixpoint qset_to_raw (q : qset) (f : fbas) : raw_qset :=
  let 'QS t vs is_ := q in RQ t (map (key_or_missing f) vs) (map (fun i => qset_to_raw i f) is_).
(** l.96-103: [Node::to_raw] *)
Definition node_to_raw (f : fbas) (n : node) : raw_node := mk_raw_node (node_pk n) (qset_to_raw (node_qset n) f) None None.
(** l.63-65: [Fbas::to_raw] *)
Definition fbas_to_raw (f : fbas) : list raw_node := map (node_to_raw f) (nodes f).

(** l.32-34, 80-88: [from_json_str]; l.41-43, 72-79: [to_json_string] *)
Definition fbas_from_json (j : json) : res fbas := res_map fbas_from_raw (raw_fbas_of_json j).
Definition fbas_to_json (f : fbas) : json := json_of_raw_fbas (fbas_to_raw f).

(** ** preprocessing.rs l.36-43: [to_standard_form] *)

(** byte-wise order of strings ([Ord for str]) *)
Definition string_compare (a b : string) : comparison :=
  lex_compare Nat.compare (map nat_of_ascii (list_ascii_of_string a)) (map nat_of_ascii (list_ascii_of_string b)).
Definition to_standard_form (E : ext) (f : fbas) : res fbas :=
  r <- shrunken f (relevant_nodes E f) ;;
  Ok (fbas_from_raw (sort_by (fun a b => string_compare (raw_public_key a) (raw_public_key b)) (fbas_to_raw (fst r)))).

(** ** groupings.rs *)

(** l.74-84: [Grouping::from_raw] *)
Definition grouping_from_raw (m : list (public_key * nat)) (g : raw_grouping) : grouping :=
  mk_grouping (rg_name g) (filter_map (fun pk => assoc String.eqb pk m) (rg_validators g)).
(** l.47-55: [Groupings::from_raw] *)
Definition groupings_from_raw (l : list raw_grouping) (f : fbas) : res groupings :=
  groupings_new (map (grouping_from_raw (pk_to_id f)) l) f.
(** l.85-94: [Grouping::to_raw]; indexing panics *)
Definition grouping_to_raw (f : fbas) (g : grouping) : res raw_grouping :=
  vs <- mapM (fun x => res_map node_pk (unwrap (nth_error (nodes f) x))) (g_validators g) ;;
  Ok (mk_raw_grouping (g_name g) vs).
(** l.56-63: [Groupings::to_raw] *)
Definition groupings_to_raw (g : groupings) : res (list raw_grouping) := mapM (grouping_to_raw (g_fbas g)) (g_groupings g).

(** l.11-22: [Groupings::from_json_str], [organizations_from_json_str]; l.65-72: [Serialize] *)
Definition groupings_from_json (j : json) (f : fbas) : res groupings := l <- raw_groupings_of_json j ;; groupings_from_raw l f.
Definition groupings_to_json (g : groupings) : res json := res_map json_of_raw_groupings (groupings_to_raw g).

(** l.168-174: [remove_special_chars_from_grouping_name]. [split_off] panics if the name without
    commas is empty (the index underflows) or the index is inside of a multi-byte character. *)
Definition is_continuation_byte (c : ascii) : bool := ((128 <=? nat_of_ascii c) && (nat_of_ascii c <? 192))%nat.
Definition comma : ascii := ","%char.
Definition full_stop : ascii := "."%char.
Definition remove_special_chars (name : string) : res string :=
  let bytes := filter (fun c => negb (Ascii.eqb c comma)) (list_ascii_of_string name) in
  match rev bytes with
  | [] => Panic
  | last :: before_rev =>
      if is_continuation_byte last && negb (List.length bytes =? 1)%nat then Panic
      else Ok (string_of_list_ascii (rev before_rev ++ filter (fun c => negb (Ascii.eqb c full_stop)) [last]))
  end.

(** l.102-114 and l.135-149: the loops filling the hash map from labels to public keys. [get_mut] and
    [insert] are updates in place; new keys are added at the end. *)
Fixpoint push_to (name : string) (pk : public_key) (m : list (string * list public_key)) : list (string * list public_key) :=
  match m with
  | [] => [(name, [pk])]
  | (n, pks) :: m' => if String.eqb name n then (n, pks ++ [pk]) :: m' else (n, pks) :: push_to name pk m'
  end.
Fixpoint collect_labels (label : raw_node -> option string) (l : list raw_node) (m : list (string * list public_key))
  : res (list (string * list public_key)) :=
  match l with
  | [] => Ok m
  | n :: l' =>
      match label n with
      | Some name => c <- remove_special_chars name ;; collect_labels label l' (push_to c (raw_public_key n) m)
      | None => collect_labels label l' m
      end
  end.
(** l.115-129 and l.150-164: groups in the order of names *)
Definition groupings_of_labels (label : raw_node -> option string) (l : list raw_node) : res (list raw_grouping) :=
  m <- collect_labels label l [] ;;
  Ok (filter_map (fun name => option_map (mk_raw_grouping name) (assoc String.eqb name m)) (sort_by string_compare (map fst m))).
(** l.98-130: [isps_from_raw_nodes] *)
Definition isps_from_raw_nodes (l : list raw_node) : res (list raw_grouping) := groupings_of_labels raw_isp l.
(** l.131-165: [countries_from_raw_nodes] *)
Definition country (n : raw_node) : option string := match raw_geo_data n with Some c => c | None => None end.
Definition countries_from_raw_nodes (l : list raw_node) : res (list raw_grouping) := groupings_of_labels country l.
(** l.23-28 and 29-34: [isps_from_json_str], [countries_from_json_str] *)
Definition isps_from_json (j : json) (f : fbas) : res groupings :=
  l <- raw_fbas_of_json j ;; r <- isps_from_raw_nodes l ;; groupings_from_raw r f.
Definition countries_from_json (j : json) (f : fbas) : res groupings :=
  l <- raw_fbas_of_json j ;; r <- countries_from_raw_nodes l ;; groupings_from_raw r f.
