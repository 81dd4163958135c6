(** Specification of reading and writing. Shares only the data types with the model. *)
From Coq Require Import Ascii ZArith.
From Verif Require Export M_IO Spec_Groupings Spec_Renumber.
Local Open Scope list_scope.

(** [i] is the last of the listed nodes whose public key is [pk] *)
Definition last_with_key (l : list raw_node) (pk : public_key) (i : nat) : Prop :=
  option_map raw_public_key (nth_error l i) = Some pk /\
  forall j, i < j -> option_map raw_public_key (nth_error l j) <> Some pk.
Definition unique_keys (l : list raw_node) : Prop := NoDup (map raw_public_key l).

(** the ids of the known keys of a list, in the order of the list *)
Inductive known_ids (names : public_key -> nat -> Prop) : list public_key -> list nat -> Prop :=
| known_nil : known_ids names [] []
| known_cons pk i vs ids : names pk i -> known_ids names vs ids -> known_ids names (pk :: vs) (i :: ids)
| known_skip pk vs ids : (forall i, ~ names pk i) -> known_ids names vs ids -> known_ids names (pk :: vs) ids.

(** [q] is what the listed quorum set means: unknown validators are dropped, thresholds are kept *)
Inductive resolves (names : public_key -> nat -> Prop) : raw_qset -> qset -> Prop :=
| resolves_intro t vs is_ ids is1 vs' is' :
    known_ids names vs ids -> Permutation ids vs' -> StronglySorted le vs' ->
    Forall2 (resolves names) is_ is1 -> Permutation is1 is' ->
    resolves names (RQ t vs is_) (QS t vs' is').

(** the same quorum set listed in another order *)
Inductive same_listing : raw_qset -> raw_qset -> Prop :=
| same_listing_intro t vs vs' is_ is1 is' :
    Permutation vs vs' -> Forall2 same_listing is_ is1 -> Permutation is1 is' -> same_listing (RQ t vs is_) (RQ t vs' is').
Definition same_node_listing (a b : raw_node) : Prop :=
  raw_public_key a = raw_public_key b /\ same_listing (raw_quorum_set a) (raw_quorum_set b).

(** node [x] has the public key [pk] *)
Definition has_key (f : fbas) (x : nat) (pk : public_key) : Prop := option_map node_pk (nth_error (nodes f) x) = Some pk.
Definition distinct_keys (f : fbas) : Prop := NoDup (map node_pk (nodes f)).
(** two sets of nodes with the same public keys *)
Definition same_keys (f : fbas) (S : bset) (g : fbas) (S' : bset) : Prop :=
  forall pk, (exists x, mem x S = true /\ has_key f x pk) <-> (exists y, mem y S' = true /\ has_key g y pk).

(** byte-wise order of strings *)
Definition bytes (s : string) : list nat := map nat_of_ascii (list_ascii_of_string s).
Definition string_before (a b : string) : Prop := lex_lt (bytes a) (bytes b).

(** [r] is [name] without commas and without one trailing full stop *)
Inductive without_commas : string -> string -> Prop :=
| wc_nil : without_commas EmptyString EmptyString
| wc_comma s r : without_commas s r -> without_commas (String "," s) r
| wc_other c s r : c <> ","%char -> without_commas s r -> without_commas (String c s) (String c r).
Definition without_full_stop (s r : string) : Prop :=
  s = (r ++ ".")%string \/ (s = r /\ forall r', s <> (r' ++ ".")%string).
Definition cleaned (name r : string) : Prop := exists s, without_commas name s /\ without_full_stop s r.

(** ** JSON *)

(** names of fields with a meaning *)
Definition known_fields : list string :=
  ["threshold"; "validators"; "innerQuorumSets"; "publicKey"; "quorumSet"; "isp"; "geoData"; "countryName"; "name"]%string.
(** [j'] is [j] with the fields of objects in another order and with further fields of unknown names *)
Inductive json_similar : json -> json -> Prop :=
| similar_refl j : json_similar j j
| similar_arr l l' : Forall2 json_similar l l' -> json_similar (JArr l) (JArr l')
| similar_obj fields fields1 extra fields' :
    Forall2 (fun a b => fst a = fst b /\ json_similar (snd a) (snd b)) fields fields1 ->
    (forall k v, In (k, v) extra -> ~ In k known_fields) ->
    Permutation (fields1 ++ extra) fields' ->
    json_similar (JObj fields) (JObj fields').
(** the name of a field occurs twice *)
Definition repeated_field (names : list string) (fields : list (string * json)) : Prop :=
  exists k l1 l2 l3 v v', In k names /\ fields = l1 ++ (k, v) :: l2 ++ (k, v') :: l3.

(** every threshold fits in 64 bits *)
Inductive small_raw : raw_qset -> Prop :=
| small_raw_intro t vs is_ : (Z.of_nat t < 2 ^ 64)%Z -> Forall small_raw is_ -> small_raw (RQ t vs is_).
Definition small_raw_fbas (l : list raw_node) : Prop := forall n, In n l -> small_raw (raw_quorum_set n).
Inductive small_qset : qset -> Prop :=
| small_qset_intro t vs is_ : (Z.of_nat t < 2 ^ 64)%Z -> Forall small_qset is_ -> small_qset (QS t vs is_).
Definition small_fbas (f : fbas) : Prop := forall x q, node_of f x q -> small_qset q.

(** ** groups of nodes with the same label *)
(** the country in the geographic data of a node, if there is one *)
Definition country_name (n : raw_node) : option string := match raw_geo_data n with Some c => c | None => None end.
Definition labelled (label : raw_node -> option string) (name : string) (n : raw_node) : Prop :=
  exists s, label n = Some s /\ cleaned s name.
(** the public keys of the nodes with [P], in the order of the list *)
Inductive keys_of (P : raw_node -> Prop) : list raw_node -> list public_key -> Prop :=
| keys_nil : keys_of P [] []
| keys_in n l pks : P n -> keys_of P l pks -> keys_of P (n :: l) (raw_public_key n :: pks)
| keys_out n l pks : ~ P n -> keys_of P l pks -> keys_of P (n :: l) pks.
(** a name that cleaning cannot process: nothing is left without the commas, or it ends inside of
    a character of more than one byte *)
Definition uncleanable (name : string) : Prop :=
  without_commas name "" \/
  exists s c, without_commas name (s ++ String c "") /\ s <> ""%string /\ 128 <= nat_of_ascii c < 192.

(** [to_standard_form] applied [k] times *)
Inductive standard_after (E : ext) : nat -> fbas -> fbas -> Prop :=
| standard_after_none f : standard_after E 0 f f
| standard_after_step k f s t : to_standard_form E f = Ok s -> standard_after E k s t -> standard_after E (S k) f t.
