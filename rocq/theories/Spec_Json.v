(** What JSON documents mean: quorum sets, nodes and groups. Shares only the data types with the model. *)
From Coq Require Import ZArith.
From Verif Require Export Spec_IO.
Local Open Scope string_scope.
Local Open Scope list_scope.

(** the values of all fields named [k] *)
Definition values_of (k : string) (fields : list (string * json)) : list json := map snd (filter (fun e => String.eqb (fst e) k) fields).
(** a field that occurs exactly once, and a field that may be missing *)
Definition required {A} (P : json -> A -> Prop) (k : string) (fields : list (string * json)) (a : A) : Prop :=
  exists v, values_of k fields = [v] /\ P v a.
Definition optional {A} (P : json -> A -> Prop) (default : A) (k : string) (fields : list (string * json)) (a : A) : Prop :=
  (values_of k fields = [] /\ a = default) \/ required P k fields a.
(** a value or [null] *)
Definition nullable {A} (P : json -> A -> Prop) (j : json) (o : option A) : Prop :=
  match o with Some a => j <> JNull /\ P j a | None => j = JNull end.

Definition means_text (j : json) (s : string) : Prop := j = JStr s.
Definition means_texts (j : json) (l : list string) : Prop := j = JArr (map JStr l).
Definition means_number (j : json) (n : nat) : Prop := j = JInt (Z.of_nat n) /\ (Z.of_nat n < 2 ^ 64)%Z.

(** structures are objects or arrays of their fields *)
Inductive means_qset : json -> raw_qset -> Prop :=
| means_leaf fields t vs :
    required means_number "threshold" fields t -> required means_texts "validators" fields vs -> values_of "innerQuorumSets" fields = [] ->
    means_qset (JObj fields) (RQ t vs [])
| means_nested fields t vs l is_ :
    required means_number "threshold" fields t -> required means_texts "validators" fields vs -> values_of "innerQuorumSets" fields = [JArr l] ->
    Forall2 means_qset l is_ -> means_qset (JObj fields) (RQ t vs is_)
| means_pair jt jvs t vs : means_number jt t -> means_texts jvs vs -> means_qset (JArr [jt; jvs]) (RQ t vs [])
| means_triple jt jvs l t vs is_ : means_number jt t -> means_texts jvs vs -> Forall2 means_qset l is_ ->
    means_qset (JArr [jt; jvs; JArr l]) (RQ t vs is_).
Inductive means_geo : json -> option string -> Prop :=
| geo_object fields c : optional (nullable means_text) None "countryName" fields c -> means_geo (JObj fields) c
| geo_array j c : nullable means_text j c -> means_geo (JArr [j]) c.
Inductive means_node : json -> raw_node -> Prop :=
| node_object fields pk q isp geo :
    required means_text "publicKey" fields pk -> optional means_qset (RQ 0 [] []) "quorumSet" fields q ->
    optional (nullable means_text) None "isp" fields isp -> optional (nullable means_geo) None "geoData" fields geo ->
    means_node (JObj fields) (mk_raw_node pk q isp geo)
| node_array j1 j2 j3 j4 pk q isp geo : means_text j1 pk -> means_qset j2 q -> nullable means_text j3 isp -> nullable means_geo j4 geo ->
    means_node (JArr [j1; j2; j3; j4]) (mk_raw_node pk q isp geo).
Inductive means_group : json -> raw_grouping -> Prop :=
| group_object fields name vs : required means_text "name" fields name -> required means_texts "validators" fields vs ->
    means_group (JObj fields) (mk_raw_grouping name vs)
| group_array j1 j2 name vs : means_text j1 name -> means_texts j2 vs -> means_group (JArr [j1; j2]) (mk_raw_grouping name vs).
Definition means_all {A} (P : json -> A -> Prop) (j : json) (l : list A) : Prop := exists js, j = JArr js /\ Forall2 P js l.
