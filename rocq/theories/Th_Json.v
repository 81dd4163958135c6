(** JSON documents: C65. *)
From Coq Require Import ZArith.
From Verif Require Import P_JsonSpec.
Local Open Scope string_scope.
Local Open Scope list_scope.

(** C65 *)
Theorem C65_fbas : forall (j : json) (f : fbas), fbas_from_json j = Ok f <-> exists l, means_all means_node j l /\ f = fbas_from_raw l.
Proof. exact fbas_json_reads. Qed.
Print Assumptions C65_fbas.

Theorem C65_nodes : forall (j : json) (l : list raw_node), raw_fbas_of_json j = Ok l <-> means_all means_node j l.
Proof. exact fbas_reads. Qed.
Print Assumptions C65_nodes.

Theorem C65_groups : forall (j : json) (l : list raw_grouping), raw_groupings_of_json j = Ok l <-> means_all means_group j l.
Proof. exact groups_reads. Qed.
Print Assumptions C65_groups.

Definition qset_fields (t : Z) : list (string * json) :=
  [("validators", JArr [JStr "A"; JStr "B"]); ("hashKey", JNull); ("threshold", JInt t)].
Definition node_fields (t : Z) : list (string * json) :=
  [("isp", JNull); ("quorumSet", JObj (qset_fields t)); ("geoData", JObj [("countryName", JStr "Chad")]); ("publicKey", JStr "A"); ("active", JBool true)].
(** accepted: fields in any order, unknown fields, missing fields, arrays of fields *)
Example C65_example :
  raw_fbas_of_json (JArr [JObj (node_fields 2); JObj [("publicKey", JStr "B")]; JArr [JStr "C"; JArr [JInt 1; JArr []]; JStr "Isp"; JNull]]) =
    Ok [mk_raw_node "A" (RQ 2 ["A"; "B"] []) None (Some (Some "Chad")); mk_raw_node "B" (RQ 0 [] []) None None;
        mk_raw_node "C" (RQ 1 [] []) (Some "Isp") None] /\
  raw_groupings_of_json (JArr [JObj [("validators", JArr [JStr "A"]); ("id", JInt 7); ("name", JStr "Org")]]) = Ok [mk_raw_grouping "Org" ["A"]].
Proof. split; reflexivity. Qed.
(** refused: thresholds that are negative, too large or not integers, missing and repeated fields, a missing list *)
Example C65_refused : forall l,
  ~ means_all means_node (JArr [JObj (node_fields (-1))]) l /\ ~ means_all means_node (JArr [JObj (node_fields (2 ^ 64))]) l /\
  ~ means_all means_node (JArr [JObj [("publicKey", JStr "A"); ("quorumSet", JObj [("threshold", JFloat); ("validators", JArr [])])]]) l /\
  ~ means_all means_node (JArr [JObj [("isp", JStr "Isp")]]) l /\
  ~ means_all means_node (JArr [JObj (node_fields 2 ++ [("publicKey", JStr "A")])]) l /\
  ~ means_all means_node (JObj (node_fields 2)) l.
Proof. intro l. rewrite <- !C65_nodes. repeat split; discriminate. Qed.
