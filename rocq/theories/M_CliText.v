(** Model of the texts that [fbas_analyzer] reads and prints: /repo/src/io/results.rs l.13-115, the derived [Serialize] of [QuorumSet]
    (/repo/src/core_types/quorum_set.rs l.4-12), [Output] in /repo/src/bin/fbas_analyzer.rs l.349-423. No proofs here.
    How floating point numbers are formatted is a parameter. *)
From Coq Require Import ZArith Ascii.
From Verif Require Export M_JsonText M_Cli.
Local Open Scope string_scope.
Local Open Scope list_scope.

Definition bytes (s : string) : list ascii := list_ascii_of_string s.
Definition json_of_nat (n : nat) : json := JInt (Z.of_nat n).
Definition json_of_nats (l : list nat) : json := JArr (map json_of_nat l).
Definition json_of_names (l : list string) : json := JArr (map JStr l).
Definition unless_empty {A} (k : string) (l : list A) (j : json) : list (string * json) := match l with [] => [] | _ => [(k, j)] end.
(** quorum_set.rs l.4-12 *)
Fixpoint json_of_qset (q : qset) : json :=
  let 'QS t vs is_ := q in
  JObj ([("threshold", json_of_nat t)] ++ unless_empty "validators" vs (json_of_nats vs) ++
        unless_empty "innerQuorumSets" is_ (JArr (map json_of_qset is_))).
(** results.rs l.4-11: [PrettyQuorumSet] *)
Fixpoint json_of_pretty_qset (q : pretty_qset) : json :=
  let 'PQS t vs is_ := q in
  JObj ([("threshold", json_of_nat t); ("validators", json_of_names vs)] ++
        unless_empty "innerQuorumSets" is_ (JArr (map json_of_pretty_qset is_))).

Section Print.
(** serde_json's text of an [f64] *)
Variable float_text : f64 -> list ascii.
(** what was measured for a result, as text *)
Variable duration_text : string -> list ascii.

Definition nat_text (n : nat) : list ascii := print_N (N.of_nat n).
Definition array_text (l : list (list ascii)) : list ascii := bytes "[" ++ join (bytes ",") l ++ bytes "]".
(** results.rs l.24-115: [into_id_string], [into_pretty_string], [into_describe_string] *)
Definition value_text (v : M_Cli.value) : list ascii :=
  match v with
  | VBool b => bytes (if b then "true" else "false")
  | VNat n => nat_text n
  | VIds ids => print_json (json_of_nats ids)
  | VNames names => print_json (json_of_names names)
  | VIdLists l => print_json (JArr (map json_of_nats l))
  | VNameLists l => print_json (JArr (map json_of_names l))
  | VQsets l => print_json (JArr (map json_of_qset l))
  | VPrettyQsets l => print_pretty 0 (JArr (map json_of_pretty_qset l))
  | VStatistics number distinct (mn, mx, mean) histogram =>
      array_text [nat_text number; nat_text distinct; array_text [nat_text mn; nat_text mx; float_text mean]; array_text (map nat_text histogram)]
  end.
Definition new_line_text : list ascii := bytes line_break.
(** fbas_analyzer.rs l.366-377, 385-423: one [println!] each *)
Definition item_text (i : item) : list ascii :=
  match i with
  | Message texts => flat_map (fun t => match t with inl s => bytes s | inr n => nat_text n end) texts ++ new_line_text
  | Line name v => bytes name ++ bytes ": " ++ value_text v ++ new_line_text
  | Duration name => bytes name ++ bytes "_analysis_duration: " ++ duration_text name ++ bytes "s" ++ new_line_text
  end.
Definition output_text (items : list item) : list ascii := flat_map item_text items.

Variable E : ext.
(** see [M_JsonText.v] *)
Variable minus_zero : bool.
(** the contents of files and of the standard input *)
Variable files : path -> option (list ascii).
Variable stdin : option (list ascii).
(** a text that is not JSON ends the program like a file that cannot be read *)
Definition tree_of (o : option (list ascii)) : option json :=
  match o with Some s => match read_json minus_zero s with Ok j => Some j | Panic => None end | None => None end.
(** l.76-123: [main], with texts. Too deep nesting ends the program when the nodes are read, l.125-135. *)
Definition cli_output (args : cli) : res (list ascii) :=
  nodes <- unwrap (match cli_nodes_path args with Some p => files p | None => stdin end) ;;
  _ <- raw_nodes_from_text minus_zero nodes ;;
  items <- cli_main E (fun p => tree_of (files p)) (tree_of stdin) args ;;
  Ok (output_text items).
End Print.
