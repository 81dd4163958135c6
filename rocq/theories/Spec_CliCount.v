(** The numbers in the comments of the command line tool [fbas_analyzer]. *)
From Verif Require Export Spec_Cli.
Local Open Scope string_scope.
Local Open Scope list_scope.
Local Open Scope nat_scope.

(** how many nodes or sets of nodes a printed value shows *)
Definition shown_number (v : value) : nat :=
  match v with
  | VIds l => List.length l
  | VNames l => List.length l
  | VIdLists l => List.length l
  | VNameLists l => List.length l
  | VStatistics number _ _ _ => number
  | _ => 0
  end.
(** nodes are merged by country, ISP or organization *)
Definition merges (args : cli) : Prop :=
  cli_ctry_merge args = true \/ cli_isp_merge args = true \/ cli_organizations_path args <> None.
(** the comment after the line with this name, up to the number and after it *)
Inductive announced : string -> string -> Prop :=
| announced_quorums : announced "minimal_quorums" " minimal quorums."
| announced_blocking : announced "minimal_blocking_sets" (" minimal blocking sets (minimal indispensable sets for global liveness). " ++
    "Control over any of these sets is sufficient to compromise the liveness of all nodes and to censor future transactions.")
| announced_splitting : announced "minimal_splitting_sets" (" minimal splitting sets (minimal indispensable sets for safety). " ++
    "Control over any of these sets is sufficient to compromise safety by undermining the quorum intersection of at least two quorums.").
(** what is said about quorum intersection *)
Definition verdict (b : bool) : string :=
  line_break ++ if b then "All quorums intersect 👍" ++ line_break
                else "Some quorums don't intersect 👎 Safety severely threatened for some nodes!" ++ line_break ++
                     "(Also, the remaining results here might not make much sense.)" ++ line_break.
