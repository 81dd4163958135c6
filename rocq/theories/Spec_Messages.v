(** Specification of the messages on the standard error output, stated without the model's functions for messages. *)
From Coq Require Import Ascii.
From Verif Require Export Spec_Bins Spec_CliText M_Messages.
Local Open Scope string_scope.
Local Open Scope list_scope.

(** how nodes can be merged *)
Inductive kind := Countries | Isps | Organizations.
Definition requested (args : cli) (k : kind) : Prop :=
  match k with
  | Countries => cli_ctry_merge args = true
  | Isps => cli_isp_merge args = true
  | Organizations => exists p, cli_organizations_path args = Some p
  end.
(** countries come before ISPs, ISPs before organizations *)
Definition before (k k' : kind) : Prop :=
  match k, k' with
  | Countries, Isps | Countries, Organizations | Isps, Organizations => True
  | _, _ => False
  end.
Definition preferred (args : cli) (k : kind) : Prop := requested args k /\ forall k', before k' k -> ~ requested args k'.
(** the groups of a kind, if the files describe them *)
Definition described (args : cli) (files : path -> option json) (f : fbas) (k : kind) (G : groupings) : Prop :=
  match k with
  | Countries => exists p j, cli_nodes_path args = Some p /\ files p = Some j /\ countries_from_json j f = Ok G
  | Isps => exists p j, cli_nodes_path args = Some p /\ files p = Some j /\ isps_from_json j f = Ok G
  | Organizations => exists p j, cli_organizations_path args = Some p /\ files p = Some j /\ groupings_from_json j f = Ok G
  end.
(** there is a file in which the groups should be described *)
Definition file_given (args : cli) (k : kind) : Prop :=
  match k with
  | Countries | Isps => exists p, cli_nodes_path args = Some p
  | Organizations => exists p, cli_organizations_path args = Some p
  end.

Inductive message :=
| Reading_nodes (from_file : bool)
| Loaded_nodes (n : nat)
| Several (k : kind)
| Will_merge (k : kind)
| Loaded_groups (k : kind) (n : nat)
| Will_not_merge
| Reading_graph (from_file : bool)
| Read_graph (n : nat)
| Starting
| Finished
| Printing (n : nat).

Definition line_of (s : string) (t : list ascii) : Prop := t = bytes s ++ [end_of_line].
Definition numbered_line (s : string) (n : nat) (s' : string) (t : list ascii) : Prop :=
  exists d, decimal d n /\ t = bytes s ++ d ++ bytes s' ++ [end_of_line].
Definition message_line (m : message) : list ascii -> Prop :=
  match m with
  | Reading_nodes true => line_of "Reading FBAS JSON from file..."
  | Reading_nodes false => line_of "Reading FBAS JSON from STDIN..."
  | Loaded_nodes n => numbered_line "Loaded FBAS with " n " nodes."
  | Several Countries => line_of "Multiple merging options detected; will only merge nodes by country..."
  | Several Isps => line_of "Multiple merging options detected; will only merge nodes by ISP..."
  | Several Organizations => fun _ => False
  | Will_merge Countries => line_of "Will merge nodes by country; reading FBAS JSON from file..."
  | Will_merge Isps => line_of "Will merge nodes by ISP; reading FBAS JSON from file..."
  | Will_merge Organizations => line_of "Will merge nodes by organization; reading organizations JSON from file..."
  | Loaded_groups Countries n => numbered_line "Loaded " n " countries."
  | Loaded_groups Isps n => numbered_line "Loaded " n " ISPs."
  | Loaded_groups Organizations n => numbered_line "Loaded " n " organizations."
  | Will_not_merge => line_of "Will not merge. JSON file describing FBAS needed to perform merge."
  | Reading_graph true => line_of "Reading graph from file..."
  | Reading_graph false => line_of "Reading graph from STDIN..."
  | Read_graph n => numbered_line "Read graph with " n " nodes."
  | Starting => line_of "Starting simulation..."
  | Finished => line_of "Finished simulation, dumping FBAS..."
  | Printing n => numbered_line "Printing graph with " n " nodes..."
  end.
(** the text consists of these messages, in this order *)
Definition conveys (t : list ascii) (ms : list message) : Prop := exists lines, Forall2 message_line ms lines /\ t = concat lines.

(** the one message of a kind that applies, if one does *)
Definition if_any (P : message -> Prop) (ms : list message) : Prop :=
  (exists m, P m /\ ms = [m]) \/ ((forall m, ~ P m) /\ ms = []).
(** where the nodes are read from *)
Definition announces_source (args : cli) (m : message) : Prop :=
  (m = Reading_nodes true /\ exists p, cli_nodes_path args = Some p) \/ (m = Reading_nodes false /\ cli_nodes_path args = None).
(** which of several options is followed *)
Definition announces_choice (args : cli) (m : message) : Prop :=
  exists k k', m = Several k /\ preferred args k /\ requested args k' /\ k' <> k.
(** whether nodes are merged *)
Definition announces_merging (args : cli) (m : message) : Prop :=
  exists k, preferred args k /\ ((m = Will_merge k /\ file_given args k) \/ (m = Will_not_merge /\ ~ file_given args k)).
(** the number of groups *)
Definition announces_groups (args : cli) (files : path -> option json) (f : fbas) (m : message) : Prop :=
  exists k G, m = Loaded_groups k (List.length (g_groupings G)) /\ preferred args k /\ described args files f k G.

(** where a graph is read from *)
Definition announces_graph_source (c : qsc_config) (m : message) : Prop :=
  exists path, graph_path c = Some path /\ ((m = Reading_graph false /\ path = "-") \/ (m = Reading_graph true /\ path <> "-")).
Definition announces_graph (c : qsc_config) (w : inputs) (m : message) : Prop :=
  exists path g, graph_path c = Some path /\ graph_at w path g /\ m = Read_graph (List.length g).
