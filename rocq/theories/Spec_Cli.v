(** What the command line tool [fbas_analyzer] reports. Shares only data types with the model, and [merge_quorum_set], about which C28
    speaks. *)
From Coq Require Import ZArith Reals.
From Verif Require Export Spec_Bulk M_Cli.
Local Open Scope string_scope.
Local Open Scope list_scope.
Local Open Scope nat_scope.

(** ** the printed values *)
(** what is printed without the comments *)
Definition is_result (i : item) : bool := match i with Message _ => false | _ => true end.
Definition results (items : list item) : list item := filter is_result items.

(** the members of [s] in ascending order *)
Definition ids_of (s : bset) (ids : list nat) : Prop := StronglySorted lt ids /\ forall x, In x ids <-> mem x s = true.
(** number of sets and of nodes in them, sizes, and how often each size occurs *)
Definition statistics (l : list bset) (v : value) : Prop :=
  exists d mn mx mean h, v = VStatistics (List.length l) d (mn, mx, mean) h /\
    (exists U, (forall x, mem x U = true <-> exists s, In s l /\ mem x s = true) /\ d = len U) /\
    sizes l mn mx mean /\
    List.length h = mx + 1 /\ (forall k, k <= mx -> nth_error h k = Some (occurrences (map len l) k)).
(** a list of sets of nodes as numbers, by id or by name *)
Definition shows_sets (args : cli) (f : fbas) (gs : list grouping) (l : list bset) (v : value) : Prop :=
  if cli_describe args then statistics l v
  else if cli_pretty args then exists ll, v = VNameLists ll /\ Forall2 (shown_list f gs) l ll
  else exists ll, v = VIdLists ll /\ Forall2 ids_of l ll.
Definition shows_set (args : cli) (f : fbas) (gs : list grouping) (s : bset) (v : value) : Prop :=
  if cli_pretty args then exists names, v = VNames names /\ shown_list f gs s names
  else exists ids, v = VIds ids /\ ids_of s ids.
Definition shows_qsets (args : cli) (f : fbas) (gs : list grouping) (l : list qset) (v : value) : Prop :=
  if cli_pretty args then exists pl, v = VPrettyQsets pl /\ Forall2 (shown_qset f gs) l pl
  else v = VQsets l.

(** ** the report *)
Definition part := list item -> Prop.
Definition line (name : string) (P : value -> Prop) : part := fun l => exists v, l = [Line name v] /\ P v.
(** a line, followed by the time it took *)
Definition timed_line (name : string) (P : value -> Prop) : part := fun l => exists v, l = [Line name v; Duration name] /\ P v.
Definition nothing : part := fun l => l = [].
Definition only_if (c : Prop) (P : part) : part := fun l => (c /\ P l) \/ (~ c /\ l = []).
Definition followed_by (P Q : part) : part := fun l => exists l1 l2, l = l1 ++ l2 /\ P l1 /\ Q l2.
Infix ">>" := followed_by (at level 55, right associativity).

Definition wants_quorums (args : cli) : Prop := cli_all args = true \/ cli_minimal_quorums args = true.
Definition wants_blocking (args : cli) : Prop := cli_all args = true \/ cli_minimal_blocking_sets args = true.
Definition wants_splitting (args : cli) : Prop := cli_all args = true \/ cli_minimal_splitting_sets args = true.
Definition wants_check (args : cli) : Prop := cli_dont_check args = false.
Definition uses_alternative (args : cli) : Prop := wants_check args /\ cli_alternative_check args = true.

(** The groups to merge: those of countries, else of ISPs, else of organizations. ISPs and countries are only known if the nodes are in a file. *)
Definition groups_to_merge (args : cli) (files : path -> option json) (f : fbas) (o : option groupings) : Prop :=
  match cli_ctry_merge args, cli_isp_merge args, cli_organizations_path args, cli_nodes_path args with
  | true, _, _, Some p => exists j G, files p = Some j /\ countries_from_json j f = Ok G /\ o = Some G
  | true, _, _, None => o = None
  | false, true, _, Some p => exists j G, files p = Some j /\ isps_from_json j f = Ok G /\ o = Some G
  | false, true, _, None => o = None
  | false, false, Some p, _ => exists j G, files p = Some j /\ groupings_from_json j f = Ok G /\ o = Some G
  | false, false, None, _ => o = None
  end.
(** the document with the nodes: from a file or from the standard input *)
Definition nodes_document (args : cli) (files : path -> option json) (stdin : option json) (j : json) : Prop :=
  match cli_nodes_path args with Some p => files p = Some j | None => stdin = Some j end.

Section Report.
Variables (args : cli) (f : fbas).
(** the groups, if nodes are merged *)
Variable merging : option groupings.
Definition group_list : list grouping := match merging with Some G => g_groupings G | None => [] end.

(** minimal sets with the property [P] of sets of nodes, or of groups whose members taken together have it *)
Definition minimal_sets_shown (P : bset -> Prop) (v : value) : Prop :=
  exists l, shows_sets args f group_list l v /\
    match merging with
    | Some G => lists (minimal (by_groups f (g_groupings G) P)) l
    | None => lists (minimal P) l
    end.
(** without merging, a minimal quorum can be listed repeatedly unless the symmetric clusters are distinct *)
Definition minimal_quorums_shown (v : value) : Prop :=
  exists l, shows_sets args f group_list l v /\
    match merging with
    | Some G => lists (minimal (by_groups f (g_groupings G) (includes_quorum f))) l
    | None => lists_weakly (minimal_quorum f) l /\ (distinct_clusters f -> lists (minimal_quorum f) l)
    end.
Definition clusters_shown (v : value) : Prop :=
  exists l l', NoDup l /\ (forall q, In q l <-> satisfiable_cluster f q) /\ shows_qsets args f group_list l' v /\
    match merging with
    | Some G => Forall2 (fun q q' => merge_quorum_set G q = Ok q') l l'
    | None => l' = l
    end.
Definition overview : part :=
  line "nodes_total" (fun v => v = VNat (number_of_nodes f)) >>
  match merging with
  | Some G => line "nodes_total_merged" (fun v => exists R, (forall r, mem r R = true <-> exists x, x < number_of_nodes f /\ represents (g_groupings G) r x) /\ v = VNat (len R))
  | None => nothing
  end.
Definition intersection : part :=
  if cli_alternative_check args then
    fun l => (quorum_intersection f /\ timed_line "has_quorum_intersection" (fun v => v = VBool true) l) \/
             (~ quorum_intersection f /\
              (timed_line "has_quorum_intersection" (fun v => v = VBool false) >>
               line "nonintersecting_quorums" (fun v => exists qs, shows_sets args f group_list qs v /\
                 2 <= List.length qs /\ (forall Q, In Q qs -> quorum f Q) /\ ForallOrdPairs (fun A B => ~ meets A B) qs)) l)
  else timed_line "has_quorum_intersection" (fun v => exists b, v = VBool b /\ (b = true <-> quorum_intersection f)).
Definition top_tier_shown (v : value) : Prop :=
  exists T R, (forall x, mem x T = true <-> in_top_tier f x) /\ shows_set args f group_list R v /\
    match merging with Some G => group_image (g_groupings G) T R | None => R = T end.

Definition report : part :=
  overview >>
  timed_line "symmetric_clusters" clusters_shown >>
  only_if (wants_quorums args) (timed_line "minimal_quorums" minimal_quorums_shown) >>
  only_if (wants_check args) intersection >>
  only_if (wants_blocking args) (timed_line "minimal_blocking_sets" (minimal_sets_shown (blocking f))) >>
  only_if (wants_splitting args) (timed_line "minimal_splitting_sets" (minimal_sets_shown (splitting f))) >>
  only_if (wants_quorums args \/ wants_blocking args \/ wants_splitting args) (line "top_tier" top_tier_shown).
End Report.

(** two command lines with the same input and the same form of output *)
Definition same_input_and_form (args args' : cli) : Prop :=
  cli_nodes_path args = cli_nodes_path args' /\ cli_organizations_path args = cli_organizations_path args' /\
  cli_isp_merge args = cli_isp_merge args' /\ cli_ctry_merge args = cli_ctry_merge args' /\
  cli_describe args = cli_describe args' /\ cli_pretty args = cli_pretty args'.
(** the same command with [--results-only] *)
Definition with_results_only (args : cli) : cli :=
  mk_cli (cli_nodes_path args) (cli_minimal_quorums args) (cli_minimal_blocking_sets args) (cli_minimal_splitting_sets args) (cli_all args)
    (cli_alternative_check args) (cli_dont_check args) (cli_describe args) (cli_pretty args) true
    (cli_organizations_path args) (cli_isp_merge args) (cli_ctry_merge args).
(** right after the line with the name [name], a comment says that [n] sets were found *)
Definition counts (name : string) (n : nat) (text : string) (items : list item) : Prop :=
  exists pre post v, items = pre ++ [Line name v; Duration name; Message [inl (line_break ++ "We found ")%string; inr n; inl (text ++ line_break)%string]] ++ post.
