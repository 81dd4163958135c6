(** What the texts printed by [fbas_analyzer] say. Shares only data types with the model. *)
From Coq Require Import ZArith Ascii.
From Flocq Require Import IEEE754.BinarySingleNaN.
From Verif Require Export Spec_JsonText Spec_Cli M_CliText.
Local Open Scope string_scope.
Local Open Scope list_scope.

(** ** the JSON documents of results *)
Definition is_number (j : json) (n : nat) : Prop := j = JInt (Z.of_nat n).
Definition is_name (j : json) (s : string) : Prop := j = JStr s.
Definition is_list {A} (P : json -> A -> Prop) (j : json) (l : list A) : Prop := exists js, j = JArr js /\ Forall2 P js l.
Definition field_if_any {A} (P : json -> list A -> Prop) (k : string) (l : list A) (fields : list (string * json)) : Prop :=
  (l = [] /\ fields = []) \/ (l <> [] /\ exists j, P j l /\ fields = [(k, j)]).
(** quorum sets with ids; empty lists are left out *)
Inductive is_qset : json -> qset -> Prop :=
| is_qset_intro jt t vs is_ js fields1 fields2 : is_number jt t -> field_if_any (is_list is_number) "validators" vs fields1 ->
    Forall2 is_qset js is_ -> (is_ = [] /\ fields2 = [] \/ is_ <> [] /\ fields2 = [("innerQuorumSets", JArr js)]) ->
    is_qset (JObj (("threshold", jt) :: fields1 ++ fields2)) (QS t vs is_).
(** quorum sets with names: as in the files that are read *)
Inductive names_qset : pretty_qset -> raw_qset -> Prop :=
| names_qset_intro t vs is_ ris : Forall2 names_qset is_ ris -> names_qset (PQS t vs is_) (RQ t vs ris).
Definition is_pretty_qset (j : json) (q : pretty_qset) : Prop := exists r, names_qset q r /\ (small_raw r -> means_qset j r).

(** what follows each other is separated by commas *)
Inductive separated : list (list ascii) -> list ascii -> Prop :=
| separated_none : separated [] []
| separated_one t : separated [t] t
| separated_more t t' l s : separated (t' :: l) s -> separated (t :: t' :: l) (t ++ bytes "," ++ s).
Definition decimal (t : list ascii) (n : nat) : Prop := integer_of t (N.of_nat n).

(** texts of floating point numbers: numbers that are not integers in form, or [null] *)
Definition float_format (minus_zero : bool) (float_text : f64 -> list ascii) : Prop :=
  (forall x, @is_finite 53 1024 x = true -> number minus_zero JFloat (float_text x)) /\
  (forall x, @is_finite 53 1024 x = false -> float_text x = bytes "null").
(** different finite numbers have different texts *)
Definition faithful_format (float_text : f64 -> list ascii) : Prop :=
  forall x y, @is_finite 53 1024 x = true -> @is_finite 53 1024 y = true -> float_text x = float_text y -> x = y.

Definition says (minus_zero : bool) (float_text : f64 -> list ascii) (v : M_Cli.value) (s : list ascii) : Prop :=
  exists j, document minus_zero j s /\
  match v with
  | VBool b => j = JBool b
  | VNat n => is_number j n
  | VIds l => is_list is_number j l
  | VNames l => is_list is_name j l
  | VIdLists l => is_list (is_list is_number) j l
  | VNameLists l => is_list (is_list is_name) j l
  | VQsets l => is_list is_qset j l
  | VPrettyQsets l => is_list is_pretty_qset j l
  | VStatistics number distinct (mn, mx, mean) histogram =>
      (exists jm js, j = JArr [JInt (Z.of_nat number); JInt (Z.of_nat distinct); JArr [JInt (Z.of_nat mn); JInt (Z.of_nat mx); jm]; JArr js] /\
                     Forall2 is_number js histogram) /\
      exists t1 t2 t3 t4 ts t5, decimal t1 number /\ decimal t2 distinct /\ decimal t3 mn /\ decimal t4 mx /\ Forall2 decimal ts histogram /\ separated ts t5 /\
        s = bytes "[" ++ t1 ++ bytes "," ++ t2 ++ bytes ",[" ++ t3 ++ bytes "," ++ t4 ++ bytes "," ++ float_text mean ++ bytes "],[" ++ t5 ++ bytes "]]"
  end.

(** ** lines *)
Definition end_of_line : ascii := ascii_of_nat 10.
Definition one_line (t : list ascii) : Prop := exists l, t = l ++ [end_of_line] /\ ~ In end_of_line l.
Definition printed_item (minus_zero : bool) (float_text : f64 -> list ascii) (duration_text : string -> list ascii) (i : item) (t : list ascii) : Prop :=
  match i with
  | Message parts => exists ts, t = concat ts ++ [end_of_line] /\
      Forall2 (fun p u => match p with inl s => u = bytes s | inr n => decimal u n end) parts ts
  | Line name v => exists s, t = bytes name ++ bytes ": " ++ s ++ [end_of_line] /\ says minus_zero float_text v s
  | Duration name => t = bytes name ++ bytes "_analysis_duration: " ++ duration_text name ++ bytes "s" ++ [end_of_line]
  end.
Definition prints (minus_zero : bool) (float_text : f64 -> list ascii) (duration_text : string -> list ascii) (items : list item) (out : list ascii) : Prop :=
  exists texts, out = concat texts /\ Forall2 (printed_item minus_zero float_text duration_text) items texts.
(** the values of one type *)
Definition same_kind (v v' : M_Cli.value) : Prop :=
  match v, v' with
  | VBool _, VBool _ | VNat _, VNat _ | VIds _, VIds _ | VNames _, VNames _ | VIdLists _, VIdLists _ | VNameLists _, VNameLists _
  | VQsets _, VQsets _ | VPrettyQsets _, VPrettyQsets _ => True
  | VStatistics _ _ (_, _, m) _, VStatistics _ _ (_, _, m') _ => @is_finite 53 1024 m = true /\ @is_finite 53 1024 m' = true
  | _, _ => False
  end.

(** ** input *)
Definition nodes_text (args : cli) (files : path -> option (list ascii)) (stdin : option (list ascii)) (s : list ascii) : Prop :=
  match cli_nodes_path args with Some p => files p = Some s | None => stdin = Some s end.
(** as [groups_to_merge], with the texts of files *)
Definition text_groups_to_merge (minus_zero : bool) (args : cli) (files : path -> option (list ascii)) (f : fbas) (o : option groupings) : Prop :=
  match cli_ctry_merge args, cli_isp_merge args, cli_organizations_path args, cli_nodes_path args with
  | true, _, _, Some p => exists s G, files p = Some s /\ countries_from_text minus_zero s f = Ok G /\ o = Some G
  | true, _, _, None => o = None
  | false, true, _, Some p => exists s G, files p = Some s /\ isps_from_text minus_zero s f = Ok G /\ o = Some G
  | false, true, _, None => o = None
  | false, false, Some p, _ => exists s G, files p = Some s /\ groupings_from_text minus_zero s f = Ok G /\ o = Some G
  | false, false, None, _ => o = None
  end.
