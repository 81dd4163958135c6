(** Specification of the bulk analyzer: labels, inputs, tasks and rows. Shares only the data types with
    the model. *)
From Coq Require Import ZArith Reals Ascii.
From Verif Require Export Spec_Analysis Spec_IO Spec_GraphIO M_Bulk P_Float.
Local Open Scope string_scope.
Local Open Scope list_scope.
Local Open Scope nat_scope.

(** [ys] are the entries of [xs] with the property [P], in the same order *)
Inductive selects {A} (P : A -> Prop) : list A -> list A -> Prop :=
| selects_nil : selects P [] []
| selects_take x xs ys : P x -> selects P xs ys -> selects P (x :: xs) (x :: ys)
| selects_skip x xs ys : ~ P x -> selects P xs ys -> selects P (x :: xs) ys.

(** ** labels *)

(** a file name: not empty, without slashes, and not [.] or [..] *)
Definition plain_name (name : string) : Prop := free_of "/" name /\ name <> "" /\ name <> "." /\ name <> "..".
(** The path [p] leads to a file called [name]; slashes and single dots behind it do not count. *)
Definition leads_to (p : path) (name : string) : Prop :=
  plain_name name /\ exists dir rest, (dir = "" \/ exists d, dir = (d ++ "/")%string) /\
    Forall (fun c => c = "" \/ c = ".") rest /\ p = (dir ++ name ++ String.concat "" (map (String "/") rest))%string.

Definition json_name (name : string) : Prop := exists a, name = (a ++ ".json")%string.
Definition about_organizations (name : string) : Prop := exists a b, name = (a ++ "organizations" ++ b)%string.
(** files with nodes and files with organizations are told apart by their names *)
Definition nodes_file (p : path) : Prop := exists name, leads_to p name /\ json_name name /\ ~ about_organizations name.
Definition organizations_file (p : path) : Prop := exists name, leads_to p name /\ json_name name /\ about_organizations name.

(** a part of a file name that is not part of the label *)
Definition meaningless (ignored part : string) : Prop := part = "nodes" \/ part = "organizations" \/ part = ignored.
(** Without every [.json], the file name consists of [parts], separated by underscores; an underscore at
    the end does not start another part. *)
Definition composed_of (parts : list string) (name : string) : Prop :=
  Forall (free_of "_") parts /\
  exists pieces, name = String.concat ".json" pieces /\ Forall (fun s => forall a b, s <> (a ++ ".json" ++ b)%string) pieces /\
    ((String.concat "" pieces = String.concat "_" parts /\ last parts "" <> "") \/ String.concat "" pieces = String.concat "_" (parts ++ [""])).
(** the label of the path [p] *)
Definition gets_label (ignored : string) (p : path) (label : string) : Prop :=
  exists name parts kept, leads_to p name /\ composed_of parts name /\ selects (fun part => ~ meaningless ignored part) parts kept /\
    label = String.concat "_" kept.

(** ** tasks and rows *)

Definition with_label {A} (label : A -> string) (L : string) (l : list A) : list A := filter (fun a => String.eqb (label a) L) l.
Definition by_label {A} (label : A -> string) (l : list A) : Prop :=
  StronglySorted (fun a b => label a = label b \/ string_before (label a) (label b)) l.
Definition distinct_labels {A} (label : A -> string) (l : list A) : Prop := NoDup (map label l).

(** outputs by label *)
Definition output_map (m : list (string * output_data_point)) : Prop :=
  StronglySorted string_before (map fst m) /\ forall L o, In (L, o) m -> out_label o = L.
(** [o] is the last row with the label [L] *)
Definition latest (rows : list output_data_point) (L : string) (o : output_data_point) : Prop :=
  exists pre post, rows = pre ++ o :: post /\ out_label o = L /\ forall p, In p post -> out_label p <> L.

(** [o] is a row that a run with [--update] finds *)
Definition found (out : target) (update : bool) (o : output_data_point) : Prop := update = true /\ exists old, out = File (Some old) /\ In o old.

(** ** contents of rows *)

(** smallest, largest and average size of the listed sets *)
Definition sizes (l : list bset) (mn mx : nat) (mean : f64) : Prop :=
  least_of (map len l) mn /\ greatest_of (map len l) mx /\
  (l = [] -> mean = fzero) /\
  (l <> [] -> (Z.of_nat (list_sum (map len l)) <= 2 ^ 53)%Z -> (Z.of_nat (List.length l) <= 2 ^ 53)%Z ->
     finite mean = true /\ R_of mean = rnd64 (INR (list_sum (map len l)) / INR (List.length l))%R).
(** the results for groups [gs] that were asked for *)
Definition group_results (f : fbas) (gs : list grouping) (r : analysis_results) : Prop :=
  (exists T R, (forall x, mem x T = true <-> in_top_tier f x) /\ group_image gs T R /\ gr_top_tier_size r = Some (len R)) /\
  (exists l mn mx mean, lists (minimal (by_groups f gs (includes_quorum f))) l /\ sizes l mn mx mean /\
     gr_mq_min r = Some mn /\ gr_mq_max r = Some mx /\ gr_mq_mean r = Some mean) /\
  (exists l mn mx mean, lists (minimal (by_groups f gs (blocking f))) l /\ sizes l mn mx mean /\
     gr_mbs_min r = Some mn /\ gr_mbs_max r = Some mx /\ gr_mbs_mean r = Some mean) /\
  (exists l mn mx mean, lists (minimal (by_groups f gs (splitting f))) l /\ sizes l mn mx mean /\
     gr_mss_min r = Some mn /\ gr_mss_max r = Some mx /\ gr_mss_mean r = Some mean).
(** results for nodes *)
Definition node_results (f : fbas) (o : output_data_point) : Prop :=
  (out_has_quorum_intersection o = true <-> quorum_intersection f) /\
  (exists T, (forall x, mem x T = true <-> in_top_tier f x) /\ out_top_tier_size o = len T) /\
  (exists l, lists (minimal_quorum f) l /\ sizes l (out_mq_min o) (out_mq_max o) (out_mq_mean o)) /\
  (exists l, lists (minimal_blocking f) l /\ sizes l (out_mbs_min o) (out_mbs_max o) (out_mbs_mean o)) /\
  (exists l, lists (minimal_splitting f) l /\ sizes l (out_mss_min o) (out_mss_max o) (out_mss_mean o)).

(** rows that agree in everything that was not measured with a clock *)
Definition same_results (o o' : output_data_point) : Prop :=
  out_label o = out_label o' /\ out_has_quorum_intersection o = out_has_quorum_intersection o' /\ out_top_tier_size o = out_top_tier_size o' /\
  out_mbs_min o = out_mbs_min o' /\ out_mbs_max o = out_mbs_max o' /\ out_mbs_mean o = out_mbs_mean o' /\
  out_mss_min o = out_mss_min o' /\ out_mss_max o = out_mss_max o' /\ out_mss_mean o = out_mss_mean o' /\
  out_mq_min o = out_mq_min o' /\ out_mq_max o = out_mq_max o' /\ out_mq_mean o = out_mq_mean o' /\
  out_orgs o = out_orgs o' /\ out_isps o = out_isps o' /\ out_ctries o = out_ctries o' /\ out_standard_form_hash o = out_standard_form_hash o'.
(** runs that end alike, with rows like this *)
Definition same_outcome (r r' : res (option (list output_data_point * bool))) : Prop :=
  match r, r' with
  | Ok (Some (rows, complete)), Ok (Some (rows', complete')) => Forall2 same_results rows rows' /\ complete = complete'
  | Ok None, Ok None | Panic, Panic => True
  | _, _ => False
  end.
