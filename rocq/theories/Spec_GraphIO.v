(** Specification of AS relationship files, stated without the algorithms of the model. *)
From Verif Require Export Spec_SimGraph M_GraphIO.
Local Open Scope string_scope.
Local Open Scope list_scope.

(** ** What a file says: one item per line *)
Inductive as_item :=
| Blank
| Comment (text : string)
| Relation (sink source : nat) (peering : bool) (rest : string).

(** decimal notation *)
Definition as_line (item : as_item) : string :=
  match item with
  | Blank => ""
  | Comment text => "#" ++ text
  | Relation a b peering rest => print_nat a ++ "|" ++ print_nat b ++ (if peering then "|0" else "|-1") ++ rest
  end%string.
(** each line is ended by a newline *)
Fixpoint as_text (items : list as_item) : string :=
  match items with
  | [] => ""
  | item :: items' => as_line item ++ String newline (as_text items')
  end%string.
Fixpoint free_of (c : ascii) (s : string) : Prop :=
  match s with
  | EmptyString => True
  | String a s' => a <> c /\ free_of c s'
  end.
(** ids fit a machine word, further columns begin with a bar, and nothing contains a line break *)
Definition as_ok (item : as_item) : Prop :=
  match item with
  | Blank => True
  | Comment text => free_of newline text
  | Relation a b _ rest =>
      (N.of_nat a + 1 < 2 ^ 64)%N /\ (N.of_nat b + 1 < 2 ^ 64)%N /\ free_of newline rest /\
      (rest = "" \/ exists columns, rest = String "|" columns)
  end.

(** the links that a list of items stands for *)
Definition said_link (items : list as_item) (i j : nat) : Prop :=
  exists rest, (exists peering, In (Relation j i peering rest) items) \/ In (Relation i j true rest) items.
(** a node id that occurs in a list of items *)
Definition said_node (items : list as_item) (i : nat) : Prop :=
  exists j peering rest, In (Relation i j peering rest) items \/ In (Relation j i peering rest) items.
(** [n] is the least number above all ids *)
Definition least_above (P : nat -> Prop) (n : nat) : Prop :=
  (forall i, P i -> i < n) /\ forall n', (forall i, P i -> i < n') -> n <= n'.
