(** Written JSON texts are as short as possible: C73. *)
From Coq Require Import ZArith Ascii.
From Verif Require Import P_Shortest.
Local Open Scope string_scope.
Local Open Scope list_scope.

(** no text of the same document is shorter than the one [to_json_string] returns *)
Theorem C73_shortest : forall (minus_zero : bool) (f : fbas) (t : text),
  document minus_zero (fbas_to_json f) t -> length (fbas_to_text f) <= length t.
Proof. exact fbas_shortest. Qed.
Print Assumptions C73_shortest.

(** a text of the same document with blanks and an escaped letter is longer *)
Definition c73_spaced : fbas := fbas_from_raw [mk_raw_node "A B" (RQ 1 ["A B"] []) None None].
Example C73_shortest_example :
  (string_of_list_ascii (fbas_to_text c73_spaced) = "[{""publicKey"":""A B"",""quorumSet"":{""threshold"":1,""validators"":[""A B""]}}]") /\
  document false (fbas_to_json c73_spaced)
    (list_ascii_of_string "[{""publicKey"": ""\u0041 B"",""quorumSet"":{""threshold"":1,""validators"":[""A B""]}}]").
Proof. split; [vm_compute; reflexivity|]. apply read_json_spec. vm_compute. reflexivity. Qed.
