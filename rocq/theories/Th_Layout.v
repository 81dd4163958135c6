(** Line breaks and blanks of written JSON texts: C73, C74. *)
From Coq Require Import ZArith Ascii.
From Flocq Require Import IEEE754.BinarySingleNaN.
From Verif Require Import P_Layout.
Local Open Scope string_scope.
Local Open Scope list_scope.
Local Open Scope nat_scope.

(** [to_json_string_pretty] is [to_json_string] with line breaks around brackets and after commas, two blanks per open bracket, and a blank after colons *)
Theorem C73_pretty : forall (f : fbas), fbas_to_text_pretty f = laid_out 0 Outside (fbas_to_text f).
Proof. exact fbas_pretty. Qed.
Print Assumptions C73_pretty.

(** the same holds of symmetric clusters printed with [--pretty] *)
Theorem C74_pretty_clusters : forall (minus_zero : bool) (float_text : f64 -> list ascii) (l : list pretty_qset),
  exists j t, is_list is_pretty_qset j l /\ document minus_zero j t /\ (forall t', document minus_zero j t' -> List.length t <= List.length t') /\
    value_text float_text (VPrettyQsets l) = laid_out 0 Outside t.
Proof. exact clusters_laid_out. Qed.
Print Assumptions C74_pretty_clusters.

(** all other results except for statistics are printed as shortly as possible *)
Theorem C74_shortest : forall (minus_zero : bool) (float_text : f64 -> list ascii) (v : M_Cli.value) (t : list ascii) (j : json),
  (forall l, v <> VPrettyQsets l) -> (forall number distinct minmax histogram, v <> VStatistics number distinct minmax histogram) ->
  document minus_zero j (value_text float_text v) -> document minus_zero j t -> List.length (value_text float_text v) <= List.length t.
Proof. exact results_shortest. Qed.
Print Assumptions C74_shortest.

(** brackets and commas in strings stay as they are *)
Definition c73_brackets : fbas := fbas_from_raw [mk_raw_node "[a,""b" (RQ 1 ["{:"] [RQ 0 [] []]) None None].
Example C73_pretty_layout_example : string_of_list_ascii (fbas_to_text c73_brackets) =
"[{""publicKey"":""[a,\""b"",""quorumSet"":{""threshold"":1,""validators"":[],""innerQuorumSets"":[{""threshold"":0,""validators"":[]}]}}]" /\
  string_of_list_ascii (laid_out 0 Outside (fbas_to_text c73_brackets)) =
"[
  {
    ""publicKey"": ""[a,\""b"",
    ""quorumSet"": {
      ""threshold"": 1,
      ""validators"": [],
      ""innerQuorumSets"": [
        {
          ""threshold"": 0,
          ""validators"": []
        }
      ]
    }
  }
]".
Proof. split; vm_compute; reflexivity. Qed.
Example C74_shortest_example : let v := VIdLists [[1;2];[3]] in
  (forall l, v <> VPrettyQsets l) /\ (forall a b c d, v <> VStatistics a b c d) /\
  exists j, document false j (value_text (fun _ => []) v) /\ document false j (list_ascii_of_string "[[1, 2], [3]]") /\
    string_of_list_ascii (value_text (fun _ => []) v) = "[[1,2],[3]]".
Proof.
  split; [discriminate|]. split; [discriminate|]. exists (JArr [JArr [JInt 1; JInt 2]; JArr [JInt 3]]).
  split; [apply read_json_spec; vm_compute; reflexivity|]. split; [apply read_json_spec; vm_compute; reflexivity|vm_compute; reflexivity].
Qed.
