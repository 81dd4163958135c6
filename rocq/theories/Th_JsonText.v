(** JSON texts: C73. *)
From Coq Require Import ZArith Ascii.
From Verif Require Import P_JsonPrint.
Local Open Scope string_scope.
Local Open Scope list_scope.

(** C73: texts are read exactly as the grammar says *)
Theorem C73_grammar : forall (minus_zero : bool) (s : text) (j : json), read_json minus_zero s = Ok j <-> document minus_zero j s.
Proof. exact read_json_spec. Qed.
Print Assumptions C73_grammar.

Theorem C73_read_fbas : forall (minus_zero : bool) (s : text) (f : fbas), fbas_from_text minus_zero s = Ok f <->
  exists j l, document minus_zero j s /\ means_all means_node j l /\
              (forall n, In n l -> nesting_at_most 62 (raw_quorum_set n)) /\ f = fbas_from_raw l.
Proof. exact fbas_text_spec. Qed.
Print Assumptions C73_read_fbas.

Theorem C73_read_groupings : forall (minus_zero : bool) (s : text) (f : fbas) (g : groupings), groupings_from_text minus_zero s f = Ok g <->
  exists j l, document minus_zero j s /\ means_all means_group j l /\ groupings_from_raw l f = Ok g.
Proof. exact groupings_text_spec. Qed.
Print Assumptions C73_read_groupings.

(** written texts are texts of what is written *)
Theorem C73_written : forall (minus_zero : bool) (f : fbas),
  document minus_zero (fbas_to_json f) (fbas_to_text f) /\ document minus_zero (fbas_to_json f) (fbas_to_text_pretty f).
Proof. exact (fun mz f => printed_document mz _ (fbas_printable f)). Qed.
Print Assumptions C73_written.

(** an FBAS that was read is written and read again as the same FBAS *)
Theorem C73_round_trip : forall (minus_zero minus_zero' : bool) (s : text) (f : fbas), fbas_from_text minus_zero s = Ok f ->
  fbas_from_text minus_zero' (fbas_to_text f) = Ok f /\ fbas_from_text minus_zero' (fbas_to_text_pretty f) = Ok f.
Proof. exact text_round_trip. Qed.
Print Assumptions C73_round_trip.

(** missing: FBASs with more deeply nested quorum sets *)
Theorem C73_any_fbas_partial : forall (minus_zero : bool) (f : fbas), wf_fbas f -> distinct_keys f -> small_fbas f ->
  (forall x q, node_of f x q -> qset_nesting_at_most 62 q) ->
  exists f', fbas_from_text minus_zero (fbas_to_text f) = Ok f' /\ fbas_from_text minus_zero (fbas_to_text_pretty f) = Ok f' /\
             renumbering (fun x => x) f f' /\ map node_pk (nodes f') = map node_pk (nodes f) /\ keys_ok f'.
Proof. exact any_text. Qed.
Print Assumptions C73_any_fbas_partial.

Theorem C73_readable_iff : forall (minus_zero : bool) (f : fbas), small_fbas f ->
  ((exists f', fbas_from_text minus_zero (fbas_to_text f) = Ok f') <-> (forall x q, node_of f x q -> qset_nesting_at_most 62 q)).
Proof. exact any_text_iff. Qed.
Print Assumptions C73_readable_iff.

(** an FBAS that is written and cannot be read again *)
Theorem C73_deep_refuted : exists f, wf_fbas f /\ distinct_keys f /\ small_fbas f /\
  forall minus_zero, fbas_from_text minus_zero (fbas_to_text f) = Panic /\ fbas_from_text minus_zero (fbas_to_text_pretty f) = Panic.
Proof. exact deep_unreadable. Qed.
Print Assumptions C73_deep_refuted.

(** text in another layout, with escapes, unknown fields and a surrogate pair *)
Definition c73_text : text := list_ascii_of_string
 " [ { ""quorumSet"":{""validators"":[""A"",""B""] , ""threshold"":2},""ignored"":[1.5e-3,-0,{""x"":""\ud800""}],""publicKey"":""A""},
 {""publicKey"":""B"",""isp"":""\ud83d\ude00""}]  ".
Example C73_example :
  raw_nodes_from_text false c73_text =
    Ok [mk_raw_node "A" (RQ 2 ["A"; "B"] []) None None;
        mk_raw_node "B" (RQ 0 [] []) (Some (string_of_list_ascii [ascii_of_N 240; ascii_of_N 159; ascii_of_N 152; ascii_of_N 128])) None] /\
  exists f, fbas_from_text false c73_text = Ok f /\
    string_of_list_ascii (fbas_to_text f) =
      "[{""publicKey"":""A"",""quorumSet"":{""threshold"":2,""validators"":[""A"",""B""]}},{""publicKey"":""B"",""quorumSet"":{""threshold"":0,""validators"":[]}}]".
Proof. split; [vm_compute; reflexivity|]. eexists. split; [reflexivity|]. vm_compute. reflexivity. Qed.
(** refused: trailing text, missing and superfluous commas, leading zeros, unpaired surrogates and control characters in strings that are read *)
Definition refused (s : string) : Prop := forall mz j, ~ document mz j (list_ascii_of_string s).
Example C73_refused : refused "[] x" /\ refused "[1 2]" /\ refused "[1,]" /\ refused "[01]" /\ refused "[1.]" /\ refused "[+1]" /\
  refused (String "["%char (String quote (String "010"%char (String quote "]")))) /\ refused "{""a"" 1}" /\ refused "nul" /\ refused "" /\
  (forall mz, raw_nodes_from_text mz (list_ascii_of_string "[{""publicKey"":""\ud800""}]") = Panic) /\
  raw_nodes_from_text false (list_ascii_of_string "[{""publicKey"":""A"",""quorumSet"":[-0,[]]}]") = Panic /\
  raw_nodes_from_text true (list_ascii_of_string "[{""publicKey"":""A"",""quorumSet"":[-0,[]]}]") = Ok [mk_raw_node "A" (RQ 0 [] []) None None].
Proof.
  unfold refused. assert (G : forall s, (forall mz, read_json mz s = Panic) -> forall mz j, ~ document mz j s).
  { intros s H mz j X. apply read_json_spec in X. rewrite H in X. discriminate. }
  split; [apply G; intros [|]; vm_compute; reflexivity|]. split; [apply G; intros [|]; vm_compute; reflexivity|].
  split; [apply G; intros [|]; vm_compute; reflexivity|]. split; [apply G; intros [|]; vm_compute; reflexivity|].
  split; [apply G; intros [|]; vm_compute; reflexivity|]. split; [apply G; intros [|]; vm_compute; reflexivity|].
  split; [apply G; intros [|]; vm_compute; reflexivity|]. split; [apply G; intros [|]; vm_compute; reflexivity|].
  split; [apply G; intros [|]; vm_compute; reflexivity|]. split; [apply G; intros [|]; vm_compute; reflexivity|].
  split; [intros [|]; vm_compute; reflexivity|]. split; vm_compute; reflexivity.
Qed.
(** what [to_json_string_pretty] writes *)
Example C73_pretty_example : string_of_list_ascii (fbas_to_text_pretty (nested_fbas 1)) =
"[
  {
    ""publicKey"": ""A"",
    ""quorumSet"": {
      ""threshold"": 1,
      ""validators"": [],
      ""innerQuorumSets"": [
        {
          ""threshold"": 1,
          ""validators"": [
            ""A""
          ]
        }
      ]
    }
  }
]".
Proof. vm_compute. reflexivity. Qed.
