(** Asking the same question again (C20), and the numbers in the comments of the command line tool [fbas_analyzer] (C68), for all inputs. *)
From Verif Require Import Spec_CliCount P_CliCount P_Repeat P_ThAnalysis P_ThCli P_ThCliAny.
Local Open Scope string_scope.
Local Open Scope list_scope.
Local Open Scope nat_scope.

(** Whatever was asked before and is asked afterwards: if a question is asked twice in a row then the second answer is that of the first time, and the
    later answers are those without the repetition. There is a panic iff there is one without the repetition. *)
Theorem C20_repeat : forall (E : ext) (f : fbas) (cs : list call) (c : call) (ds : list call),
  (analyze E f (cs ++ c :: ds) = Panic /\ analyze E f (cs ++ c :: c :: ds) = Panic) \/
  (exists xs x ys, analyze E f (cs ++ c :: ds) = Ok (xs ++ x :: ys) /\ analyze E f (cs ++ c :: c :: ds) = Ok (xs ++ x :: x :: ys) /\
     List.length xs = List.length cs).
Proof. exact repeated_question. Qed.
Print Assumptions C20_repeat.

(** also where the answers depend on what was asked before (the network of [C20_history_refuted]) *)
Example C20_repeat_example : analyze std_ext hollow_fbas [MinimalBlockingSets; TopTier; TopTier; HasQuorumIntersection] =
    (l <- analyze std_ext hollow_fbas [MinimalBlockingSets] ;; Ok (l ++ [ASet bempty; ASet bempty; ABool false])).
Proof. vm_compute. reflexivity. Qed.

(** Every list of sets is followed by a comment with the number of the sets, or, if nodes are merged, at least this number. *)
Theorem C68_numbers : forall (E : ext) (files : path -> option json) (stdin : option json) (args : cli) (items : list item) (name text : string) (v : value),
  cli_main E files stdin args = Ok items -> cli_results_only args = false -> announced name text -> In (Line name v) items ->
  exists pre post n, items = pre ++ [Line name v; Duration name; Message [inl (line_break ++ "We found ")%string; inr n; inl (text ++ line_break)%string]] ++ post /\
    shown_number v <= n /\ (~ merges args -> n = shown_number v).
Proof. exact numbers. Qed.
Print Assumptions C68_numbers.

(** The top tier comes last, with its size, that of the merged one if nodes are merged. *)
Theorem C68_top_tier_number : forall (E : ext) (files : path -> option json) (stdin : option json) (args : cli) (items : list item) (v : value),
  cli_main E files stdin args = Ok items -> cli_results_only args = false -> In (Line "top_tier" v) items ->
  exists pre, items = pre ++ [Line "top_tier" v; Message [inl (line_break ++ "There is a total of ")%string; inr (shown_number v);
    inl (" distinct nodes involved in all of these sets (this is the ""top tier"")." ++ line_break)%string]].
Proof. exact top_tier_number. Qed.
Print Assumptions C68_top_tier_number.

(** The comment on quorum intersection says what the value before it says. *)
Theorem C68_verdict : forall (E : ext) (files : path -> option json) (stdin : option json) (args : cli) (items : list item) (v : value),
  cli_main E files stdin args = Ok items -> cli_results_only args = false -> In (Line "has_quorum_intersection" v) items ->
  exists pre rest post b, v = VBool b /\
    items = pre ++ [Line "has_quorum_intersection" v; Duration "has_quorum_intersection"] ++ rest ++ [Message [inl (verdict b)]] ++ post /\
    ((cli_alternative_check args = false \/ b = true) /\ rest = [] \/
     (cli_alternative_check args = true /\ b = false /\ exists w, rest = [Line "nonintersecting_quorums" w])).
Proof. exact verdict_line. Qed.
Print Assumptions C68_verdict.

(** Two nodes are merged: three quorums and one set shown. *)
Example C68_numbers_example : merges talkative /\ cli_results_only talkative = false /\ announced "minimal_quorums" " minimal quorums." /\
  exists items, cli_main std_ext three_files None talkative = Ok items /\ In (Line "minimal_quorums" (VIdLists [[1]])) items /\
    In (Message [inl (line_break ++ "We found ")%string; inr 3; inl (" minimal quorums." ++ line_break)%string]) items /\
    In (Line "has_quorum_intersection" (VBool true)) items /\ In (Message [inl (verdict true)]) items /\ In (Line "top_tier" (VIds [0; 1])) items.
Proof.
  split; [right; right; discriminate|]. split; [reflexivity|]. split; [constructor|].
  destruct (cli_main std_ext three_files None talkative) as [items|] eqn:H; vm_compute in H; [|discriminate]. injection H as <-.
  eexists. split; [reflexivity|]. repeat (split; [cbn; tauto|]). cbn. tauto.
Qed.
