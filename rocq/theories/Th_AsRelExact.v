(** C45: which graphs survive being written and read. *)
From Coq Require Import NArith.
From Verif Require Import Spec_GraphIO P_AsRelExact.
Local Open Scope string_scope.
Local Open Scope list_scope.

(** For every graph with valid ids: reading what was written yields the graph exactly if it is undirected and without
    loops, its links are listed in ascending order, and its last node has a link. *)
Theorem C45_exact : forall (g : graph) (comment : option string),
  wf_graph g -> (N.of_nat (List.length g) < 2 ^ 64)%N -> (forall c, comment = Some c -> free_of newline c) ->
  exists text, to_as_rel_string g comment = Ok text /\
    (from_as_rel_string text = Ok g <->
     undirected g /\ loop_free g /\ ascending_links g /\ (g = [] \/ exists j, link g (List.length g - 1) j)).
Proof. exact round_trip_exact. Qed.
Print Assumptions C45_exact.

(** a graph that survives, one with a link that is listed too early, a directed one, one with a loop, and one with an isolated last node *)
Definition written_and_read (g : graph) : res graph := text <- to_as_rel_string g (Some "a graph") ;; from_as_rel_string text.
Example C45_exact_example : wf_graph [[1]; [0; 2]; [1]] /\ free_of newline "a graph" /\
  written_and_read [[1]; [0; 2]; [1]] = Ok [[1]; [0; 2]; [1]] /\ written_and_read [[1]; [2; 0]; [1]] = Ok [[1]; [0; 2]; [1]] /\
  written_and_read [[1]; [2]; [1]] = Ok [[]; [0; 2]; [1]] /\ written_and_read [[1]; [0; 1]] = Ok [[1]; [0]] /\
  written_and_read [[1]; [0]; []] = Ok [[1]; [0]].
Proof.
  split; [|split; [|repeat (split; [vm_compute; reflexivity|]); vm_compute; reflexivity]].
  - intros i j (l & Hl & Hj). destruct i as [|[|[|i]]]; cbn in Hl; [| | |destruct i; discriminate]; injection Hl as <-; cbn in Hj |- *; lia.
  - cbn. repeat (split; [discriminate|]). exact I.
Qed.
