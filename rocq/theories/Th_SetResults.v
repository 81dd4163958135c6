(** C25 and C30: results that are a single set of nodes (e.g., the top tier). *)
From Verif Require Import P_SetResults P_ThAnalysis.
Local Open Scope string_scope.
Local Open Scope list_scope.

Theorem C25_set_without_nodes : forall (s : bset) (ids : list nat) (x : nat),
  mem x (sr_without_nodes s ids) = true <-> mem x s = true /\ ~ In x ids.
Proof. exact (fun s ids x => set_without ids s x). Qed.
Print Assumptions C25_set_without_nodes.

Theorem C25_set_without_nodes_by_name : forall (f : fbas) (gs : list grouping) (s : bset) (names : list string), keys_ok f ->
  (forall x, mem x (sr_without_nodes_pretty s names f None) = true <->
     mem x s = true /\ ~ exists name, In name names /\ meant_by f [] name x) /\
  (forall G, groupings_new gs f = Ok G -> forall x,
     mem x (sr_without_nodes_pretty s names f (Some G)) = true <->
     mem x s = true /\ ~ exists name, In name names /\ meant_by f gs name x).
Proof. exact set_without_by_name. Qed.
Print Assumptions C25_set_without_nodes_by_name.

Theorem C30_set_into_vec : forall s : bset,
  StronglySorted lt (sr_into_vec s) /\ forall x, In x (sr_into_vec s) <-> mem x s = true.
Proof. exact set_into_vec. Qed.
Print Assumptions C30_set_into_vec.

Example C25_set_example :
  sr_into_vec (sr_without_nodes (of_list [5;1;3]) [3;7]) = [1;5] /\
  sr_into_vec (sr_without_nodes_pretty (of_list [5;1;3]) ["n3"; "nobody"] nested None) = [1;5].
Proof. vm_compute. auto. Qed.
