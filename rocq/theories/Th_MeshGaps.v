(** C44: tiered meshes with empty tiers. *)
From Verif Require Import P_MeshGaps.
Local Open Scope list_scope.

(** For every list of sizes: the links are those of the tiers of every run of tiers that starts at the
    beginning or after an empty tier and has no empty tier itself, with nodes counted from 0 in each
    run. So nodes after an empty tier are left without links, unless earlier runs are smaller. *)
Theorem C44_all_sizes : forall sizes : list nat,
  exists g, new_tiered_full_mesh sizes = Ok g /\ List.length g = list_sum sizes /\
  forall i j, link g i j <-> exists run,
    (Forall (fun s => 0 < s) run /\
     exists before after, sizes = before ++ run ++ after /\ (before = [] \/ exists b, before = b ++ [0])) /\
    i <> j /\ exists t t', in_tier run i t /\ in_tier run j t' /\ (t' = t \/ S t' = t).
Proof. exact tiered_mesh_general. Qed.
Print Assumptions C44_all_sizes.

Example C44_all_sizes_example :
  new_tiered_full_mesh [1; 1; 0; 3] = Ok [[1; 2]; [0; 0; 2]; [0; 1]; []; []].
Proof. vm_compute. reflexivity. Qed.
