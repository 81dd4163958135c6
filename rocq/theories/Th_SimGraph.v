(** Graphs: C44, C45, C46, C47, C48, C49, C56, C57. *)
From Verif Require Import P_ThSimGraph.
Local Open Scope string_scope.
Local Open Scope list_scope.

(** C44 *)
Theorem C44_full_mesh : forall n, List.length (new_full_mesh n) = n /\ ascending_links (new_full_mesh n) /\
  forall i j, link (new_full_mesh n) i j <-> i < n /\ j < n /\ i <> j.
Proof. exact full_mesh_spec. Qed.
Print Assumptions C44_full_mesh.

(** missing: lists of sizes that contain a zero *)
Theorem C44_tiered_partial : forall (sizes : list nat), Forall (fun s => 0 < s) sizes ->
  exists g, new_tiered_full_mesh sizes = Ok g /\ List.length g = list_sum sizes /\ ascending_links g /\
  forall i j, link g i j <-> i <> j /\ exists t t', in_tier sizes i t /\ in_tier sizes j t' /\ (t' = t \/ S t' = t).
Proof. exact tiered_mesh_spec. Qed.
Print Assumptions C44_tiered_partial.

(** an empty tier between others: some links are listed twice and others are missing *)
Theorem C44_empty_tier_refuted : exists (sizes : list nat) (g : graph) (l : list nat) (i j t : nat),
  new_tiered_full_mesh sizes = Ok g /\ nth_error g 0 = Some l /\ ~ NoDup l /\
  i <> j /\ in_tier sizes i t /\ in_tier sizes j t /\ ~ link g i j.
Proof.
  exact (match gap with ex_intro _ g (ex_intro _ l (conj a (conj b (conj c (conj d (conj e f)))))) =>
    ex_intro _ [2; 0; 2] (ex_intro _ g (ex_intro _ l (ex_intro _ 2 (ex_intro _ 3 (ex_intro _ 2
      (conj a (conj b (conj c (conj (Nat.neq_succ_diag_r 2) (conj d (conj e f)))))))))))
  end).
Qed.
Print Assumptions C44_empty_tier_refuted.

Example C44_example : new_full_mesh 4 = [[1; 2; 3]; [0; 2; 3]; [0; 1; 3]; [0; 1; 2]] /\
  Forall (fun s => 0 < s) [2; 3; 1] /\
  new_tiered_full_mesh [2; 3; 1] = Ok [[1]; [0]; [0; 1; 3; 4]; [0; 1; 2; 4]; [0; 1; 2; 3]; [2; 3; 4]].
Proof. split; [reflexivity|]. split; [repeat constructor|reflexivity]. Qed.

(** C45: what reading yields after writing: links are reversed, loops are lost, as are nodes after the last
    connected one. Hence all is well for undirected graphs. *)
Theorem C45_written_and_read_partial : forall (g : graph) (comment : option string),
  wf_graph g -> (N.of_nat (List.length g) < 2 ^ 64)%N -> (forall c, comment = Some c -> free_of newline c) ->
  exists text g', to_as_rel_string g comment = Ok text /\ from_as_rel_string text = Ok g' /\ ascending_links g' /\
    (forall i j, link g' i j <-> i <> j /\ link g j i) /\
    least_above (fun i => exists j, i <> j /\ (link g i j \/ link g j i)) (List.length g').
Proof. exact as_rel_round_trip. Qed.
Print Assumptions C45_written_and_read_partial.

(** missing: directed graphs, loops, isolated nodes at the end *)
Theorem C45_undirected_partial : forall (g : graph) (comment : option string),
  wf_graph g -> undirected g -> loop_free g -> ascending_links g ->
  (g = [] \/ exists j, link g (List.length g - 1) j) -> (N.of_nat (List.length g) < 2 ^ 64)%N ->
  (forall c, comment = Some c -> free_of newline c) ->
  exists text, to_as_rel_string g comment = Ok text /\ from_as_rel_string text = Ok g.
Proof. exact as_rel_round_trip_id. Qed.
Print Assumptions C45_undirected_partial.

Theorem C45_directed_refuted : exists g text g', wf_graph g /\ ascending_links g /\
  to_as_rel_string g None = Ok text /\ from_as_rel_string text = Ok g' /\
  link g 0 1 /\ ~ link g' 0 1 /\ ~ link g 1 0 /\ link g' 1 0.
Proof. exact directed_lost. Qed.
Print Assumptions C45_directed_refuted.

Theorem C45_isolated_refuted : exists g text g', simple_graph g /\ ascending_links g /\
  to_as_rel_string g None = Ok text /\ from_as_rel_string text = Ok g' /\ List.length g = 3 /\ List.length g' = 2.
Proof. exact isolated_lost. Qed.
Print Assumptions C45_isolated_refuted.

Theorem C45_comment_refuted : exists comment text,
  to_as_rel_string (new_full_mesh 2) (Some comment) = Ok text /\ from_as_rel_string text = Panic.
Proof. exact comment_break. Qed.
Print Assumptions C45_comment_refuted.

Example C45_example : wf_graph (new_full_mesh 12) /\ undirected (new_full_mesh 12) /\ loop_free (new_full_mesh 12) /\
  ascending_links (new_full_mesh 12) /\ link (new_full_mesh 12) 11 10 /\
  (text <- to_as_rel_string (new_full_mesh 12) (Some "mesh") ;; from_as_rel_string text) = Ok (new_full_mesh 12).
Proof.
  split; [apply mesh_wf|]. split; [intros i j; rewrite !full_mesh_links; lia|]. split; [intros i; rewrite full_mesh_links; lia|].
  split; [apply full_mesh_ascending|]. split; [apply full_mesh_links; lia|vm_compute; reflexivity].
Qed.

(** C46 *)
Theorem C46_isomorphic : forall (g : graph) (r : rng), wf_graph g ->
  exists g' r' p, shuffled g r = Ok (g', r') /\ isomorphism p g g' /\ (undirected g' <-> undirected g) /\
  (forall i d, i < List.length g -> (degree g' (p i) d <-> degree g i d) /\ (in_degree g' (p i) d <-> in_degree g i d)).
Proof. exact shuffled_spec. Qed.
Print Assumptions C46_isomorphic.

(** every renumbering is a possible outcome *)
Theorem C46_every_order : forall (g : graph) (p : nat -> nat), wf_graph g ->
  (forall i, i < List.length g -> p i < List.length g) ->
  (forall i j, i < List.length g -> j < List.length g -> p i = p j -> i = j) ->
  exists r g' r', shuffled g r = Ok (g', r') /\ isomorphism p g g'.
Proof. exact shuffled_covers. Qed.
Print Assumptions C46_every_order.

Example C46_example : wf_graph directed /\ get_graph (shuffled directed zeros) = Ok [[]; [2; 0]; [3]; [1]].
Proof. split; [exact directed_wf|vm_compute; reflexivity]. Qed.

(** C47: [Some p] stands for a valid probability *)
Theorem C47_small_world : forall (n k : nat) (p : N) (r : rng), Nat.Even k -> k < n ->
  exists g r', new_random_small_world n k (Some p) r = Ok (g, r') /\
    List.length g = n /\ simple_graph g /\ ascending_links g /\ has_edges g (n * k / 2).
Proof.
  exact (fun n k p r He Hk => match small_world_ok n k p r He Hk with
    ex_intro _ g (ex_intro _ r' (conj a (conj b (conj c (conj d (conj e _)))))) => ex_intro _ g (ex_intro _ r' (conj a (conj b (conj c (conj d e)))))
  end).
Qed.
Print Assumptions C47_small_world.

Example C47_example : Nat.Even 4 /\ 4 < 6 /\
  get_graph (new_random_small_world 6 4 (Some (2 ^ 63)%N) counter)
    = Ok [[1; 2; 3; 5]; [0; 2; 3; 4]; [0; 1; 3; 4]; [0; 1; 2; 4; 5]; [1; 2; 3; 5]; [0; 3; 4]].
Proof. split; [exists 2; reflexivity|]. split; [lia|vm_compute; reflexivity]. Qed.

(** C57: rewiring *)
Theorem C57_degrees : forall (n k : nat) (p : N) (r : rng), Nat.Even k -> k < n ->
  exists g r', new_random_small_world n k (Some p) r = Ok (g, r') /\
    (forall i d, degree g i d -> k / 2 <= d) /\
    (p = 0%N -> forall i j, link g i j <-> i < n /\ j < n /\ (follows n (k / 2) i j \/ follows n (k / 2) j i)).
Proof. exact small_world_degrees. Qed.
Print Assumptions C57_degrees.

Theorem C57_panics : forall (n k : nat) (beta : probability) (r : rng), Nat.Odd k \/ n < k -> new_random_small_world n k beta r = Panic.
Proof. exact small_world_panics. Qed.
Print Assumptions C57_panics.

(** the least degree is reached: in the first run, nodes 1 and 5 are left with one link; without rewiring, a ring *)
Example C57_example :
  get_graph (new_random_small_world 6 2 (Some (2 ^ 64)%N) counter) = Ok [[1; 4]; [0]; [3; 4]; [2; 4]; [0; 2; 3; 5]; [4]] /\
  get_graph (new_random_small_world 5 2 (Some 0%N) counter) = Ok [[1; 4]; [0; 2]; [1; 3]; [2; 4]; [0; 3]].
Proof. split; vm_compute; reflexivity. Qed.

(** C48; missing: [m0 = 1 < n] *)
Theorem C48_scale_free_partial : forall (n m0 m : nat) (r : rng), 0 < m <= m0 -> m0 <= n -> (2 <= m0 \/ m0 = n) ->
  exists g r', new_random_scale_free n m0 m r = Ok (g, r') /\ simple_graph g /\ List.length g = n /\
    has_edges g (m0 * (m0 - 1) / 2 + (n - m0) * m) /\
    (forall x y, x < m0 -> y < m0 -> x <> y -> link g x y) /\
    (forall x, m0 <= x < n -> List.length (filter (fun y => Nat.ltb y x) (links g x)) = m).
Proof. exact scale_free_inv. Qed.
Print Assumptions C48_scale_free_partial.

(** with a single initial node all weights are zero *)
Theorem C48_one_initial_node_refuted : forall (n : nat) (r : rng), 2 <= n -> new_random_scale_free n 1 1 r = Panic.
Proof. exact scale_free_m0_1. Qed.
Print Assumptions C48_one_initial_node_refuted.

(** [m0 <= n] is not asserted, but larger numbers panic *)
Theorem C48_too_many_initial_nodes : forall (n m0 m : nat) (r : rng), n < m0 -> 0 < n -> new_random_scale_free n m0 m r = Panic.
Proof. exact scale_free_m0_big. Qed.
Print Assumptions C48_too_many_initial_nodes.

Example C48_example : get_graph (new_random_scale_free 6 3 2 counter)
  = Ok [[1; 2; 3; 4; 5]; [0; 2; 3; 5]; [0; 1]; [0; 1; 4]; [0; 3]; [0; 1]].
Proof. vm_compute. reflexivity. Qed.

(** C49 *)
Theorem C49_in_degrees : forall (g : graph), wf_graph g ->
  exists d, get_in_degrees g = Ok d /\ List.length d = List.length g /\
    list_sum d = list_sum (get_out_degrees g) /\ forall j k, nth_error d j = Some k -> in_degree g j k.
Proof. exact in_degrees_spec. Qed.
Print Assumptions C49_in_degrees.

Theorem C49_out_degrees : forall (g : graph) (i d : nat), nth_error (get_out_degrees g) i = Some d <-> degree g i d.
Proof. exact out_degrees_spec. Qed.
Print Assumptions C49_out_degrees.

Theorem C49_undirected : forall (g : graph), wf_graph g -> (is_undirected g = Ok true <-> undirected g) /\ is_undirected g <> Panic.
Proof. exact (fun g H => conj (is_undirected_iff g H) (is_undirected_no_panic g H)). Qed.
Print Assumptions C49_undirected.

Theorem C49_connected_nodes : forall (g : graph) (i : nat), mem i (get_connected_nodes g) = true <-> exists j, link g i j \/ link g j i.
Proof. exact connected_spec. Qed.
Print Assumptions C49_connected_nodes.

Theorem C49_invalid_ids : forall (g : graph), ~ wf_graph g -> get_in_degrees g = Panic.
Proof. exact in_degrees_panic. Qed.
Print Assumptions C49_invalid_ids.

Example C49_example : wf_graph directed /\ get_in_degrees directed = Ok [1; 1; 1; 1] /\ get_out_degrees directed = [2; 1; 1; 0] /\
  is_undirected directed = Ok false /\ is_undirected (new_full_mesh 3) = Ok true /\ elements (get_connected_nodes [[]; [3]; []; [3]; []]) = [1; 3].
Proof. split; [exact directed_wf|]. repeat (split; [vm_compute; reflexivity|]). vm_compute. reflexivity. Qed.

(** C56: the last line may lack the line break *)
Theorem C56_reading : forall (items : list as_item) (last : option as_item),
  Forall as_ok items -> (forall item, last = Some item -> as_ok item) ->
  exists g, from_as_rel_string (as_text items ++ final_line last) = Ok g /\ ascending_links g /\
    (forall i j, link g i j <-> said_link (items ++ final_item last) i j) /\
    least_above (said_node (items ++ final_item last)) (List.length g).
Proof. exact read_text. Qed.
Print Assumptions C56_reading.

Example C56_example : Forall as_ok as_items /\
  from_as_rel_string (as_text as_items) = Ok [[]; [2; 4]; [1]; []; [1; 2]; [4]] /\
  from_as_rel_string "1|2|1" = Panic /\ from_as_rel_string "1|x|0" = Panic /\ from_as_rel_string "1|2" = Panic.
Proof. split; [exact as_items_ok|]. repeat (split; [vm_compute; reflexivity|]). vm_compute. reflexivity. Qed.
