(** Specification of graphs, stated without the algorithms of the model. *)
From Verif Require Export Spec M_SimGraph.
Local Open Scope list_scope.

(** there is a link from [i] to [j] *)
Definition link (g : graph) (i j : nat) : Prop := exists l, nth_error g i = Some l /\ In j l.
(** links lead to nodes *)
Definition wf_graph (g : graph) : Prop := forall i j, link g i j -> j < List.length g.
Definition undirected (g : graph) : Prop := forall i j, link g i j -> link g j i.
Definition loop_free (g : graph) : Prop := forall i, ~ link g i i.
(** no link is listed twice *)
Definition no_repeated_links (g : graph) : Prop := Forall (@NoDup nat) g.
Definition simple_graph (g : graph) : Prop := wf_graph g /\ undirected g /\ loop_free g /\ no_repeated_links g.
(** links are listed in ascending order *)
Definition ascending_links (g : graph) : Prop := Forall (StronglySorted lt) g.

(** the number of edges of an undirected graph without loops *)
Definition has_edges (g : graph) (count : nat) : Prop :=
  exists E : list (nat * nat), NoDup E /\ (forall i j, In (i, j) E <-> i < j /\ link g i j) /\ List.length E = count.
(** node [i] has [d] links *)
Definition degree (g : graph) (i d : nat) : Prop := exists l, nth_error g i = Some l /\ List.length l = d.
(** there are [d] links to node [j], in the sense of pairs of a source and a position in its list *)
Definition in_degree (g : graph) (j d : nat) : Prop :=
  exists P : list (nat * nat), NoDup P /\
    (forall i k, In (i, k) P <-> exists l, nth_error g i = Some l /\ nth_error l k = Some j) /\ List.length P = d.

(** node [i] is in tier [t]: tiers are numbered from 0, nodes are assigned to tiers one after the other *)
Definition in_tier (sizes : list nat) (i t : nat) : Prop :=
  t < List.length sizes /\ list_sum (firstn t sizes) <= i < list_sum (firstn (S t) sizes).

(** two graphs are equal up to the names of nodes; the order of links is kept *)
Definition isomorphism (p : nat -> nat) (g g' : graph) : Prop :=
  List.length g' = List.length g /\
  (forall i, i < List.length g -> p i < List.length g) /\
  (forall i j, i < List.length g -> j < List.length g -> p i = p j -> i = j) /\
  (forall i l, nth_error g i = Some l -> nth_error g' (p i) = Some (map p l)).

(** [j] is one of the [h] nodes that follow [i] on a ring of [n] nodes *)
Definition follows (n h i j : nat) : Prop := exists d, 1 <= d <= h /\ j = (i + d) mod n.
