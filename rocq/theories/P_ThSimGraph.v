(** Lemmas and example graphs for [Th_SimGraph.v]. *)
From Verif Require Export Spec_GraphIO P_List P_SimGraph P_Mesh P_Shuffle P_ScaleFree P_SmallWorld P_GraphIO.
Local Open Scope string_scope.
Local Open Scope list_scope.

Lemma full_mesh_spec n : List.length (new_full_mesh n) = n /\ ascending_links (new_full_mesh n) /\
  forall i j, link (new_full_mesh n) i j <-> i < n /\ j < n /\ i <> j.
Proof. split; [apply full_mesh_size|]. split; [apply full_mesh_ascending|]. intros. apply full_mesh_links. Qed.

Lemma shuffled_spec g r : wf_graph g -> exists g' r' p, shuffled g r = Ok (g', r') /\ isomorphism p g g' /\
  (undirected g' <-> undirected g) /\
  (forall i d, i < List.length g -> (degree g' (p i) d <-> degree g i d) /\ (in_degree g' (p i) d <-> in_degree g i d)).
Proof.
  intros Hw. destruct (shuffled_iso g r Hw) as (g' & r' & p & E & H & _). exists g', r', p. split; auto. split; auto. split; [apply (iso_undirected p); auto|].
  intros i d Hi. split; [apply iso_degree; auto|apply iso_in_degree; auto].
Qed.

Lemma map_ext_range (p p' : nat -> nat) n : map p (range 0 n) = map p' (range 0 n) -> forall i, i < n -> p i = p' i.
Proof.
  intros H i Hi. assert (E : nth_error (map p (range 0 n)) i = nth_error (map p' (range 0 n)) i) by (rewrite H; auto).
  assert (Hr : nth_error (range 0 n) i = Some i).
  { rewrite (nth_error_some_nth _ _ 0); [|rewrite range_length; lia]. unfold range. rewrite seq_nth; auto. lia. }
  rewrite !(map_nth_error _ _ _ Hr) in E. congruence.
Qed.
Lemma shuffled_covers g p : wf_graph g -> (forall i, i < List.length g -> p i < List.length g) ->
  (forall i j, i < List.length g -> j < List.length g -> p i = p j -> i = j) ->
  exists r g' r', shuffled g r = Ok (g', r') /\ isomorphism p g g'.
Proof.
  intros Hw Hp Hi. set (n := List.length g) in *.
  assert (HP : Permutation (range 0 n) (map p (range 0 n))).
  { apply Permutation_sym, NoDup_Permutation_bis.
    - pose proof (range_nodup 0 n) as Hnd. assert (Hb : forall x, In x (range 0 n) -> x < n) by (intros x Hx; apply range_in in Hx; lia).
      revert Hnd Hb. generalize (range 0 n). induction l as [|x l IH]; intros Hnd Hb; cbn; constructor.
      + intros H. apply in_map_iff in H. destruct H as (y & E & Hy). apply Hi in E; [|apply Hb; right; auto|apply Hb; left; auto]. subst. inversion Hnd. auto.
      + apply IH; [inversion Hnd; auto|]. intros; apply Hb; right; auto.
    - rewrite map_length. auto.
    - intros y Hy. apply in_map_iff in Hy. destruct Hy as (x & <- & Hx). apply range_in in Hx. apply range_in. specialize (Hp x). lia. }
  destruct (shuffle_covers _ _ HP) as [r Er]. destruct (shuffled_iso g r Hw) as (g' & r' & p' & E & (H1 & H2 & H3 & H4) & Hm). fold n in Hm, H2, H3.
  rewrite Er in Hm. pose proof (map_ext_range _ _ _ Hm) as Hpp. exists r, g', r'. split; auto. split; auto. split; auto. split; auto.
  intros i l Hil. assert (Hin : i < n) by (apply nth_error_Some; congruence). rewrite <- Hpp; auto. rewrite (H4 i l Hil). f_equal.
  apply map_ext_in. intros j Hj. apply Hpp. apply (Hw i). exists l. auto.
Qed.

Lemma is_undirected_iff g : wf_graph g -> (is_undirected g = Ok true <-> undirected g).
Proof.
  intros Hw. destruct (is_undirected_spec g Hw) as (b & E & H). rewrite E. rewrite <- H. split; intros X; congruence.
Qed.
Lemma is_undirected_no_panic g : wf_graph g -> is_undirected g <> Panic.
Proof. intros Hw. destruct (is_undirected_spec g Hw) as (b & -> & _). discriminate. Qed.

(** ** examples *)
Definition zeros : rng := fun _ => 0%N.
Definition counter : rng := fun i => N.of_nat (i * i + 3 * i + 1).
Definition get_graph (x : res (graph * rng)) : res graph := res_map fst x.
Definition directed : graph := [[1; 3]; [2]; [0]; []].
Lemma directed_wf : wf_graph directed.
Proof.
  intros i j (l & E & H). change (List.length directed) with 4.
  destruct i as [|[|[|[|i]]]]; cbn in E; [injection E as <-..|destruct i; discriminate]; cbn in H; intuition lia.
Qed.
Lemma gap : exists g l, new_tiered_full_mesh [2; 0; 2] = Ok g /\ nth_error g 0 = Some l /\ ~ NoDup l /\
  in_tier [2; 0; 2] 2 2 /\ in_tier [2; 0; 2] 3 2 /\ ~ link g 2 3.
Proof.
  exists [[1; 1]; [0; 0]; []; []], [1; 1]. split; [reflexivity|]. split; [reflexivity|]. split.
  - intros H. inversion H as [|? ? Hn _]. apply Hn. left. auto.
  - split; [unfold in_tier; cbn; lia|]. split; [unfold in_tier; cbn; lia|]. intros (l & E & Hin). cbn in E. injection E as <-. destruct Hin.
Qed.
Lemma directed_lost : exists g text g', wf_graph g /\ ascending_links g /\ to_as_rel_string g None = Ok text /\ from_as_rel_string text = Ok g' /\
  link g 0 1 /\ ~ link g' 0 1 /\ ~ link g 1 0 /\ link g' 1 0.
Proof.
  exists [[1]; []], ("0|1|-1" ++ String newline "")%string, [[]; [0]]. split; [|split; [|split; [reflexivity|split; [reflexivity|]]]].
  - intros i j (l & E & H). destruct i as [|[|i]]; cbn in E; [injection E as <-..|destruct i; discriminate]; cbn in *; intuition lia.
  - repeat constructor.
  - split; [exists [1]; cbn; auto|]. split; [intros (l & E & H); cbn in E; injection E as <-; destruct H|].
    split; [intros (l & E & H); cbn in E; injection E as <-; destruct H|]. exists [0]. cbn. auto.
Qed.
Lemma isolated_lost : exists g text g', simple_graph g /\ ascending_links g /\ to_as_rel_string g None = Ok text /\ from_as_rel_string text = Ok g' /\
  List.length g = 3 /\ List.length g' = 2.
Proof.
  exists [[1]; [0]; []], ("0|1|0" ++ String newline "")%string, [[1]; [0]]. split; [|split; [repeat constructor|split; [reflexivity|split; reflexivity + (split; reflexivity)]]].
  assert (L : forall i j, link [[1]; [0]; []] i j <-> (i = 0 /\ j = 1) \/ (i = 1 /\ j = 0)).
  { intros i j. split.
    - intros (l & E & H). destruct i as [|[|[|i]]]; cbn in E; [injection E as <-..|destruct i; discriminate]; cbn in H; intuition lia.
    - intros [[-> ->]|[-> ->]]; eexists; split; try reflexivity; cbn; auto. }
  split; [|split; [|split]].
  - intros i j H. apply L in H. cbn. lia.
  - intros i j H. apply L in H. apply L. lia.
  - intros i H. apply L in H. lia.
  - repeat constructor; cbn; tauto.
Qed.
Lemma comment_break : exists comment text, to_as_rel_string (new_full_mesh 2) (Some comment) = Ok text /\ from_as_rel_string text = Panic.
Proof. exists ("a" ++ String newline "b")%string. eexists. split; [reflexivity|vm_compute; reflexivity]. Qed.
Definition as_items : list as_item :=
  [Comment " such lines are ignored"; Relation 1 2 true "|bgp"; Blank; Relation 2 4 false "|mlp"; Relation 4 5 false ""; Relation 4 1 true "|bgp"].
Lemma as_items_ok : Forall as_ok as_items.
Proof.
  unfold as_items. repeat (apply Forall_cons || apply Forall_nil); cbn [as_ok]; auto.
  1: vm_compute; repeat split; discriminate.
  all: split; [reflexivity|]; split; [reflexivity|]; split; [vm_compute; repeat split; discriminate|].
  all: try (left; reflexivity). all: right; eexists; reflexivity.
Qed.
Lemma mesh_wf n : wf_graph (new_full_mesh n).
Proof. intros i j H. apply full_mesh_links in H. rewrite full_mesh_size. lia. Qed.
Lemma small_world_degrees n k p r : Nat.Even k -> k < n -> exists g r', new_random_small_world n k (Some p) r = Ok (g, r') /\
  (forall i d, degree g i d -> k / 2 <= d) /\
  (p = 0%N -> forall i j, link g i j <-> i < n /\ j < n /\ (follows n (k / 2) i j \/ follows n (k / 2) j i)).
Proof.
  intros He Hk. destruct (small_world_ok n k p r He Hk) as (g & r' & E & Hl & _ & _ & _ & Hd & H0). exists g, r'. split; auto. split; auto.
  intros i d (l & El & <-). assert (Hi : i < n) by (rewrite <- Hl; apply nth_error_Some; congruence). specialize (Hd i Hi).
  unfold links in Hd. rewrite (nth_error_nth g i [] El) in Hd. auto.
Qed.
