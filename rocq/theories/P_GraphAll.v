(** The random graph constructors for every choice of arguments. *)
From Coq Require Import ZArith Relation_Operators.
From Verif Require Import Spec_Bins P_List P_Builder P_QuorumSet P_SimGraph P_Mesh P_Shuffle P_SmallWorld P_ScaleFree P_ThSimGraph P_GraphIO P_Bins.
Local Open Scope list_scope.
Local Open Scope nat_scope.

(** ** scale free *)
Lemma scale_free_panics n m0 m r : new_random_scale_free n m0 m r = Panic <-> ~ (0 < m <= m0 /\ m0 <= n /\ (m0 = 1 -> n = 1)).
Proof.
  split.
  - intros E (Hm & Hn & H1). destruct (scale_free_inv n m0 m r Hm Hn) as (g & r' & E' & _); [lia|]. congruence.
  - intro H. destruct (le_lt_dec m 0) as [Hm|Hm].
    { unfold new_random_scale_free. replace (0 <? m) with false by (symmetry; apply Nat.ltb_ge; lia). reflexivity. }
    destruct (le_lt_dec m m0) as [Hm0|Hm0].
    2:{ unfold new_random_scale_free. replace (m <=? m0) with false by (symmetry; apply Nat.leb_gt; lia). rewrite andb_false_r. reflexivity. }
    destruct (le_lt_dec m0 n) as [Hn|Hn].
    + assert (m0 = 1) by lia. assert (m = 1) by lia. subst m0 m. apply scale_free_m0_1. lia.
    + destruct (Nat.eq_dec n 0) as [->|Hn0]; [|apply scale_free_m0_big; lia].
      unfold new_random_scale_free. replace (m <=? 0) with false by (symmetry; apply Nat.leb_gt; lia). rewrite andb_false_r. reflexivity.
Qed.

(** ** small worlds *)
Lemma even_mod k : Nat.Even k -> (k mod 2 =? 0) = true.
Proof. intros [h ->]. apply Nat.eqb_eq. rewrite Nat.mul_comm. apply Nat.mod_mul. lia. Qed.
Lemma half_full n x y : Nat.Even n -> x < n -> y < n -> (follows n (n / 2) x y \/ follows n (n / 2) y x <-> x <> y).
Proof.
  intros [h Hh] Hx Hy. assert (Hd : n / 2 = h) by (rewrite Hh, Nat.mul_comm; apply Nat.div_mul; lia). rewrite Hd, !follows_iff by lia. lia.
Qed.
Lemma map_constant {A B} (c : B) (l : list A) : map (fun _ => c) l = repeat c (List.length l).
Proof. induction l; cbn; congruence. Qed.
Lemma full_matrix n m : Nat.Even n -> (forall x y, x < n -> y < n -> (cell m x y = true <-> follows n (n / 2) x y \/ follows n (n / 2) y x)) ->
  free_targets n m = repeat [] n /\ graph_of_matrix n m = new_full_mesh n.
Proof.
  intros He Hc. assert (Hc' : forall x y, x < n -> y < n -> (cell m x y = true <-> x <> y)) by (intros; rewrite Hc, half_full; auto; tauto). clear Hc. split.
  - unfold free_targets. transitivity (map (fun _ : nat => @nil nat) (range 0 n)).
    + apply map_ext_in. intros x Hx. apply range_in in Hx. destruct (filter _ (range 0 n)) as [|y l] eqn:E; [auto|exfalso].
      assert (Hy : In y (y :: l)) by (left; auto). rewrite <- E in Hy. apply filter_In in Hy. destruct Hy as [Hy Hb]. apply range_in in Hy.
      rewrite !andb_true_iff, !negb_true_iff, Nat.eqb_neq in Hb. destruct Hb as ((Hne & H1) & _). assert (cell m x y = true) by (apply Hc'; lia). congruence.
    + rewrite map_constant, range_length. f_equal. lia.
  - destruct (full_mesh_spec n) as (L & A & K). apply ascending_ext; auto.
    + unfold graph_of_matrix. rewrite map_length, range_length. lia.
    + unfold ascending_links, graph_of_matrix. rewrite Forall_forall. intros l Hl. apply in_map_iff in Hl. destruct Hl as (x & <- & _).
      apply filter_sorted_lt, range_sorted.
    + intros x y. rewrite K. unfold graph_of_matrix. rewrite link_map, filter_In, range_in. split.
      * intros (Hx & Hy & H). split; [lia|]. split; [lia|]. apply Hc'; auto; lia.
      * intros (Hx & Hy & H). split; [lia|]. split; [lia|]. apply Hc'; auto.
Qed.
Lemma nothing_to_choose n i l : forall m r, i < n -> foldM (rewire_link i) (m, repeat [] n, r) l = Ok (m, repeat [] n, r).
Proof.
  induction l as [|j l IH]; intros m r Hi; [reflexivity|]. cbn [foldM]. unfold rewire_link at 1.
  rewrite (nth_error_repeat [] Hi). cbn [unwrap bind choose]. apply IH. auto.
Qed.
Lemma undirected_ok g (r : rng) : wf_graph g -> undirected g -> (u <- is_undirected g ;; assert u (Ok (g, r))) = Ok (g, r).
Proof. intros Hw Hu. destruct (is_undirected_spec g Hw) as (u & Eu & H). rewrite Eu. cbn [bind]. replace u with true by (symmetry; apply H; auto). reflexivity. Qed.
Lemma full_mesh_simple n : simple_graph (new_full_mesh n).
Proof.
  destruct (full_mesh_spec n) as (L & A & K). split; [|split; [|split]].
  - intros x y H. apply K in H. lia.
  - intros x y H. apply K in H. apply K. lia.
  - intros x H. apply K in H. lia.
  - apply ascending_no_repeats. auto.
Qed.
Lemma small_world_full n p r : Nat.Even n -> exists r', new_random_small_world n n (Some p) r = Ok (new_full_mesh n, r').
Proof.
  intros He. unfold new_random_small_world. rewrite even_mod by auto. cbn [assert].
  destruct (ring_lattice_ok n n) as (m & Em & Hm & Hc). { destruct (Nat.eq_dec n 0); [auto|right; apply Nat.div_lt; lia]. }
  rewrite Em. cbn [bind]. rewrite Nat.leb_refl. cbn [assert]. destruct (full_matrix n m He Hc) as [Hf Hg].
  destruct (foldM_range (rewire_node n n (Some p)) (fun i s => fst s = (m, repeat [] n)) 0 n (m, free_targets n m, r)) as ([[m' t'] r'] & Es & Hs); [lia| | |].
  - intros i [[m1 t1] r1] Hi E. cbn in E. injection E as -> ->. unfold rewire_node.
    destruct (links_to_rewire_ok p m i (ring_neighbors n n i) r1) as (l & r2 & El & _). rewrite El. cbn [bind fst snd].
    rewrite nothing_to_choose by lia. eexists. split; [reflexivity|reflexivity].
  - cbn. now rewrite Hf.
  - rewrite Es. cbn [bind]. cbn in Hs. injection Hs as -> ->. rewrite Hg. exists r'. apply undirected_ok; apply full_mesh_simple.
Qed.
Lemma no_links_wf n : wf_graph (repeat [] n) /\ forall i j, ~ link (repeat [] n) i j.
Proof.
  assert (H : forall i j, ~ link (repeat [] n) i j).
  { intros i j (l & El & Hj). apply nth_error_In, repeat_spec in El. subst l. destruct Hj. }
  split; auto. intros i j Hl. destruct (H i j Hl).
Qed.
Lemma small_world_none n beta r : new_random_small_world n 0 beta r = Ok (repeat [] n, r).
Proof.
  unfold new_random_small_world. cbn [Nat.modulo Nat.divmod fst Nat.sub Nat.eqb assert].
  destruct (ring_lattice_ok n 0) as (m & Em & Hm & Hc). { destruct n; [auto|right; cbn; lia]. }
  rewrite Em. cbn [bind Nat.leb assert].
  destruct (foldM_range (rewire_node n 0 beta) (fun i s => s = (m, free_targets n m, r)) 0 n (m, free_targets n m, r)) as (s & Es & ->); [lia| |auto|].
  - intros i s Hi ->. unfold rewire_node, ring_neighbors. replace (i + 0 / 2 + 1) with (i + 1) by (cbn; lia).
    unfold range. rewrite Nat.sub_diag. cbn [seq map links_to_rewire bind fst snd foldM]. eauto.
  - rewrite Es. cbn [bind]. assert (Hg : graph_of_matrix n m = repeat [] n).
    { unfold graph_of_matrix. transitivity (map (fun _ : nat => @nil nat) (range 0 n)).
      - apply map_ext_in. intros x Hx. apply range_in in Hx. destruct (filter _ (range 0 n)) as [|y l] eqn:E; [auto|exfalso].
        assert (Hy : In y (y :: l)) by (left; auto). rewrite <- E in Hy. apply filter_In in Hy. destruct Hy as [Hy Hb]. apply range_in in Hy.
        apply Hc in Hb; [|lia|lia]. destruct Hb as [(d & Hd & _)|(d & Hd & _)]; cbn in Hd; lia.
      - rewrite map_constant, range_length. f_equal. lia. }
    rewrite Hg. destruct (no_links_wf n) as [Hw Hn]. apply undirected_ok; auto. intros x y H. destruct (Hn x y H).
Qed.
Lemma links_to_rewire_none m i j l r : cell m i j = true -> links_to_rewire None m i (j :: l) r = Panic.
Proof. intro H. cbn [links_to_rewire]. rewrite H. reflexivity. Qed.
Lemma small_world_no_probability n k r : 0 < k -> new_random_small_world n k None r = Panic.
Proof.
  intros Hk. destruct (Nat.Even_or_Odd k) as [He|Ho]; [|apply small_world_panics; auto].
  destruct (le_lt_dec k n) as [Hn|Hn]; [|apply small_world_panics; auto].
  pose proof He as [h Hh]. assert (Hd : k / 2 = h) by (rewrite Hh, Nat.mul_comm; apply Nat.div_mul; lia).
  unfold new_random_small_world. rewrite even_mod by auto. cbn [assert].
  destruct (ring_lattice_ok n k) as (m & Em & Hm & Hc); [lia|]. rewrite Em. cbn [bind]. replace (k <=? n) with true by (symmetry; apply Nat.leb_le; lia). cbn [assert].
  replace (range 0 n) with (0 :: range 1 n) by (unfold range; rewrite Nat.sub_0_r; destruct n; [lia|]; cbn; rewrite Nat.sub_0_r; auto).
  cbn [foldM]. unfold rewire_node at 1.
  assert (Hr : exists l, ring_neighbors n k 0 = 1 mod n :: l).
  { unfold ring_neighbors, range. rewrite Hd. destruct h as [|h]; [lia|]. replace (0 + S h + 1 - (0 + 1)) with (S h) by lia. cbn [seq map]. cbn. eauto. }
  destruct Hr as (l & ->). rewrite links_to_rewire_none; [reflexivity|]. assert (Hlt : 1 mod n < n) by (apply Nat.mod_upper_bound; lia). apply Hc; [lia|auto|].
  left. exists 1. split; [lia|]. reflexivity.
Qed.
Lemma small_world_panics_exactly n k beta r : new_random_small_world n k beta r = Panic <-> Nat.Odd k \/ n < k \/ (beta = None /\ 0 < k).
Proof.
  split.
  - intro E. destruct (Nat.Even_or_Odd k) as [He|Ho]; [|auto]. destruct (le_lt_dec k n) as [Hn|Hn]; [|auto]. right. right.
    destruct (Nat.eq_dec k 0) as [->|Hk]; [rewrite small_world_none in E; discriminate|]. split; [|lia]. destruct beta as [p|]; auto. exfalso.
    destruct (Nat.eq_dec k n) as [->|Hne].
    + destruct (small_world_full n p r He) as (r' & E'). congruence.
    + destruct (small_world_ok n k p r He) as (g & r' & E' & _); [lia|]. congruence.
  - intros [H|[H|[-> H]]]; [apply small_world_panics; auto|apply small_world_panics; auto|apply small_world_no_probability; auto].
Qed.
Lemma full_mesh_edges n : has_edges (new_full_mesh n) (n * (n - 1) / 2).
Proof.
  apply simple_edges; [apply full_mesh_simple|]. unfold new_full_mesh. rewrite map_map.
  rewrite (map_ext_in _ (fun _ => n - 1)).
  - rewrite map_constant, range_length. assert (Hs : forall c k, list_sum (repeat c k) = k * c) by (intros c k; induction k as [|k IH]; [auto|]; unfold list_sum in *; cbn [repeat fold_right]; rewrite IH; lia).
    rewrite Hs, Nat.sub_0_r. destruct (Nat.Even_or_Odd n) as [[h ->]|[h ->]].
    + replace (2 * h * (2 * h - 1)) with (h * (2 * h - 1) * 2) by lia. rewrite Nat.div_mul by lia. lia.
    + replace ((2 * h + 1) * (2 * h + 1 - 1)) with ((2 * h + 1) * h * 2) by lia. rewrite Nat.div_mul by lia. lia.
  - intros i Hi. apply range_in in Hi. rewrite app_length, !range_length. lia.
Qed.
Lemma small_world_mesh n p r : Nat.Even n -> exists g r', new_random_small_world n n (Some p) r = Ok (g, r') /\ List.length g = n /\ ascending_links g /\
  forall i j, link g i j <-> i < n /\ j < n /\ i <> j.
Proof. intro He. destruct (small_world_full n p r He) as (r' & E). exists (new_full_mesh n), r'. split; [auto|]. apply full_mesh_spec. Qed.
Lemma proper_iff a : proper_graph a <-> accepted a /\ match a with BarabasiAlbert _ m0 _ => m0 <> 1 | WattsStrogatz _ k _ => k <> 0 end.
Proof.
  destruct a as [n m0 m|n k beta]; cbn [proper_graph accepted].
  - lia.
  - split.
    + intros (He & Hk & Hb). split; [|lia]. split; [auto|]. split; [lia|]. intro. congruence.
    + intros ((He & Hk & Hb) & H0). split; [auto|]. split; [destruct He; lia|]. intro. auto.
Qed.
