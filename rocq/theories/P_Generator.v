(** Proofs about the graph generator as a program: what it prints, and what the simulator makes of it. *)
From Coq Require Import ZArith Relation_Operators.
From Verif Require Import Spec_Bins P_List P_Builder P_QuorumSet P_SimGraph P_Mesh P_Shuffle P_SmallWorld P_ScaleFree P_ThSimGraph P_GraphIO P_GraphAll P_RandomQsc P_Bins P_Simulator.
Local Open Scope list_scope.
Local Open Scope nat_scope.

Definition no_isolated_nodes (g : graph) : Prop := forall i, i < List.length g -> exists j, link g i j.

Lemma generated a r : proper_graph a -> exists g r', apply_graph_gen_alg a r = Ok (g, r') /\ List.length g = graph_size a /\ simple_graph g /\
  has_edges g (edge_count a) /\ no_isolated_nodes g.
Proof.
  destruct a as [n m0 m|n k beta]; cbn [proper_graph apply_graph_gen_alg graph_size edge_count].
  - intros [Hm Hn]. destruct (scale_free_inv n m0 m r Hm) as (g & r' & E & Hs & Hl & He & H0 & H1); try lia. exists g, r'. split; [auto|]. split; [auto|]. split; [auto|].
    split; [auto|]. intros i Hi. rewrite Hl in Hi. destruct (le_lt_dec m0 i) as [Hi0|Hi0].
    + specialize (H1 i ltac:(lia)). destruct (filter (fun y => Nat.ltb y i) (links g i)) as [|y l] eqn:Ef; [cbn in H1; lia|].
      assert (Hy : In y (links g i)) by (eapply proj1, filter_In; rewrite Ef; left; eauto). unfold links in Hy.
      exists y, (nth i g []). split; auto. apply nth_error_nth'. lia.
    + exists (if i =? 0 then 1 else 0). apply H0; destruct (Nat.eqb_spec i 0); lia.
  - intros (He & Hk & Hb). destruct beta as [p|]; [|congruence]. destruct (Nat.eqb_spec k n) as [->|Hne].
    { destruct (small_world_full n p r He) as (r' & E). destruct (full_mesh_spec n) as (L & _ & K). exists (new_full_mesh n), r'. split; [auto|]. split; [auto|].
      split; [apply full_mesh_simple|]. split; [apply full_mesh_edges|]. intros i Hi. rewrite L in Hi. exists (if i =? 0 then 1 else 0). apply K. destruct (Nat.eqb_spec i 0); lia. }
    destruct (small_world_ok n k p r He ltac:(lia)) as (g & r' & E & Hl & Hs & _ & Hc & Hd & _).
    exists g, r'. split; [auto|]. split; [auto|]. split; [auto|]. split; [auto|]. intros i Hi. rewrite Hl in Hi. specialize (Hd i Hi).
    assert (1 <= k / 2) by (apply Nat.div_le_lower_bound; lia). unfold links in Hd. destruct (nth i g []) as [|y l] eqn:En; [cbn [List.length] in Hd; lia|].
    exists y, (y :: l). split; [|left; auto]. rewrite <- En. apply nth_error_nth'. lia.
Qed.

Lemma iso_link p g g' i j : isomorphism p g g' -> i < List.length g -> j < List.length g -> wf_graph g -> (link g' (p i) (p j) <-> link g i j).
Proof.
  intros (Hl & Hp & Hi & Hn) Li Lj Hw. destruct (nth_error g i) as [l|] eqn:E; [|apply nth_error_None in E; lia]. specialize (Hn i l E). split.
  - intros (l' & E' & H). rewrite Hn in E'. injection E' as <-. apply in_map_iff in H. destruct H as (x & Ex & Hx). exists l. split; auto.
    assert (x < List.length g) by (apply (Hw i); exists l; auto). apply Hi in Ex; auto. subst. auto.
  - intros (l' & E' & H). rewrite E in E'. injection E' as <-. exists (map p l). split; auto. apply in_map. auto.
Qed.
Lemma injective_onto (p : nat -> nat) n : (forall i, i < n -> p i < n) -> (forall i j, i < n -> j < n -> p i = p j -> i = j) -> forall y, y < n -> exists x, x < n /\ p x = y.
Proof.
  intros Hp Hi y Hy.
  assert (HP : incl (seq 0 n) (map p (seq 0 n))).
  { apply NoDup_length_incl.
    - assert (H : forall l, NoDup l -> (forall x, In x l -> x < n) -> NoDup (map p l)).
      { induction l as [|x l IH]; intros Hnd Hb; cbn; constructor.
        - intros H. apply in_map_iff in H. destruct H as (z & E & Hz). apply Hi in E; [|apply Hb; right; auto|apply Hb; left; auto]. subst. inversion Hnd. auto.
        - apply IH; [inversion Hnd; auto|]. intros; apply Hb; right; auto. }
      apply H; [apply seq_NoDup|]. intros x Hx. apply in_seq in Hx. lia.
    - rewrite map_length. auto.
    - intros x Hx. apply in_map_iff in Hx. destruct Hx as (z & <- & Hz). apply in_seq in Hz. apply in_seq. specialize (Hp z). lia. }
  specialize (HP y). rewrite in_map_iff in HP. destruct HP as (x & E & Hx); [apply in_seq; lia|]. apply in_seq in Hx. exists x. split; [lia|auto].
Qed.

(** shapes *)
Lemma shape_refl g : same_shape (fun x => x) g g.
Proof. split; [auto|]. split; [auto|]. split; [auto|]. tauto. Qed.
Lemma iso_shape p g g' : isomorphism p g g' -> wf_graph g -> same_shape p g g'.
Proof. intros H Hw. destruct H as (Hl & Hp & Hi & Hn) eqn:EH. split; [auto|]. split; [auto|]. split; [auto|]. intros. apply iso_link; auto. Qed.
Lemma shape_same_links p g g' g'' : same_shape p g g' -> List.length g'' = List.length g' -> (forall i j, link g'' i j <-> link g' i j) -> same_shape p g g''.
Proof. intros (Hl & Hp & Hi & Hn) L H. split; [congruence|]. split; [auto|]. split; [auto|]. intros i j Li Lj. rewrite H. auto. Qed.
Lemma shape_undirected p g g' : same_shape p g g' -> wf_graph g' -> undirected g -> undirected g'.
Proof.
  intros (Hl & Hp & Hi & Hn) Hw Hu x y H. pose proof (link_lt _ _ _ H) as Lx. pose proof (Hw _ _ H) as Ly. rewrite Hl in Lx, Ly.
  destruct (injective_onto p _ Hp Hi x Lx) as (i & Li & <-). destruct (injective_onto p _ Hp Hi y Ly) as (j & Lj & <-).
  apply Hn; auto. apply Hu. apply Hn; auto.
Qed.
Lemma shape_loop_free p g g' : same_shape p g g' -> loop_free g -> loop_free g'.
Proof.
  intros (Hl & Hp & Hi & Hn) Hf x H. pose proof (link_lt _ _ _ H) as Lx. rewrite Hl in Lx. destruct (injective_onto p _ Hp Hi x Lx) as (i & Li & <-).
  apply (Hf i). apply Hn; auto.
Qed.
Lemma shape_isolated p g g' : same_shape p g g' -> wf_graph g -> no_isolated_nodes g -> no_isolated_nodes g'.
Proof.
  intros (Hl & Hp & Hi & Hn) Hw H x Lx. rewrite Hl in Lx. destruct (injective_onto p _ Hp Hi x Lx) as (i & Li & <-).
  destruct (H i Li) as (j & Hj). exists (p j). apply Hn; auto. eapply Hw; eauto.
Qed.
Lemma shape_edges p g g' c : same_shape p g g' -> wf_graph g -> wf_graph g' -> undirected g -> loop_free g -> has_edges g c -> has_edges g' c.
Proof.
  intros Hs Hw Hw' Hu Hf (E & Hnd & HE & Hc). pose proof (shape_undirected p g g' Hs Hw' Hu) as Hu'. destruct Hs as (Hl & Hp & Hi & Hn).
  set (f := fun e : nat * nat => (Nat.min (p (fst e)) (p (snd e)), Nat.max (p (fst e)) (p (snd e)))).
  assert (HB : forall e, In e E -> fst e < snd e /\ fst e < List.length g /\ snd e < List.length g /\ link g (fst e) (snd e)).
  { intros [i j] He. apply HE in He. cbn. destruct He as [Hij He]. pose proof (link_lt _ _ _ He). pose proof (Hw _ _ He). auto. }
  exists (map f E). split; [|split; [|rewrite map_length; auto]].
  - clear HE Hc. induction Hnd as [|[i j] E' Hnot Hnd IH]; cbn [map]; constructor.
    + intros H. apply in_map_iff in H. destruct H as ([k l] & Ef & H). destruct (HB (i, j)) as (A1 & A2 & A3 & _); [left; auto|].
      destruct (HB (k, l)) as (B1 & B2 & B3 & _); [right; auto|]. unfold f in Ef. cbn [fst snd] in *. injection Ef as E1 E2.
      assert (Hc : (p k = p i /\ p l = p j) \/ (p k = p j /\ p l = p i)) by lia. destruct Hc as [[C1 C2]|[C1 C2]]; apply Hi in C1; auto; apply Hi in C2; auto; subst; [auto|lia].
    + apply IH. intros e He. apply HB. right. auto.
  - intros x y. rewrite in_map_iff. split.
    + intros ([i j] & Ef & He). destruct (HB _ He) as (A1 & A2 & A3 & A4). unfold f in Ef. cbn [fst snd] in *. injection Ef as E1 E2.
      assert (Hne : p i <> p j) by (intro C; apply Hi in C; auto; lia). assert (Hlink : link g' (p i) (p j)) by (apply Hn; auto). split; [lia|].
      destruct (Nat.min_spec (p i) (p j)) as [[Ho Em]|[Ho Em]]; [replace x with (p i) by lia; replace y with (p j) by lia; auto|].
      replace x with (p j) by lia. replace y with (p i) by lia. auto.
    + intros [Hxy H]. pose proof (link_lt _ _ _ H) as Lx. pose proof (Hw' _ _ H) as Ly. rewrite Hl in Lx, Ly.
      destruct (injective_onto p _ Hp Hi x Lx) as (i & Li & <-). destruct (injective_onto p _ Hp Hi y Ly) as (j & Lj & <-). apply Hn in H; auto.
      destruct (lt_eq_lt_dec i j) as [[Hij|Hij]|Hij].
      * exists (i, j). split; [|apply HE; auto]. unfold f. cbn [fst snd]. f_equal; lia.
      * subst. lia.
      * exists (j, i). split; [|apply HE; auto]. unfold f. cbn [fst snd]. f_equal; lia.
Qed.

(** ** the text *)
Lemma written_items_ok g comment : wf_graph g -> (N.of_nat (List.length g) < 2 ^ 64)%N -> (forall c, comment = Some c -> free_of newline c) ->
  Forall as_ok (head_items comment ++ graph_items g).
Proof.
  intros Hw Hn Hc. apply Forall_forall. intros item Hitem. apply in_app_or in Hitem. destruct Hitem as [H|H].
  - destruct comment as [c|]; [|destruct H]. destruct H as [<-|[]]. split; [discriminate|]. apply Hc. auto.
  - destruct item as [|t|a b p rest]; cbn [as_ok]; auto.
    + exfalso. unfold graph_items in H. apply in_flat_map in H. destruct H as ((i & l) & _ & H). apply in_flat_map in H. destruct H as (j & _ & H).
      unfold link_item in H. destruct (existsb _ _); [destruct (i <? j)%nat|]; cbn in H; intuition discriminate.
    + apply graph_items_in in H. destruct H as (H & -> & _). pose proof (Hw _ _ H). pose proof (link_lt _ _ _ H).
      split; [lia|]. split; [lia|]. split; [exact I|auto].
Qed.
Lemma blank_appended items : Forall as_ok items ->
  from_as_rel_string (as_text items ++ String newline EmptyString)%string = from_as_rel_string (as_text items).
Proof.
  intros Hok. replace (as_text items ++ String newline EmptyString)%string with (as_text (items ++ [Blank]) ++ final_line None)%string.
  2:{ rewrite as_text_app. cbn [as_text as_line final_line]. rewrite append_nil. auto. }
  replace (as_text items) with (as_text items ++ final_line None)%string by (cbn [final_line]; apply append_nil).
  destruct (read_text items None Hok ltac:(discriminate)) as (g & -> & A & L & S1 & S2).
  destruct (read_text (items ++ [Blank]) None) as (g' & -> & A' & L' & S1' & S2'); [apply Forall_app; split; auto; constructor; [exact I|constructor]|discriminate|].
  cbn [final_item] in *. rewrite !app_nil_r in *. f_equal.
  assert (Hin : forall a b p rest, In (Relation a b p rest) (items ++ [Blank]) <-> In (Relation a b p rest) items).
  { intros. rewrite in_app_iff. cbn. split; [intros [H|[H|[]]]; [auto|discriminate H]|auto]. }
  assert (Hsn : forall i, said_node (items ++ [Blank]) i <-> said_node items i) by (intro i; unfold said_node; setoid_rewrite Hin; tauto).
  apply ascending_ext; auto.
  - apply Nat.le_antisymm; [apply S2'|apply S2]; intros i Hi; [apply S1, Hsn, Hi|apply S1', Hsn, Hi].
  - intros i j. rewrite L, L'. unfold said_link. setoid_rewrite Hin. tauto.
Qed.
Lemma written_and_read g comment : simple_graph g -> no_isolated_nodes g -> (N.of_nat (List.length g) < 2 ^ 64)%N -> (forall c, comment = Some c -> free_of newline c) ->
  exists text g', to_as_rel_string g comment = Ok text /\ from_as_rel_string text = Ok g' /\ from_as_rel_string (text ++ String newline EmptyString)%string = Ok g' /\
  ascending_links g' /\ List.length g' = List.length g /\ forall i j, link g' i j <-> link g i j.
Proof.
  intros (Hw & Hu & Hf & Hr) Hi Hn Hc. destruct (as_rel_round_trip g comment Hw Hn Hc) as (text & g' & E1 & E2 & Ha & Hl & S1 & S2).
  exists text, g'. split; [auto|]. split; [auto|]. split.
  { rewrite (write_ok g comment Hw) in E1. injection E1 as <-. rewrite blank_appended; auto. apply written_items_ok; auto. }
  split; [auto|]. split.
  - apply Nat.le_antisymm.
    + apply S2. intros i (j & _ & [H|H]); [apply (link_lt _ _ _ H)|apply (Hw _ _ H)].
    + destruct (Nat.eq_dec (List.length g) 0) as [E|E]; [lia|]. destruct (Hi (List.length g - 1)) as (j & Hj); [lia|].
      assert (List.length g - 1 < List.length g'); [|lia]. apply S1. exists j. split; auto. intros C. apply (Hf j). rewrite <- C at 1. auto.
  - intros i j. rewrite Hl. split; [intros [_ H]; auto|]. intros H. split; auto. intros ->. apply (Hf j). auto.
Qed.

Lemma debug_free (debug_f64 : probability -> string) a : (forall b, free_of newline (debug_f64 b)) -> free_of newline ("Graph generated using " ++ debug_algorithm debug_f64 a)%string.
Proof.
  intros H. assert (Happ : forall s t, free_of newline s -> free_of newline t -> free_of newline (s ++ t)%string).
  { induction s as [|c s IH]; cbn; auto. intros t [Hc Hs] Ht. split; auto. }
  assert (Hnl : ~ digit newline) by (unfold digit; cbn; intuition discriminate).
  assert (Hp : forall n, free_of newline (print_nat n)) by (intro n; apply digits_free; [auto|apply print_nat_digits]).
  apply Happ; [cbn; repeat split; discriminate|]. destruct a as [n m0 m|n k beta]; cbn [debug_algorithm]; repeat (apply Happ; auto); cbn; repeat split; discriminate.
Qed.

Lemma ok_inj {A} (x y : A) : Ok x = Ok y -> x = y.
Proof. congruence. Qed.
Lemma prefix_append (s t : string) : String.prefix s (s ++ t)%string = true.
Proof. induction s as [|c s IH]; [destruct t; auto|]. cbn [append]. simpl. destruct (Ascii.ascii_dec c c); [auto|congruence]. Qed.
Lemma generator_of (debug_f64 : probability -> string) args r g r' n edges : (forall b, free_of newline (debug_f64 b)) -> (N.of_nat n < 2 ^ 64)%N ->
  apply_graph_gen_alg (arg_algorithm args) r = Ok (g, r') -> List.length g = n -> simple_graph g -> has_edges g edges -> no_isolated_nodes g ->
  exists o g' p, graph_generator debug_f64 args r = Ok o /\ goes_to args o /\ String.prefix (head_line debug_f64 (arg_algorithm args)) (output_text o) = true /\
  from_as_rel_string (output_text o) = Ok g' /\ simple_graph g' /\ List.length g' = n /\
  has_edges g' edges /\ (forall i, i < List.length g' -> exists j, link g' i j) /\
  same_shape p g g' /\ (arg_dont_shuffle args = true -> forall i, p i = i) /\
  (arg_dont_shuffle args = false -> map p (range 0 (List.length g)) = fst (shuffle (range 0 (List.length g)) r')).
Proof.
  intros Hd Hn E Hl Hs He Hi. destruct Hs as (Hw & Hu & Hf & Hr).
  assert (Hg1 : exists g1 p, (if arg_dont_shuffle args then Ok g else res_map fst (shuffled g r')) = Ok g1 /\ same_shape p g g1 /\ wf_graph g1 /\ no_repeated_links g1 /\
    (arg_dont_shuffle args = true -> forall i, p i = i) /\ (arg_dont_shuffle args = false -> map p (range 0 (List.length g)) = fst (shuffle (range 0 (List.length g)) r'))).
  { destruct (arg_dont_shuffle args).
    - exists g, (fun x => x). split; auto. split; [apply shape_refl|]. split; [auto|]. split; [auto|]. split; [auto|discriminate].
    - destruct (shuffled_iso g r' Hw) as (g1 & r1 & p & E1 & Hiso & Hmap). exists g1, p. rewrite E1. split; auto. split; [apply iso_shape; auto|].
      pose proof (iso_shape p g g1 Hiso Hw) as Hsh. destruct Hiso as (L & P & I & Nn). split; [|split; [|split; [discriminate|auto]]].
      + intros x y (l & El & Hy). assert (Lx : x < List.length g) by (rewrite <- L; apply nth_error_Some; congruence).
        destruct (injective_onto p _ P I x Lx) as (i & Li & <-). destruct (nth_error g i) as [l0|] eqn:E0; [|apply nth_error_None in E0; lia].
        rewrite (Nn i l0 E0) in El. injection El as <-. apply in_map_iff in Hy. destruct Hy as (z & <- & Hz). rewrite L. apply P. apply (Hw i). exists l0. auto.
      + unfold no_repeated_links. apply Forall_forall. intros l Hin. apply In_nth_error in Hin. destruct Hin as (x & El).
        assert (Lx : x < List.length g) by (rewrite <- L; apply nth_error_Some; congruence).
        destruct (injective_onto p _ P I x Lx) as (i & Li & <-). destruct (nth_error g i) as [l0|] eqn:E0; [|apply nth_error_None in E0; lia].
        rewrite (Nn i l0 E0) in El. injection El as <-. assert (Hb : forall z, In z l0 -> z < List.length g) by (intros z Hz; apply (Hw i); exists l0; auto).
        assert (Hnd : NoDup l0) by (unfold no_repeated_links in Hr; rewrite Forall_forall in Hr; apply Hr; eapply nth_error_In; eauto).
        clear - Hb Hnd I. induction Hnd as [|z l0 Hz Hnd IH]; cbn; constructor.
        * intros C. apply in_map_iff in C. destruct C as (y & C & Hy). apply I in C; [subst; auto|apply Hb; right; auto|apply Hb; left; auto].
        * apply IH. intros; apply Hb; right; auto. }
  destruct Hg1 as (g1 & p & E1 & Hsh & Hw1 & Hr1 & Hid).
  assert (L1 : List.length g1 = List.length g) by (destruct Hsh; auto).
  destruct (written_and_read g1 (Some ("Graph generated using " ++ debug_algorithm debug_f64 (arg_algorithm args))%string)) as (text & g' & Et & Ef & Efn & Ha & L & Hk).
  { split; [auto|]. split; [eapply shape_undirected; eauto|]. split; [eapply shape_loop_free; eauto|auto]. }
  { eapply shape_isolated; eauto. }
  { rewrite L1, Hl. auto. }
  { intros c Ec. injection Ec as <-. apply debug_free. auto. }
  assert (Hsh' : same_shape p g g') by (eapply shape_same_links; eauto).
  assert (Hw' : wf_graph g') by (intros i j H; apply Hk in H; rewrite L; eapply Hw1; eauto).
  assert (Hhead : String.prefix (head_line debug_f64 (arg_algorithm args)) text = true /\ String.prefix (head_line debug_f64 (arg_algorithm args)) (text ++ String newline EmptyString)%string = true).
  { rewrite (write_ok g1 _ Hw1) in Et. apply ok_inj in Et. rewrite <- Et, as_text_app.
    assert (Eh : as_text (head_items (Some ("Graph generated using " ++ debug_algorithm debug_f64 (arg_algorithm args))%string)) = head_line debug_f64 (arg_algorithm args)).
    { unfold head_line. cbn [head_items as_text as_line]. rewrite !append_assoc. auto. }
    rewrite Eh. split; [|rewrite append_assoc]; apply prefix_append. }
  exists (match arg_path args with Some path => To_file path text | None => To_stdout (text ++ String newline EmptyString)%string end), g', p.
  split; [unfold graph_generator; rewrite E; cbn [bind fst snd]; rewrite E1; cbn [bind]; rewrite Et; auto|].
  split; [unfold goes_to; destruct (arg_path args); eauto|].
  split; [destruct (arg_path args); cbn [output_text]; apply Hhead|].
  split; [destruct (arg_path args); cbn [output_text]; auto|].
  split; [|split; [congruence|split; [eapply shape_edges; eauto|split; [eapply shape_isolated; eauto|auto]]]].
  split; [auto|]. split; [eapply shape_undirected; eauto|]. split; [eapply shape_loop_free; eauto|].
  apply ascending_no_repeats. auto.
Qed.
Lemma generator_spec (debug_f64 : probability -> string) args r : (forall b, free_of newline (debug_f64 b)) -> proper_graph (arg_algorithm args) ->
  (N.of_nat (graph_size (arg_algorithm args)) < 2 ^ 64)%N ->
  exists o g' g r' p, graph_generator debug_f64 args r = Ok o /\ goes_to args o /\ String.prefix (head_line debug_f64 (arg_algorithm args)) (output_text o) = true /\
  from_as_rel_string (output_text o) = Ok g' /\ simple_graph g' /\ List.length g' = graph_size (arg_algorithm args) /\
  has_edges g' (edge_count (arg_algorithm args)) /\ (forall i, i < List.length g' -> exists j, link g' i j) /\
  apply_graph_gen_alg (arg_algorithm args) r = Ok (g, r') /\ same_shape p g g' /\ (arg_dont_shuffle args = true -> forall i, p i = i) /\
  (arg_dont_shuffle args = false -> map p (range 0 (List.length g)) = fst (shuffle (range 0 (List.length g)) r')).
Proof.
  intros Hd Hp Hn. destruct (generated (arg_algorithm args) r Hp) as (g & r' & E & Hl & Hs & He & Hi).
  destruct (generator_of debug_f64 args r g r' (graph_size (arg_algorithm args)) (edge_count (arg_algorithm args)) Hd Hn E Hl Hs He Hi) as
    (o & g' & p & H1 & H2 & H3 & H4 & H5 & H6 & H7 & H8 & H9). exists o, g', g, r', p. do 8 (split; [assumption|]). split; assumption.
Qed.

(** ** piped into the simulator *)
Lemma sources_linked g j : simple_graph g -> (exists i, link g j i) -> exists k, in_degree g j (S k).
Proof.
  intros (Hw & Hu & Hf & Hr) (i & Hi). pose proof (link_lt _ _ _ Hi) as Lj. destruct (in_degrees_spec g Hw) as (d & Ed & Ld & _ & Hd).
  destruct (nth_error d j) as [k|] eqn:En; [|apply nth_error_None in En; lia]. specialize (Hd j k En).
  destruct k as [|k]; [|eauto]. exfalso. destruct Hd as (P & _ & HP & Hlen). destruct P; [|discriminate].
  destruct (Hu _ _ Hi) as (l & El & Hin). apply In_nth_error in Hin. destruct Hin as (x & Hx). apply (HP i x). eauto.
Qed.
Lemma enough_linked p n i : (forall j, j < n -> 0 < weight_of p j) -> i < n -> enough_to_choose p n i.
Proof.
  intros Hw Hi. set (m := Nat.min (desired_quorum_set_size p) n - 1). exists (firstn m (List.remove Nat.eq_dec i (seq 0 n))).
  assert (Hlen : List.length (List.remove Nat.eq_dec i (seq 0 n)) = n - 1).
  { rewrite <- (seq_length n 0) at 2. pose proof (seq_NoDup n 0) as Hnd. assert (Hin : In i (seq 0 n)) by (apply in_seq; lia).
    revert Hnd Hin. generalize (seq 0 n). induction l as [|x l IH]; intros Hnd Hin; [destruct Hin|]. inversion Hnd as [|? ? Hx Hl]; subst. cbn [List.remove List.length].
    destruct (Nat.eq_dec i x) as [<-|Hne]; [rewrite List.notin_remove by auto; lia|]. cbn [List.length]. destruct Hin as [->|Hin]; [congruence|].
    rewrite (IH Hl Hin). destruct l; [destruct Hin|cbn [List.length]; lia]. }
  split; [rewrite firstn_length; lia|]. split.
  - assert (Hnd : NoDup (List.remove Nat.eq_dec i (seq 0 n))).
    { pose proof (seq_NoDup n 0) as Hnd. revert Hnd. generalize (seq 0 n). induction l as [|x l IH]; intros Hnd; [constructor|]. inversion Hnd as [|? ? Hx Hl]; subst. cbn [List.remove].
      destruct (Nat.eq_dec i x); auto. constructor; auto. intro C. apply List.in_remove in C. tauto. }
    rewrite <- (firstn_skipn m (List.remove Nat.eq_dec i (seq 0 n))) in Hnd. revert Hnd. generalize (skipn m (List.remove Nat.eq_dec i (seq 0 n))) (firstn m (List.remove Nat.eq_dec i (seq 0 n))).
    intros b a. induction a as [|x a IH]; intro H; [constructor|]. cbn in H. inversion H as [|? ? H1 H2]; subst. constructor; auto. intro C. apply H1, in_or_app; auto.
  - intros x Hx. assert (Hin : In x (List.remove Nat.eq_dec i (seq 0 n))) by (rewrite <- (firstn_skipn m); apply in_or_app; auto). apply List.in_remove in Hin.
    destruct Hin as [Hin Hne]. apply in_seq in Hin. split; [lia|]. split; [cbn; intuition congruence|]. apply Hw. lia.
Qed.
Lemma piped_possible c w g : simple_graph g -> no_isolated_nodes g -> (forall path, graph_path c = Some path -> graph_at w path g) -> possible c w (List.length g) (List.length g).
Proof.
  intros Hs Hi Hg. destruct c as [| |size|size path thr|path thr|path thr|path thr|path thr]; cbn [possible graph_path] in *; auto; try (exists g; auto; fail).
  - pose proof Hs as (Hw & _). destruct (in_degrees_spec g Hw) as (d & Ed & Ld & _ & Hd). exists g, d. split; [auto|]. split; [split; auto|].
    intros m i Hm Hlt. assert (m = List.length g) by lia. subst m. apply enough_linked; auto. intros j Hj. unfold weight_of. cbn [weights].
    destruct (nth_error d j) as [k|] eqn:En; [|lia]. destruct (sources_linked g j Hs (Hi j Hj)) as (k' & Hk'). rewrite (in_degree_unique g j k (S k')); [lia|auto|auto].
Qed.
Lemma piped (debug_f64 : probability -> string) args r o : (forall b, free_of newline (debug_f64 b)) -> proper_graph (arg_algorithm args) ->
  (Z.of_nat (graph_size (arg_algorithm args)) <= 2 ^ 53)%Z -> graph_generator debug_f64 args r = Ok o ->
  forall c w path r', graph_path c = Some path -> text_at w path (output_text o) ->
  (forall size path t, c = FameWeightedRandom size path (Some t) -> (Z.of_nat t < 2 ^ 64)%Z) ->
  exists j f, qsc_simulator (mk_simulator_args 0 0 c) w r' = Ok j /\ fbas_from_json j = Ok f /\
    number_of_nodes f = graph_size (arg_algorithm args) /\ generic_names f.
Proof.
  intros Hd Hp Hn E c w path r' Hc Ht H64. destruct (generator_spec debug_f64 args r Hd Hp) as (o' & g & _ & _ & _ & E' & _ & _ & Er & Hs & Hl & _ & Hi & _); [lia|].
  rewrite E in E'. injection E' as <-.
  assert (Hg : graph_at w path g) by (exists (output_text o); auto).
  assert (Hi0 : initial_nodes (mk_simulator_args 0 0 c) w (List.length g)).
  { split; cbn; [lia|]. intros _ _. rewrite Hc. eauto. }
  assert (Hall : forall path', graph_path c = Some path' -> graph_at w path' g) by (intros path' E0; congruence).
  assert (Hb : (Z.of_nat (List.length g + 0) <= 2 ^ 53)%Z) by (rewrite Nat.add_0_r, Hl; auto).
  pose proof (simulated_iff (mk_simulator_args 0 0 c) w r' (List.length g) Hi0 Hb) as Hiff. cbn [arg_grow_by_n arg_qsc_config] in Hiff. rewrite Nat.add_0_r in Hiff.
  destruct (qsc_simulator (mk_simulator_args 0 0 c) w r') as [j|] eqn:Ej.
  - destruct (printed (mk_simulator_args 0 0 c) w r' (List.length g) j Hi0 Hb) as (f & f' & _ & Hf' & Hnf & Hgn & _); auto.
    { split; [exact H64|]. intros path' g' E0 Hg'. rewrite (graph_at_fun _ _ _ _ Hg' (Hall path' E0)). lia. }
    exists j, f'. split; auto. split; auto. split; auto. cbn in Hnf. lia.
  - exfalso. destruct Hiff as [_ Hiff]. apply Hiff; [apply piped_possible; auto|].
    unfold qsc_simulator in Ej. destruct (simulated (mk_simulator_args 0 0 c) w r'); [discriminate|auto].
Qed.

Lemma generator_panics (debug_f64 : probability -> string) args r : apply_graph_gen_alg (arg_algorithm args) r = Panic -> graph_generator debug_f64 args r = Panic.
Proof. intro E. unfold graph_generator. rewrite E. auto. Qed.
Lemma generator_runs (debug_f64 : probability -> string) args r g r' : apply_graph_gen_alg (arg_algorithm args) r = Ok (g, r') -> wf_graph g ->
  exists o g1 text, graph_generator debug_f64 args r = Ok o /\ goes_to args o /\
  to_as_rel_string g1 (Some ("Graph generated using " ++ debug_algorithm debug_f64 (arg_algorithm args))%string) = Ok text /\
  (output_text o = text \/ output_text o = (text ++ String newline EmptyString)%string) /\ wf_graph g1 /\ List.length g1 = List.length g /\ exists p, same_shape p g g1.
Proof.
  intros E Hw. assert (Hg1 : exists g1 p, (if arg_dont_shuffle args then Ok g else res_map fst (shuffled g r')) = Ok g1 /\ same_shape p g g1 /\ wf_graph g1).
  { destruct (arg_dont_shuffle args).
    - exists g, (fun x => x). split; auto. split; [apply shape_refl|auto].
    - destruct (shuffled_iso g r' Hw) as (g1 & r1 & p & E1 & Hiso & Hmap). exists g1, p. rewrite E1. split; auto. split; [apply iso_shape; auto|].
      destruct Hiso as (L & P & I & Nn). intros x y (l & El & Hy). assert (Lx : x < List.length g) by (rewrite <- L; apply nth_error_Some; congruence).
      destruct (injective_onto p _ P I x Lx) as (i & Li & <-). destruct (nth_error g i) as [l0|] eqn:E0; [|apply nth_error_None in E0; lia].
      rewrite (Nn i l0 E0) in El. injection El as <-. apply in_map_iff in Hy. destruct Hy as (z & <- & Hz). rewrite L. apply P. apply (Hw i). exists l0. auto. }
  destruct Hg1 as (g1 & p & E1 & Hsh & Hw1).
  assert (Et : exists text, to_as_rel_string g1 (Some ("Graph generated using " ++ debug_algorithm debug_f64 (arg_algorithm args))%string) = Ok text) by (rewrite (write_ok g1 _ Hw1); eauto).
  destruct Et as (text & Et).
  exists (match arg_path args with Some path => To_file path text | None => To_stdout (text ++ String newline EmptyString)%string end), g1, text.
  split; [unfold graph_generator; rewrite E; cbn [bind fst snd]; rewrite E1; cbn [bind]; rewrite Et; auto|].
  split; [unfold goes_to; destruct (arg_path args); eauto|]. split; [exact Et|]. split; [destruct (arg_path args); [left|right]; reflexivity|]. split; [exact Hw1|]. split; [exact (proj1 Hsh)|exists p; exact Hsh].
Qed.
Lemma accepted_made a r : accepted a -> exists g r', apply_graph_gen_alg a r = Ok (g, r') /\ simple_graph g /\ List.length g = graph_size a /\
  (~ proper_graph a -> g = repeat [] (graph_size a)).
Proof.
  destruct a as [n m0 m|n k beta]; cbn [accepted apply_graph_gen_alg graph_size proper_graph].
  - intros (Hm & Hn & H1). destruct (scale_free_inv n m0 m r Hm Hn) as (g & r' & E & Hs & Hl & _); [lia|]. exists g, r'. split; [auto|]. split; [auto|]. split; [auto|].
    intro Hp. assert (m0 = 1) by lia. assert (n = 1) by auto. assert (m = 1) by lia. subst. destruct g as [|l [|? ?]]; try discriminate. cbn. f_equal.
    destruct l as [|j l]; [auto|exfalso]. destruct Hs as (Hw & _ & Hf & _). assert (Hlink : link [j :: l] 0 j) by (exists (j :: l); split; [auto|left; auto]).
    pose proof (Hw _ _ Hlink) as Hj. cbn in Hj. assert (j = 0) by lia. subst j. apply (Hf 0). auto.
  - intros (He & Hk & Hb). destruct (Nat.eq_dec k 0) as [->|Hk0].
    + exists (repeat [] n), r. split; [apply small_world_none|]. destruct (no_links_wf n) as [Hw Hn]. split; [|split; [apply repeat_length|auto]].
      split; [auto|]. split; [intros i j H; destruct (Hn _ _ H)|]. split; [intros i H; destruct (Hn _ _ H)|].
      unfold no_repeated_links. apply Forall_forall. intros l Hl. apply repeat_spec in Hl. subst l. constructor.
    + assert (2 <= k) by (destruct He; lia). destruct beta as [p|]; [|specialize (Hb eq_refl); lia].
      destruct (generated (WattsStrogatz n k (Some p)) r) as (g & r' & E & Hl & Hs & _); [cbn; split; [auto|split; [lia|discriminate]]|].
      exists g, r'. split; [auto|]. split; [auto|]. split; [auto|]. intros Hp. exfalso. apply Hp. split; [auto|]. split; [lia|discriminate].
Qed.
Lemma generator_panics_exactly (debug_f64 : probability -> string) args r : graph_generator debug_f64 args r = Panic <-> ~ accepted (arg_algorithm args).
Proof.
  split.
  - intros E Ha. destruct (accepted_made _ r Ha) as (g & r' & Eg & Hs & _). destruct (generator_runs debug_f64 args r g r' Eg) as (o & _ & _ & Eo & _); [apply Hs|]. congruence.
  - intro Hn. apply generator_panics. destruct (arg_algorithm args) as [n m0 m|n k beta]; cbn [accepted apply_graph_gen_alg] in *.
    + apply scale_free_panics. auto.
    + apply small_world_panics_exactly. destruct (Nat.Even_or_Odd k); [|auto]. destruct (le_lt_dec k n); [|auto]. right. right.
      destruct beta; [exfalso; apply Hn; split; [auto|split; [auto|discriminate]]|]. split; auto. destruct k; [|lia]. exfalso. apply Hn. auto.
Qed.
Lemma no_nodes_read g comment text : wf_graph g -> (forall i j, ~ link g i j) -> (forall c, comment = Some c -> free_of newline c) -> (N.of_nat (List.length g) < 2 ^ 64)%N ->
  to_as_rel_string g comment = Ok text -> from_as_rel_string text = Ok [] /\ from_as_rel_string (text ++ String newline EmptyString)%string = Ok [].
Proof.
  intros Hw Hn Hc Hl Et. destruct (as_rel_round_trip g comment Hw Hl Hc) as (text' & g' & E1 & E2 & Ha & Hk & S1 & S2). assert (text' = text) by congruence. subst text'.
  assert (g' = []). { assert (List.length g' <= 0); [|destruct g'; [auto|cbn in *; lia]]. apply S2. intros i (j & _ & [H|H]); destruct (Hn _ _ H). }
  subst g'. split; [auto|]. rewrite (write_ok g comment Hw) in E1. injection E1 as <-. rewrite blank_appended; auto. apply written_items_ok; auto.
Qed.
Lemma nodes_lost (debug_f64 : probability -> string) args r : (forall b, free_of newline (debug_f64 b)) -> accepted (arg_algorithm args) -> ~ proper_graph (arg_algorithm args) ->
  (N.of_nat (graph_size (arg_algorithm args)) < 2 ^ 64)%N ->
  exists o g r', graph_generator debug_f64 args r = Ok o /\ goes_to args o /\ apply_graph_gen_alg (arg_algorithm args) r = Ok (g, r') /\
    List.length g = graph_size (arg_algorithm args) /\ (forall i j, ~ link g i j) /\ from_as_rel_string (output_text o) = Ok [].
Proof.
  intros Hd Ha Hp Hn. destruct (accepted_made _ r Ha) as (g & r' & E & Hs & Hl & Hg). specialize (Hg Hp).
  destruct (generator_runs debug_f64 args r g r' E) as (o & g1 & text & Eo & Ho & Et & Hx & Hw1 & L1 & p & Hsh); [apply Hs|].
  assert (Hno : forall i j, ~ link g i j) by (rewrite Hg; apply no_links_wf).
  exists o, g, r'. split; [auto|]. split; [auto|]. split; [auto|]. split; [auto|]. split; [auto|].
  edestruct (fun a b c => no_nodes_read g1 _ text Hw1 a b c Et) as [H1 H2].
  - intros x y H. pose proof (link_lt _ _ _ H) as Lx. pose proof (Hw1 _ _ H) as Ly. rewrite L1 in Lx, Ly. destruct Hsh as (_ & P & I & K).
    destruct (injective_onto p _ P I x Lx) as (i & Li & <-). destruct (injective_onto p _ P I y Ly) as (j & Lj & <-). apply K in H; auto. apply (Hno i j). auto.
  - intros c Ec. injection Ec as <-. apply debug_free. auto.
  - now rewrite L1, Hl.
  - destruct Hx as [->| ->]; auto.
Qed.
Lemma improper_panics (debug_f64 : probability -> string) a path b r :
  match a with BarabasiAlbert n m0 m => 0 < n < m0 | WattsStrogatz n k _ => Nat.Odd k \/ n < k end ->
  graph_generator debug_f64 (mk_generator_args a path b) r = Panic.
Proof.
  intro H. apply generator_panics. cbn [arg_algorithm]. destruct a as [n m0 m|n k beta]; cbn [apply_graph_gen_alg].
  - apply scale_free_m0_big; lia.
  - apply small_world_panics. auto.
Qed.

(** ** examples *)
Definition newline_text : string := String newline EmptyString.
Definition path_text : string := ("0|1|0" ++ newline_text ++ "1|2|0" ++ newline_text)%string.
Definition kite_text : string := ("0|1|0" ++ newline_text ++ "0|2|0" ++ newline_text ++ "1|2|0" ++ newline_text ++ "0|3|0" ++ newline_text)%string.
Definition square_text : string := ("0|1|0" ++ newline_text ++ "1|2|0" ++ newline_text ++ "2|3|0" ++ newline_text ++ "0|3|0" ++ newline_text ++ "0|2|0" ++ newline_text)%string.
Definition only_stdin (text : string) : inputs := mk_inputs (Some text) (fun _ => None).
Definition steps : rng := fun k => N.of_nat (k * 7 + 3).
Definition first_two : simulator_args := mk_simulator_args 2 0 (AllNeighbors "-" None).
Lemma missing_lost : exists args w r f j f', simulated args w r = Ok f /\ qsc_simulator args w r = Ok j /\ fbas_from_json j = Ok f' /\
  node_of f 1 (QS 3 [0; 1; 2] []) /\ node_of f' 1 (QS 3 [0; 1] []).
Proof.
  exists first_two, (only_stdin path_text), steps.
  eexists. eexists. eexists. split; [vm_compute; reflexivity|]. split; [vm_compute; reflexivity|]. split; [vm_compute; reflexivity|].
  split; eexists; split; reflexivity.
Qed.
Lemma isolated_printed : exists args r text, graph_generator (fun _ => "0.5"%string) args r = Ok (To_stdout text) /\
  res_map (fun gr => List.length (fst gr)) (apply_graph_gen_alg (arg_algorithm args) r) = Ok 3 /\ from_as_rel_string text = Ok [].
Proof.
  exists (mk_generator_args (WattsStrogatz 3 0 (Some 0%N)) None true), steps. eexists. split; [vm_compute; reflexivity|]. split; vm_compute; reflexivity.
Qed.
Lemma free_first (c : probability) : free_of newline "0.5".
Proof. cbn. repeat split; discriminate. Qed.
