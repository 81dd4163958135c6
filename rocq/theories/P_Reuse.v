(** Proofs about comparing FBASs and about reused results. *)
From Verif Require Import P_Bulk P_CliText P_JsonPrint P_Transfer P_Analysis P_Results P_ThIO.
From Verif Require Export P_StandardIter M_Reuse Spec_Reuse.
Local Open Scope list_scope.

(** ** equality and order *)
Lemma list_eqb_eq {A} (eqb : A -> A -> bool) : (forall a b, eqb a b = true <-> a = b) -> forall l l', list_eqb eqb l l' = true <-> l = l'.
Proof.
  intro H. induction l as [|a l IH]; intros [|b l']; cbn; try (split; congruence).
  rewrite andb_true_iff, H, IH. split; [intros [-> ->]; auto|intro E; injection E as -> ->; auto].
Qed.
Lemma node_eqb_eq a b : node_eqb a b = true <-> a = b.
Proof.
  unfold node_eqb. rewrite andb_true_iff, String.eqb_eq, qset_eqb_eq. destruct a, b; cbn. split; [intros [-> ->]; auto|intro E; injection E as -> ->; auto].
Qed.
Lemma fbas_eqb_eq f g : fbas_eqb f g = true <-> nodes f = nodes g.
Proof. apply list_eqb_eq, node_eqb_eq. Qed.

Lemma lex_before {A} (c : A -> A -> comparison) (R : A -> A -> Prop) : (forall a b, c a b = Eq <-> a = b) ->
  forall l, (forall a, In a l -> forall b, c a b = Lt <-> R a b) -> forall l', lex_compare c l l' = Lt <-> list_before R l l'.
Proof.
  intro He. induction l as [|a l IH]; intros H [|b l']; cbn.
  - split; [discriminate|inversion 1].
  - split; [constructor|auto].
  - split; [discriminate|inversion 1].
  - assert (Hab := H a (or_introl eq_refl) b). destruct (c a b) eqn:E.
    + apply He in E. subst b. rewrite IH by (intros; apply H; right; auto). split; [intro; apply list_before_tail; auto|].
      inversion 1; subst; auto. apply H in H2; [|left; auto]. rewrite (proj2 (He a a) eq_refl) in H2. discriminate.
    + split; [intros _; apply list_before_head, Hab; auto|auto].
    + split; [discriminate|]. inversion 1; subst.
      * apply Hab in H2. congruence.
      * rewrite (proj2 (He b b) eq_refl) in E. discriminate.
Qed.
Lemma qset_compare_eq t v i t' v' i' : qset_compare (QS t v i) (QS t' v' i') =
  match Nat.compare t t' with Eq => match lex_compare Nat.compare v v' with Eq => lex_compare qset_compare i i' | c => c end | c => c end.
Proof.
  cbn [qset_compare]. destruct (t ?= t') eqn:E; auto. destruct (lex_compare Nat.compare v v'); auto.
  revert i'. induction i as [|a i IH]; intros [|b i']; cbn; auto. destruct (qset_compare a b); auto.
Qed.
Lemma qset_compare_lt q : forall q', qset_compare q q' = Lt <-> qset_before q q'.
Proof.
  induction q as [t v i IH] using qset_ind'. intros [t' v' i']. rewrite qset_compare_eq.
  assert (He : forall a b, qset_compare a b = Eq <-> a = b) by apply qset_cmp_ok.
  destruct (Nat.compare_spec t t') as [->|Ht|Ht].
  - destruct (lex_compare Nat.compare v v') eqn:Ev.
    + apply (cmp_eq _ (lex_cmp_ok _ nat_cmp_ok)) in Ev. subst v'. rewrite (lex_before _ qset_before He i IH i'). split; [apply qset_before_inner|].
      inversion 1; subst; auto; [lia|]. apply lex_compare_lt in H1. rewrite (proj2 (cmp_eq _ (lex_cmp_ok _ nat_cmp_ok) v v) eq_refl) in H1. discriminate.
    + apply lex_compare_lt in Ev. split; [intros _; apply qset_before_validators; auto|auto].
    + split; [discriminate|]. inversion 1; subst; [lia| |].
      * apply lex_compare_lt in H1. congruence.
      * rewrite (proj2 (cmp_eq _ (lex_cmp_ok _ nat_cmp_ok) v' v') eq_refl) in Ev. discriminate.
  - split; [intros _; apply qset_before_threshold; auto|auto].
  - split; [discriminate|]. inversion 1; subst; lia.
Qed.
Lemma node_cmp_ok : cmp_ok node_compare.
Proof.
  destruct string_cmp_ok as [Se So St]. destruct qset_cmp_ok as [Qe Qo Qt]. split.
  - intros [pk q] [pk' q']. unfold node_compare. cbn [node_pk node_qset]. destruct (string_compare pk pk') eqn:E.
    + apply Se in E. subst. rewrite Qe. split; [intros ->; auto|intro E; injection E as ->; auto].
    + split; [discriminate|]. intro H. injection H as -> ->. rewrite (proj2 (Se pk' pk') eq_refl) in E. discriminate.
    + split; [discriminate|]. intro H. injection H as -> ->. rewrite (proj2 (Se pk' pk') eq_refl) in E. discriminate.
  - intros [pk q] [pk' q']. unfold node_compare. cbn [node_pk node_qset]. rewrite (So pk pk'). destruct (string_compare pk pk'); cbn; auto.
  - intros [pa qa] [pb qb] [pc qc]. unfold node_compare. cbn [node_pk node_qset].
    destruct (string_compare pa pb) eqn:E1; try discriminate; destruct (string_compare pb pc) eqn:E2; try discriminate; intros H1 H2.
    + apply Se in E1, E2. subst. rewrite (proj2 (Se pc pc) eq_refl). eauto.
    + apply Se in E1. subst. rewrite E2. auto.
    + apply Se in E2. subst. rewrite E1. auto.
    + rewrite (St _ _ _ E1 E2). auto.
Qed.
Lemma node_compare_lt a b : node_compare a b = Lt <-> node_before a b.
Proof.
  destruct a as [pk q], b as [pk' q']. unfold node_compare. cbn [node_pk node_qset]. destruct string_cmp_ok as [Se So St]. destruct (string_compare pk pk') eqn:E.
  - apply Se in E. subst. rewrite qset_compare_lt. split; [apply node_before_qset|]. inversion 1; subst; auto.
    apply string_compare_lt in H1. rewrite (proj2 (Se pk' pk') eq_refl) in H1. discriminate.
  - split; [intros _; apply node_before_key, string_compare_lt; auto|auto].
  - split; [discriminate|]. inversion 1; subst.
    + apply string_compare_lt in H1. congruence.
    + rewrite (proj2 (Se pk' pk') eq_refl) in E. discriminate.
Qed.
Lemma fbas_order f g h :
  (fbas_compare f g = Eq <-> nodes f = nodes g) /\
  (fbas_compare f g = Lt <-> list_before node_before (nodes f) (nodes g)) /\
  (fbas_compare f g = Gt <-> list_before node_before (nodes g) (nodes f)) /\
  (fbas_compare f g = Lt -> fbas_compare g h = Lt -> fbas_compare f h = Lt).
Proof.
  destruct (lex_cmp_ok _ node_cmp_ok) as [He Ho Ht]. unfold fbas_compare.
  assert (Hl : forall l l', lex_compare node_compare l l' = Lt <-> list_before node_before l l').
  { intros l l'. apply lex_before; [apply node_cmp_ok|]. intros; apply node_compare_lt. }
  split; [apply He|]. split; [apply Hl|]. split; [|apply Ht]. rewrite <- Hl, (Ho (nodes f) (nodes g)).
  destruct (lex_compare node_compare (nodes f) (nodes g)); cbn; split; congruence.
Qed.

(** ** hashing *)
Lemma flat_map_inj {A B} (h : A -> list B) : forall l, (forall a, In a l -> forall a' r r', h a ++ r = h a' ++ r' -> a = a' /\ r = r') ->
  forall l' r r', List.length l = List.length l' -> flat_map h l ++ r = flat_map h l' ++ r' -> l = l' /\ r = r'.
Proof.
  induction l as [|a l IH]; intros H [|b l'] r r' El E; cbn in *; try discriminate; auto.
  rewrite <- !app_assoc in E. apply H in E; [|auto]. destruct E as [-> E]. apply IH in E; [|auto|lia]. destruct E as [-> ->]. auto.
Qed.
Lemma hash_qset_inj q : forall q' r r', hash_qset q ++ r = hash_qset q' ++ r' -> q = q' /\ r = r'.
Proof.
  induction q as [t v i IH] using qset_ind'. intros [t' v' i'] r r' E. cbn [hash_qset app] in E. injection E as -> _ -> El E.
  apply flat_map_inj in E; auto. destruct E as [-> ->]. auto.
Qed.
Lemma hash_node_inj n n' r r' : hash_node n ++ r = hash_node n' ++ r' -> n = n' /\ r = r'.
Proof.
  destruct n as [pk q], n' as [pk' q']. unfold hash_node, hash_string. cbn [node_pk node_qset app]. intro E. injection E as -> E.
  apply hash_qset_inj in E. destruct E as [-> ->]. auto.
Qed.
Lemma hash_fbas_inj f g : hash_fbas f = hash_fbas g <-> nodes f = nodes g.
Proof.
  unfold hash_fbas. split; [|intros ->; auto]. intro E. injection E as El E.
  refine (proj1 (flat_map_inj hash_node (nodes f) (fun n _ => hash_node_inj n) (nodes g) [] [] El _)). rewrite E. auto.
Qed.

(** ** equal FBASs have equal results *)
Section SameNodes.
Variables f g : fbas.
Hypothesis Hn : nodes f = nodes g.
Lemma sat_nodes x S : sat f x S = sat g x S.
Proof. unfold sat, qset_of. rewrite Hn. auto. Qed.
Lemma find_ext {A} (p q : A -> bool) l : (forall a, p a = q a) -> find p l = find q l.
Proof. intro H. induction l as [|a l IH]; cbn; auto. rewrite H, IH. auto. Qed.
Lemma satisfiable_nodes_same K : find_satisfiable_nodes K f = find_satisfiable_nodes K g.
Proof.
  unfold find_satisfiable_nodes.
  rewrite (filter_ext (fun x => sat f x K) (fun x => sat g x K)) by (intro; apply sat_nodes).
  rewrite (filter_ext (fun x => negb (sat f x K)) (fun x => negb (sat g x K))) by (intro; rewrite sat_nodes; auto).
  generalize (of_list (filter (fun x => sat g x K) (elements K))) as S, (of_list (filter (fun x => negb (sat g x K)) (elements K))) as U.
  intro S. generalize (len S) as n. intro n. revert S. induction n as [|n IH]; intros S U; cbn [satisfiable_loop];
    rewrite (find_ext (fun x => negb (sat f x S)) (fun x => negb (sat g x S))) by (intro; rewrite sat_nodes; auto); auto.
  destruct (find _ _); auto.
Qed.
Lemma contains_quorum_same K : contains_quorum K f = contains_quorum K g.
Proof.
  unfold contains_quorum. generalize (len K) as n. intro n. revert K. induction n as [|n IH]; intros K; cbn [contains_quorum_loop];
    rewrite (find_ext (fun x => negb (sat f x K)) (fun x => negb (sat g x K))) by (intro; rewrite sat_nodes; auto); auto.
  destruct (find _ _); auto.
Qed.
Lemma all_nodes_same : all_nodes f = all_nodes g.
Proof. unfold all_nodes, number_of_nodes. rewrite Hn. auto. Qed.
Lemma partition_same E K : partition_into_strongly_connected_components E K f = partition_into_strongly_connected_components E K g.
Proof.
  destruct f as [nf kf], g as [ng kg]. cbn in Hn. subst ng. reflexivity.
Qed.
Lemma relevant_same E : relevant_nodes E f = relevant_nodes E g.
Proof.
  unfold relevant_nodes, satisfiable_nodes. rewrite all_nodes_same, satisfiable_nodes_same, partition_same.
  generalize bempty as acc. induction (partition_into_strongly_connected_components E _ g) as [|c l IH]; intro acc; cbn; auto.
  rewrite contains_quorum_same. apply IH.
Qed.
Lemma shrunken_same K : shrunken f K = shrunken g K.
Proof. destruct f as [nf kf], g as [ng kg]. cbn in Hn. subst ng. reflexivity. Qed.
Lemma symmetric_in_same K : find_symmetric_clusters_in_node_set K f = find_symmetric_clusters_in_node_set K g.
Proof.
  unfold find_symmetric_clusters_in_node_set. generalize (@nil (qset * (nat * nat))) as occ, (@nil qset) as found.
  induction (elements K) as [|x l IH]; intros occ found; cbn [symmetric_loop]; auto.
  replace (qset_of f x) with (qset_of g x) by (unfold qset_of; rewrite Hn; auto).
  destruct (mem x _); auto. destruct (match assoc qset_eqb (qset_of g x) occ with Some _ => _ | None => _ end). apply IH.
Qed.
Lemma clusters_same E : consensus_clusters E f = consensus_clusters E g.
Proof.
  unfold consensus_clusters. rewrite all_nodes_same, satisfiable_nodes_same, partition_same. apply filter_ext. intro; apply contains_quorum_same.
Qed.
Lemma symmetric_same E : find_symmetric_clusters E f = find_symmetric_clusters E g.
Proof.
  unfold find_symmetric_clusters, find_sets, symmetric_clusters_finder. rewrite clusters_same. f_equal.
  induction (consensus_clusters E g) as [|c l IH]; cbn; auto. rewrite symmetric_in_same, IH. auto.
Qed.
Lemma symmetric_top_same E : find_symmetric_top_tier E f = find_symmetric_top_tier E g.
Proof.
  unfold find_symmetric_top_tier, complement_contains_quorum. rewrite symmetric_same, all_nodes_same.
  destruct (find_symmetric_clusters E g) as [[|q [|]]|]; cbn; auto. rewrite contains_quorum_same. auto.
Qed.

(** the same analysis of the other FBAS *)
Definition other (a : analysis) : analysis :=
  mk_analysis g (fbas_shrunken a) (a_sm a) (hqi_cache a) (mq_cache a) (mbs_cache a) (mss_cache a).
Definition other2 {A} (r : A * analysis) : A * analysis := (fst r, other (snd r)).
Lemma shrink_other a : fbas_original a = f -> shrink_id_space_to_top_tier (other a) = res_map other (shrink_id_space_to_top_tier a).
Proof.
  intro Ho. destruct a as [o sh sm h mq mbs mss]. cbn in Ho. subst o. unfold shrink_id_space_to_top_tier, other. cbn.
  destruct (match mq with Some _ => _ | None => _ end) as [T|]; cbn; auto. destruct (unshrink_set sm T) as [T'|]; cbn; auto.
  rewrite (shrunken_same T'). destruct (shrunken g T') as [[f' sm']|]; cbn; auto. unfold assert. destruct (is_none mq || is_none mbs)%bool; auto.
  destruct (mapM_option _ mq); cbn; auto. destruct (mapM_option _ mbs); cbn; auto.
Qed.
Lemma shrink_keeps a a' : shrink_id_space_to_top_tier a = Ok a' -> fbas_original a' = fbas_original a.
Proof.
  destruct a as [o sh sm h mq mbs mss]. unfold shrink_id_space_to_top_tier. cbn.
  destruct (match mq with Some _ => _ | None => _ end) as [T|]; cbn; [|discriminate]. destruct (unshrink_set sm T) as [T'|]; cbn; [|discriminate].
  destruct (shrunken o T') as [[f' sm']|]; cbn; [|discriminate]. unfold assert. destruct (is_none mq || is_none mbs)%bool; [|discriminate].
  destruct (mapM_option _ mq); cbn; [|discriminate]. destruct (mapM_option _ mbs); cbn; [|discriminate]. intro H. injection H as <-. auto.
Qed.
Lemma shrink_if_other (b : bool) a : fbas_original a = f -> (if b then shrink_id_space_to_top_tier (other a) else Ok (other a)) =
  res_map other (if b then shrink_id_space_to_top_tier a else Ok a).
Proof. intro H. destruct b; auto. apply shrink_other; auto. Qed.
Lemma shrink_if_keeps (b : bool) a a' : (if b then shrink_id_space_to_top_tier a else Ok a) = Ok a' -> fbas_original a' = fbas_original a.
Proof. destruct b; [apply shrink_keeps|]. intro H. injection H as ->. auto. Qed.

Section Other.
Variable E : ext.
Local Arguments shrink_id_space_to_top_tier : simpl never.
Definition carries {A} (step : analysis -> res (A * analysis)) : Prop :=
  forall a, fbas_original a = f -> step (other a) = res_map other2 (step a) /\ forall x a', step a = Ok (x, a') -> fbas_original a' = f.
Lemma mq_other : carries (minimal_quorums_shrunken E).
Proof.
  intros a Ho. destruct a as [o sh sm h mq mbs mss]. cbn in Ho. subst o. unfold minimal_quorums_shrunken. cbn.
  destruct mq as [mq|]; cbn; [split; auto; intros x a' H; injection H as _ <-; auto|].
  destruct (find_minimal_quorums E sh) as [l|]; cbn; [|split; auto; discriminate].
  set (a1 := mk_analysis f sh sm h (Some l) mbs mss).
  change (set_mq (other (mk_analysis f sh sm h None mbs mss)) (Some l)) with (other a1). change (set_mq (mk_analysis f sh sm h None mbs mss) (Some l)) with a1.
  rewrite (shrink_if_other (is_none mbs) a1 eq_refl). destruct (if is_none mbs then _ else _) as [a2|] eqn:E2; cbn; [|split; auto; discriminate].
  apply shrink_if_keeps in E2. destruct (mq_cache a2); cbn; [|split; auto; discriminate]. split; auto. intros x a' H. injection H as _ <-. auto.
Qed.
Lemma mbs_other : carries (minimal_blocking_sets_shrunken E).
Proof.
  intros a Ho. destruct a as [o sh sm h mq mbs mss]. cbn in Ho. subst o. unfold minimal_blocking_sets_shrunken. cbn.
  destruct mbs as [mbs|]; cbn; [split; auto; intros x a' H; injection H as _ <-; auto|].
  destruct (find_minimal_blocking_sets E sh) as [l|]; cbn; [|split; auto; discriminate].
  set (a1 := mk_analysis f sh sm h mq (Some l) mss).
  change (set_mbs (other (mk_analysis f sh sm h mq None mss)) (Some l)) with (other a1). change (set_mbs (mk_analysis f sh sm h mq None mss) (Some l)) with a1.
  rewrite (shrink_if_other (is_none mq && true) a1 eq_refl). destruct (if is_none mq && true then _ else _) as [a2|] eqn:E2; cbn; [|split; auto; discriminate].
  apply shrink_if_keeps in E2. destruct (mbs_cache a2); cbn; [|split; auto; discriminate]. split; auto. intros x a' H. injection H as _ <-. auto.
Qed.
Lemma hqi_other : carries (has_quorum_intersection E).
Proof.
  intros a Ho. unfold has_quorum_intersection. change (hqi_cache (other a)) with (hqi_cache a).
  destruct (hqi_cache a); [split; auto; intros x a' H; injection H as _ <-; auto|].
  destruct (mq_other a Ho) as [H1 H2]. rewrite H1. destruct (minimal_quorums_shrunken E a) as [[l a1]|]; cbn; [|split; auto; discriminate].
  split; auto. intros x a' H. injection H as _ <-. cbn. eauto.
Qed.
Lemma mss_other : carries (minimal_splitting_sets_shrunken E).
Proof.
  intros a Ho. unfold minimal_splitting_sets_shrunken.
  destruct (mq_other a Ho) as [H1 H2]. rewrite H1. destruct (minimal_quorums_shrunken E a) as [[l a1]|]; cbn; [|split; auto; discriminate].
  specialize (H2 l a1 eq_refl). destruct (mss_cache a1); cbn; [split; auto; intros x a' H; injection H as _ <-; auto|].
  destruct (hqi_other a1 H2) as [H3 H4]. rewrite H3. destruct (has_quorum_intersection E a1) as [[b a2]|]; cbn; [|split; auto; discriminate].
  specialize (H4 b a2 eq_refl). destruct (if b then _ else _); cbn; [|split; auto; discriminate].
  split; auto. intros x a' H. injection H as _ <-. auto.
Qed.
Lemma top_tier_other : carries (top_tier_shrunken E).
Proof.
  intros a Ho. unfold top_tier_shrunken. change (mq_cache (other a)) with (mq_cache a). change (mbs_cache (other a)) with (mbs_cache a).
  destruct (_ || _)%bool.
  - destruct (mq_other a Ho) as [H1 H2]. rewrite H1. destruct (minimal_quorums_shrunken E a) as [[l a1]|]; cbn; [|split; auto; discriminate].
    split; auto. intros x a' H. injection H as _ <-. eauto.
  - destruct (mbs_other a Ho) as [H1 H2]. rewrite H1. destruct (minimal_blocking_sets_shrunken E a) as [[l a1]|]; cbn; [|split; auto; discriminate].
    split; auto. intros x a' H. injection H as _ <-. eauto.
Qed.
Lemma perform_other c : carries (fun a => perform E a c).
Proof.
  intros a Ho. destruct c; cbn [perform].
  - split; [|intros x a' H; injection H as _ <-; auto]. cbn. unfold other2. cbn. rewrite Ho, all_nodes_same. auto.
  - split; [|intros x a' H; injection H as _ <-; auto]. cbn. unfold other2, satisfiable_nodes. cbn. rewrite Ho, all_nodes_same, satisfiable_nodes_same. auto.
  - split; [|intros x a' H; injection H as _ <-; auto]. cbn. unfold other2, unsatisfiable_nodes. cbn. rewrite Ho, all_nodes_same, satisfiable_nodes_same. auto.
  - destruct (hqi_other a Ho) as [H1 H2]. rewrite H1. destruct (has_quorum_intersection E a) as [[b a1]|]; cbn; [|split; auto; discriminate].
    split; auto. intros x a' H. injection H as _ <-. eauto.
  - split.
    + change (alternative_check E (other a)) with (alternative_check E a). destruct (alternative_check E a) as [[b o]|]; cbn; auto.
    + destruct (alternative_check E a) as [[b o]|]; cbn; [|discriminate]. intros x a' H; injection H as _ <-; auto.
  - destruct (mq_other a Ho) as [H1 H2]. rewrite H1. destruct (minimal_quorums_shrunken E a) as [[l a1]|]; cbn; [|split; auto; discriminate].
    split; auto. intros x a' H. injection H as _ <-. eauto.
  - destruct (mbs_other a Ho) as [H1 H2]. rewrite H1. destruct (minimal_blocking_sets_shrunken E a) as [[l a1]|]; cbn; [|split; auto; discriminate].
    split; auto. intros x a' H. injection H as _ <-. eauto.
  - destruct (mss_other a Ho) as [H1 H2]. rewrite H1. destruct (minimal_splitting_sets_shrunken E a) as [[l a1]|]; cbn; [|split; auto; discriminate].
    split; auto. intros x a' H. injection H as _ <-. eauto.
  - destruct (top_tier_other a Ho) as [H1 H2]. rewrite H1. destruct (top_tier_shrunken E a) as [[l a1]|]; cbn; [|split; auto; discriminate].
    destruct (unshrink_set (a_sm a1) l); cbn; [|split; auto; discriminate].
    split; auto. intros x a' H. injection H as _ <-. eauto.
  - change (fbas_original (other a)) with g. rewrite Ho, symmetric_top_same. destruct (find_symmetric_top_tier E g); cbn; [|split; auto; discriminate].
    split; auto. intros x a' H. injection H as _ <-. auto.
  - change (fbas_original (other a)) with g. rewrite Ho, symmetric_same. destruct (find_symmetric_clusters E g); cbn; [|split; auto; discriminate].
    split; auto. intros x a' H. injection H as _ <-. auto.
Qed.
Lemma perform_all_other cs : carries (fun a => perform_all E a cs).
Proof.
  induction cs as [|c cs IH]; intros a Ho; cbn [perform_all].
  - split; auto. intros x a' H. injection H as _ <-. auto.
  - destruct (perform_other c a Ho) as [H1 H2]. rewrite H1. destruct (perform E a c) as [[x a1]|]; cbn; [|split; auto; discriminate].
    specialize (H2 x a1 eq_refl). destruct (IH a1 H2) as [H3 H4]. rewrite H3. destruct (perform_all E a1 cs) as [[l a2]|]; cbn; [|split; auto; discriminate].
    split; auto. intros y a' H. injection H as _ <-. eauto.
Qed.
Lemma analyze_same cs : analyze E f cs = analyze E g cs.
Proof.
  unfold analyze, analysis_new. rewrite relevant_same, shrunken_same. destruct (shrunken g (relevant_nodes E g)) as [[f' sm]|]; cbn; auto.
  set (a := mk_analysis f f' sm None None None None). destruct (perform_all_other cs a eq_refl) as [H _].
  change (mk_analysis g f' sm None None None None) with (other a). rewrite H. destruct (perform_all E a cs) as [[l a2]|]; auto.
Qed.
Lemma standard_same : to_standard_form E f = to_standard_form E g.
Proof. unfold to_standard_form. rewrite relevant_same, shrunken_same. auto. Qed.
End Other.
End SameNodes.

(** ** standard forms as keys *)
Lemma standard_raw E f s : to_standard_form E f = Ok s -> exists l, s = fbas_from_raw l.
Proof. unfold to_standard_form. destruct (shrunken f _) as [r|]; cbn [bind]; [|discriminate]. intro H. injection H as <-. eauto. Qed.
Lemma from_raw_nodes l l' : nodes (fbas_from_raw l) = nodes (fbas_from_raw l') -> fbas_from_raw l = fbas_from_raw l'.
Proof. intro H. rewrite <- (round_trip l), <- (round_trip l'). f_equal. apply fbas_to_raw_nodes. auto. Qed.
Lemma standard_nodes E E' f g s t : to_standard_form E f = Ok s -> to_standard_form E' g = Ok t -> nodes s = nodes t -> s = t.
Proof.
  intros Hs Ht. destruct (standard_raw E f s Hs) as [l ->]. destruct (standard_raw E' g t Ht) as [l' ->]. apply from_raw_nodes.
Qed.
Lemma standard_text E E' f g s t : to_standard_form E f = Ok s -> to_standard_form E' g = Ok t ->
  (fbas_to_text s = fbas_to_text t <-> s = t).
Proof.
  intros Hs Ht. split; [|intros ->; auto]. intro H. destruct (standard_raw E f s Hs) as [l ->]. destruct (standard_raw E' g t Ht) as [l' ->].
  assert (H1 : fbas_to_json (fbas_from_raw l) = fbas_to_json (fbas_from_raw l')).
  { apply printed_inj; auto using fbas_printable. }
  rewrite <- (round_trip l), <- (round_trip l'). f_equal. unfold fbas_to_json, json_of_raw_fbas in H1. injection H1 as H1.
  revert H1. apply map_inj_in. intros a Ha b H2. apply in_map_iff in Ha. destruct Ha as (n & <- & _). unfold node_to_raw, json_of_raw_node in *.
  destruct b as [pk q isp geo]. cbn in H2. destruct isp, geo; try discriminate. injection H2 as <- H2. f_equal. apply raw_tree_inj. auto.
Qed.

(** ** the cache *)
Section Cache.
Variable E : ext.
Definition standard (s : fbas) : Prop := exists f, to_standard_form E f = Ok s.
(** what a cache contains *)
Definition cache_ok (c : results_cache) : Prop :=
  NoDup (map fst c) /\ forall s r, In (s, r) c -> standard s /\ do_analysis E s = Ok r.
Lemma fresh_results (f : fbas) : forall c, cache_ok c -> forall s, to_standard_form E f = Ok s ->
  (exists r, assoc fbas_eqb s c = Some r /\ do_analysis E s = Ok r /\ In s (map fst c)) \/ (assoc fbas_eqb s c = None /\ ~ In s (map fst c)).
Proof.
  intros c [Hnd Hc] s Hs. induction c as [|[t r] c IH]; cbn.
  - right. auto.
  - inversion Hnd; subst. destruct (fbas_eqb s t) eqn:Eq.
    + left. exists r. destruct (Hc t r) as [(h & Ht) Hr]; [left; auto|]. apply fbas_eqb_eq in Eq.
      assert (s = t) by (eapply standard_nodes; eauto). subst t. auto.
    + destruct IH as [(r' & H3 & H4 & H5)|[H3 H4]]; auto.
      * intros s' r' H3. apply Hc. right; auto.
      * left. eauto.
      * right. split; auto. intros [H5|H5]; auto. subst t. rewrite (proj2 (fbas_eqb_eq s s) eq_refl) in Eq. discriminate.
Qed.
Definition results_of (f : fbas) : res custom_results := s <- to_standard_form E f ;; do_analysis E s.
Lemma reuse_spec c f : cache_ok c ->
  match results_of f with
  | Panic => reuse E c f = Panic
  | Ok r => exists c', reuse E c f = Ok (r, c') /\ cache_ok c' /\
      (forall s, In s (map fst c') <-> In s (map fst c) \/ to_standard_form E f = Ok s) /\
      (c' <> c <-> forall s, In s (map fst c) -> to_standard_form E f <> Ok s)
  end.
Proof.
  intro Hc. unfold results_of, reuse. destruct (to_standard_form E f) as [s|] eqn:Es; cbn [bind]; auto.
  destruct (fresh_results f c Hc s Es) as [(r & H1 & H2 & H3)|[H1 H2]]; rewrite H1.
  - rewrite H2. exists c. split; auto. split; auto. split.
    + intro t. split; auto. intros [H4|H4]; auto. injection H4 as <-. auto.
    + split; [congruence|]. intro H. exfalso. exact (H s H3 eq_refl).
  - destruct (do_analysis E s) as [r|] eqn:Er; cbn [bind]; auto. exists ((s, r) :: c). split; auto. split; [|split].
    + destruct Hc as [Hnd Hc]. split; [cbn; constructor; auto|]. intros t r' [H|H]; [|apply Hc; auto]. injection H as <- <-. split; auto. exists f. auto.
    + intro t. cbn. split; [intros [-> | H]; auto|]. intros [H|H]; auto. injection H as ->. auto.
    + split; [|intros _ Hx; apply (f_equal (@List.length _)) in Hx; cbn in Hx; lia]. intros _ t Ht Ex. injection Ex as ->. auto.
Qed.
Lemma reuse_all_spec fs : forall c, cache_ok c ->
  match mapM results_of fs with
  | Panic => reuse_all E c fs = Panic
  | Ok rs => exists c', reuse_all E c fs = Ok (rs, c') /\ cache_ok c' /\
      (forall s, In s (map fst c') <-> In s (map fst c) \/ exists f, In f fs /\ to_standard_form E f = Ok s)
  end.
Proof.
  induction fs as [|f fs IH]; intros c Hc; cbn [mapM reuse_all].
  - exists c. split; auto. split; auto. intro s. split; auto. intros [H|(f & [] & _)]; auto.
  - assert (H := reuse_spec c f Hc). destruct (results_of f) as [r|]; cbn [bind].
    + destruct H as (c1 & H1 & H2 & H3 & _). rewrite H1. cbn [bind snd fst]. specialize (IH c1 H2).
      destruct (mapM results_of fs) as [rs|]; cbn [bind].
      * destruct IH as (c2 & H4 & H5 & H6). rewrite H4. exists c2. split; auto. split; auto. intro s. rewrite H6, H3. split.
        -- intros [[H|H]|(f' & H & H')]; auto; right; [exists f|exists f']; cbn; auto.
        -- intros [H|(f' & [<-|H] & H')]; eauto.
      * rewrite IH. auto.
    + rewrite H. auto.
Qed.
End Cache.
