(** Results of a standard form, counted by group. *)
From Verif Require Import P_Transfer P_Analysis P_Results P_ThAnalysis P_ThFloat P_Groupings P_BulkRows.
From Verif Require Export P_ReuseMain.
Local Open Scope list_scope.

Section Groups.
Variable s : fbas.
Hypothesis Hk : keys_ok s.
Variable l : list raw_grouping.
Hypothesis Hl : disjoint_lists l.
Let gs := map (grouping_from_raw (pk_to_id s)) l.

Lemma member_raw y rg : member y (grouping_from_raw (pk_to_id s) rg) <-> exists pk, In pk (rg_validators rg) /\ has_key s y pk.
Proof.
  unfold member, grouping_from_raw. cbn. rewrite P_Shrink.filter_map_in. split; intros (pk & H1 & H2); exists pk; (split; [auto|apply Hk; auto]).
Qed.
Lemma gs_groups : groups_of s gs.
Proof.
  intros g x Hg Hx. apply in_map_iff in Hg. destruct Hg as (rg & <- & _). apply member_raw in Hx. destruct Hx as (pk & _ & H). apply has_key_pk in H. tauto.
Qed.
Lemma gs_disjoint : disjoint_groups gs.
Proof.
  intros i j gi gj x Hi Hj Hx Hx'. unfold gs in *. rewrite nth_error_map in Hi, Hj.
  destruct (nth_error l i) as [ri|] eqn:Ei; [|discriminate]. destruct (nth_error l j) as [rj|] eqn:Ej; [|discriminate].
  injection Hi as <-. injection Hj as <-. apply member_raw in Hx, Hx'. destruct Hx as (pk & H1 & H2). destruct Hx' as (pk' & H3 & H4).
  assert (pk = pk') by (unfold has_key in *; congruence). subst pk'. eapply Hl; eauto.
Qed.
Lemma same_raw r r' x : In r l -> In r' l -> member x (grouping_from_raw (pk_to_id s) r) -> member x (grouping_from_raw (pk_to_id s) r') -> r = r'.
Proof.
  intros H1 H2 Hx Hx'. apply member_raw in Hx, Hx'. destruct Hx as (pk & H3 & H4). destruct Hx' as (pk' & H5 & H6).
  assert (pk = pk') by (unfold has_key in *; congruence). subst pk'. apply In_nth_error in H1, H2. destruct H1 as (i & Hi). destruct H2 as (j & Hj).
  assert (i = j) by (eapply Hl; eauto). subst j. congruence.
Qed.

(** representatives *)
Definition rep (x : nat) : nat :=
  match find (fun g => existsb (Nat.eqb x) (g_validators g)) gs with
  | Some g => hd x (g_validators g)
  | None => x
  end.
Lemma existsb_member x g : existsb (Nat.eqb x) (g_validators g) = true <-> member x g.
Proof.
  unfold member. rewrite existsb_exists. split; [intros (y & Hy & E); apply Nat.eqb_eq in E; subst; auto|]. intro H. exists x. split; auto. apply Nat.eqb_refl.
Qed.
Lemma rep_spec x : represents gs (rep x) x.
Proof.
  unfold rep. destruct (find _ gs) as [g|] eqn:E.
  - apply find_some in E. destruct E as [Hg Hm]. apply existsb_member in Hm. left. destruct (g_validators g) as [|r rest] eqn:Eg; [unfold member in Hm; rewrite Eg in Hm; contradiction|].
    exists g, rest. rewrite Eg. auto.
  - right. split; auto. intros g Hg Hm. apply (find_none _ _ E) in Hg. apply existsb_member in Hm. congruence.
Qed.
Lemma represents_rep r x : represents gs r x <-> r = rep x.
Proof. split; [intro H; apply (represents_fun gs gs_disjoint r (rep x) x); auto; apply rep_spec|intros ->; apply rep_spec]. Qed.
Definition all_of (R : bset) : bset := of_list (filter (fun x => mem (rep x) R) (seq 0 (number_of_nodes s))).
Lemma mem_all_of R x : mem x (all_of R) = true <-> x < number_of_nodes s /\ mem (rep x) R = true.
Proof. unfold all_of. rewrite mem_of_list, filter_In, in_seq. split; intros [H1 H2]; split; auto; lia. Qed.
Lemma members_all_of R M : members_of s gs R M <-> M = all_of R.
Proof.
  assert (H : members_of s gs R (all_of R)).
  { intro x. rewrite mem_all_of. split; intros [H1 H2]; split; auto; [exists (rep x); split; auto; apply rep_spec|].
    destruct H2 as (r & Hr & H2). apply represents_rep in Hr. subst r. auto. }
  split; [|intros ->; auto]. intro HM. apply bset_ext. intro x. apply eq_true_iff_eq. rewrite (HM x), (H x). tauto.
Qed.
Lemma by_groups_all_of P R : by_groups s gs P R <-> P (all_of R).
Proof.
  unfold by_groups. split; [intros (M & HM & H); apply members_all_of in HM; subst; auto|]. intro H. exists (all_of R). split; auto. apply members_all_of; auto.
Qed.

(** from representatives to groups *)
Definition has_head (r : nat) (rg : raw_grouping) : bool :=
  match g_validators (grouping_from_raw (pk_to_id s) rg) with r' :: _ => r' =? r | [] => false end.
Definition class_of (r : nat) : list public_key := match find (has_head r) l with Some rg => rg_validators rg | None => [pk_of s r] end.
Lemma class_one r : counted_as_one l (class_of r).
Proof. unfold class_of. destruct (find (has_head r) l) as [rg|] eqn:E; [left; apply find_some in E; exists rg; tauto|right; eauto]. Qed.
Lemma has_head_member r rg : has_head r rg = true -> member r (grouping_from_raw (pk_to_id s) rg).
Proof. unfold has_head, member. destruct (g_validators _) as [|r' rest]; [discriminate|]. intro H. apply Nat.eqb_eq in H. subst. left; auto. Qed.
Lemma in_class y : y < number_of_nodes s -> In (pk_of s y) (class_of (rep y)).
Proof.
  intro Hy. assert (Hky : has_key s y (pk_of s y)) by (apply has_key_pk; auto). destruct (rep_spec y) as [(g & rest & Hg & Hm & Ev)|[Hn E]].
  - apply in_map_iff in Hg. destruct Hg as (rg & <- & Hrg). unfold class_of.
    assert (Hh : has_head (rep y) rg = true) by (unfold has_head; rewrite Ev; apply Nat.eqb_refl).
    destruct (find (has_head (rep y)) l) as [rg'|] eqn:Ef.
    + apply find_some in Ef. destruct Ef as [Hrg' Hh']. assert (rg' = rg) by (apply (same_raw rg' rg (rep y)); auto using has_head_member). subst rg'.
      apply member_raw in Hm. destruct Hm as (pk & Hpk & Hk'). assert (pk = pk_of s y) by (unfold has_key in *; congruence). subst pk. auto.
    + apply (find_none _ _ Ef) in Hrg. congruence.
  - rewrite E. unfold class_of. destruct (find (has_head y) l) as [rg'|] eqn:Ef.
    + apply find_some in Ef. destruct Ef as [Hrg' Hh']. exfalso. apply (Hn (grouping_from_raw (pk_to_id s) rg')); [apply in_map; auto|apply has_head_member; auto].
    + left; auto.
Qed.

(** from groups to representatives *)
Definition reps_of (c : list public_key) : list nat := match filter_map (get_node_id s) c with [] => [] | y :: _ => [rep y] end.
Lemma reps_of_spec c y pk : counted_as_one l c -> In pk c -> has_key s y pk -> In (rep y) (reps_of c).
Proof.
  intros Hc Hpk Hy. unfold reps_of. assert (Hin : In y (filter_map (get_node_id s) c)) by (apply P_Shrink.filter_map_in; exists pk; split; auto; apply Hk; auto).
  destruct (filter_map (get_node_id s) c) as [|z rest] eqn:Ez; [contradiction|]. left.
  assert (Hz : exists pk', In pk' c /\ has_key s z pk').
  { assert (Hz : In z (filter_map (get_node_id s) c)) by (rewrite Ez; left; auto). apply P_Shrink.filter_map_in in Hz. destruct Hz as (pk' & H1 & H2). exists pk'. split; auto. apply Hk; auto. }
  destruct Hz as (pk' & Hpk' & Hkz). destruct Hc as [(rg & Hrg & ->)|(pk0 & ->)].
  - set (g := grouping_from_raw (pk_to_id s) rg).
    assert (Hg : In g gs) by (apply in_map; auto).
    assert (Hmy : member y g) by (apply member_raw; eauto). assert (Hmz : member z g) by (apply member_raw; eauto).
    destruct (g_validators g) as [|r rs] eqn:Ev; [unfold member in Hmy; rewrite Ev in Hmy; contradiction|].
    assert (Hry : represents gs r y) by (left; exists g, rs; auto). assert (Hrz : represents gs r z) by (left; exists g, rs; auto).
    apply represents_rep in Hry, Hrz. congruence.
  - destruct Hpk as [Hpk|[]]. destruct Hpk' as [Hpk'|[]]. subst pk pk'. apply (proj2 (Hk pk0 y)) in Hy. apply (proj2 (Hk pk0 z)) in Hkz. congruence.
Qed.
Lemma reps_of_length cs : List.length (flat_map reps_of cs) <= List.length cs.
Proof.
  induction cs as [|c cs IH]; cbn; auto. rewrite app_length. unfold reps_of at 1. destruct (filter_map (get_node_id s) c); cbn; lia.
Qed.
End Groups.

Section StandardGroups.
Variables (E : ext) (f s : fbas).
Hypothesis HE : ext_ok E.
Hypothesis Hwf : wf_fbas f.
Hypothesis Hd : distinct_keys f.
Hypothesis Hs : to_standard_form E f = Ok s.
Variable l : list raw_grouping.
Hypothesis Hl : disjoint_lists l.
Let gs := map (grouping_from_raw (pk_to_id s)) l.
Let Hk : keys_ok s := proj1 (proj2 (s_facts E f s HE Hwf Hd Hs)).

Definition keyed (h : fbas) (keys : list public_key) : bset := of_list (filter (fun x => existsb (String.eqb (pk_of h x)) keys) (seq 0 (number_of_nodes h))).
Lemma keyed_spec h keys : nodes_with_keys h keys (keyed h keys).
Proof.
  intro x. unfold keyed. rewrite mem_of_list, filter_In, in_seq, existsb_exists. split.
  - intros [Hx (pk & Hpk & He)]. apply String.eqb_eq in He. subst pk. exists (pk_of h x). split; auto. apply has_key_pk. split; auto; lia.
  - intros (pk & Hpk & H). apply has_key_pk in H. destruct H as [Hx ->]. split; [lia|]. exists (pk_of h x). split; auto. apply String.eqb_refl.
Qed.

Lemma fewest (P P' : bset -> Prop) n : (forall a b, incl_set a b -> P a -> P b) -> (forall a b, incl_set a b -> P' a -> P' b) ->
  (forall S, P S -> P' (to_keys f s S)) -> (forall S, P' S -> P (to_keys s f S)) ->
  least_size (by_groups s gs P') n -> fewest_groups f l P n.
Proof.
  intros Hm Hm' H1 H2 [(R & HR & HRn) Hmin]. split.
  - exists (map (class_of s l) (elements R)). exists (keyed f (concat (map (class_of s l) (elements R)))). split; [rewrite map_length, <- len_elements; auto|].
    split; [apply Forall_forall; intros c Hc; apply in_map_iff in Hc; destruct Hc as (r & <- & _); apply class_one|].
    split; [apply keyed_spec|]. apply (by_groups_all_of s Hk l Hl) in HR. apply H2 in HR. revert HR. apply Hm. intros x Hx.
    apply mem_to_keys in Hx. destruct Hx as (y & pk & Hy & Hky & Hkx). apply mem_all_of in Hy. destruct Hy as [Hy Hr].
    apply keyed_spec. exists pk. split; auto. apply in_concat. exists (class_of s l (rep s l y)). split; [apply in_map, elements_spec; auto|].
    apply has_key_pk in Hky. destruct Hky as [_ ->]. apply (in_class s Hk l Hl). auto.
  - intros cs S Hcs HS HPS. apply (Nat.le_trans _ (List.length (flat_map (reps_of s l) cs))); [|apply reps_of_length].
    apply (Nat.le_trans _ (len (of_list (flat_map (reps_of s l) cs)))); [|apply len_of_list_le]. apply Hmin. apply (by_groups_all_of s Hk l Hl).
    apply H1 in HPS. revert HPS. apply Hm'. intros y Hy. apply mem_to_keys in Hy. destruct Hy as (x & pk & Hx & Hkx & Hky). apply mem_all_of.
    split; [apply has_key_pk in Hky; tauto|]. rewrite mem_of_list. apply HS in Hx. destruct Hx as (pk' & Hpk & Hkx').
    assert (pk = pk') by (unfold has_key in *; congruence). subst pk'. apply in_concat in Hpk. destruct Hpk as (c & Hc & Hpk).
    apply in_flat_map. exists c. split; auto. apply (reps_of_spec s Hk l Hl c y pk); auto. rewrite Forall_forall in Hcs. auto.
Qed.

Lemma groups_counted : sane_clusters s -> splittable_clusters s -> exists r G r', do_analysis E s = Ok r /\
  groupings_from_raw l s = Ok G /\ by_organization (r_blocking r) G = Ok r' /\ fewest_groups f l (blocking f) (vr_min r').
Proof.
  intros H1 H2. destruct (done E f s HE Hwf Hd Hs H1 H2) as (r & lb & lp & Hr & Hb1 & [_ Hb2] & _).
  assert (Hgs := gs_groups s Hk l). assert (Hdg := gs_disjoint s Hk l Hl). fold gs in Hgs, Hdg.
  destruct (groupings_new_ok s gs Hgs Hdg) as (G & EG & HG). exists r, G.
  assert (Hrange : forall S x, In S lb -> mem x S = true -> x < number_of_nodes s).
  { intros S x HS. apply minimal_blocking_in_range. apply Hb2 in HS. apply HS. }
  destruct (merged_result s gs Hgs Hdg G (r_blocking r) lb EG Hb1 Hrange) as (rm & lm & Em & Elm & HF).
  exists (vr_minimal_sets rm). split; auto. split; [exact EG|]. unfold by_organization. rewrite Em. split; [reflexivity|].
  assert (Htm := merged_table _ _ _ Em).
  destruct (quorum_decidable s) as [Hq|Hq].
  - assert (Hm : forall B, In B lb <-> minimal (blocking s) B) by (intro B; rewrite Hb2; unfold reported_blocking, minimal_blocking; tauto).
    destruct (merged_result_minimal s gs Hgs Hdg (blocking s) (r_blocking r) lb (blocking_mono s) (blocking_dec s) Hb1 Hm Hrange) as (G' & r2 & l2 & E0 & E1 & E2 & _ & E3).
    assert (G' = G) by congruence. subst G'. rewrite Em in E1. injection E1 as <-.
    apply (fewest _ (blocking s)); [apply blocking_mono|apply blocking_mono|apply (blocking_fs E f s HE Hwf Hd Hs)|apply (blocking_sf E f s HE Hwf Hd Hs)|].
    apply (least_minimal _ l2); auto.
    + intro R. unfold gs. rewrite (by_groups_all_of s Hk l Hl). apply blocking_dec.
    + apply vr_min_least; auto. unfold ascending_table, vr_minimal_sets. cbn. rewrite Htm. auto.
    + exists (of_list (map (rep s l) (seq 0 (number_of_nodes s)))). apply (by_groups_all_of s Hk l Hl). apply (blocking_mono s (all_nodes s)); [|apply blocking_all].
      intros x Hx. apply mem_all_nodes in Hx. apply mem_all_of. split; auto. rewrite mem_of_list. apply in_map, in_seq. lia.
  - assert (Hnil : lb = []) by (destruct lb as [|b lb]; auto; exfalso; apply Hq; apply (proj1 (Hb2 b)); left; auto).
    subst lb. inversion HF; subst lm. unfold vr_unwrap, vr_unshrink in Elm. rewrite Htm in Elm. cbn in Elm. injection Elm as Elm.
    unfold vr_min, vr_minimal_sets. cbn. rewrite Elm. cbn. split; [|intros; lia]. exists [], (keyed f []). split; auto. split; auto. split; [apply keyed_spec|].
    apply no_quorum_blocked. rewrite (standard_has_quorum E f s HE Hwf Hd Hs). auto.
Qed.
End StandardGroups.
