(** Numbers of sets, the empty set and minimal sets of a result; groupings of a reduced FBAS. *)
From Verif Require Import P_Analysis P_Results P_Shrink P_Shrunken P_Groupings P_ThCore P_ThAnalysis P_IO P_GraphQsc.
From Verif Require Export Spec_Reuse.
Local Open Scope list_scope.

Lemma unwrap_map r l : vr_unwrap r = Ok l ->
  match vr_unshrink_table r with
  | Some t => Forall (in_range t) (node_sets r) /\ l = map (up t) (node_sets r)
  | None => l = node_sets r
  end.
Proof.
  intros Hu. apply vr_unwrap_inv in Hu. destruct (vr_unshrink_table r) as [t|]; [|auto].
  induction Hu as [|s s' a b H _ [IH1 IH2]]; cbn; [auto|]. apply unshrink_with_up in H. destruct H as [H ->]. split; [constructor; auto|congruence].
Qed.

Lemma up_incl_iff t a b : StronglySorted lt t -> in_range t a -> (incl_set (up t a) (up t b) <-> incl_set a b).
Proof.
  intros Hs Ha. split; intros H x Hx.
  - assert (Hl := Ha x Hx). apply nth_error_Some in Hl. destruct (nth_error t x) as [y|] eqn:Ey; [|congruence].
    assert (Hy : mem y (up t a) = true) by (apply mem_up; eauto). apply H, mem_up in Hy. destruct Hy as (i & Hi & Ei).
    assert (i = x) by (apply (nth_error_inj t i x y); auto; now apply sorted_lt_nodup). now subst.
  - apply mem_up in Hx. destruct Hx as (i & Hi & Ei). apply mem_up. exists i. auto.
Qed.
Lemma up_eq t a b : StronglySorted lt t -> in_range t a -> in_range t b -> up t a = up t b -> a = b.
Proof.
  intros Hs Ha Hb E. apply bset_ext. intros x. apply eq_true_iff_eq. split.
  - apply (proj1 (up_incl_iff t a b Hs Ha)). rewrite E. intros y; auto.
  - apply (proj1 (up_incl_iff t b a Hs Hb)). rewrite E. intros y; auto.
Qed.

Lemma result_size r l : ascending_table r -> vr_unwrap r = Ok l ->
  vr_len r = List.length l /\ (vr_is_empty r = true <-> l = []) /\ least_of (map len l) (vr_min r) /\ greatest_of (map len l) (vr_max r).
Proof.
  intros Ht Hu. destruct (unwrap_sizes r l Ht Hu) as [Hsz _]. assert (Hlen : vr_len r = List.length l).
  { unfold vr_len. rewrite <- (map_length len (node_sets r)), Hsz, map_length. auto. }
  split; [auto|]. split.
  - unfold vr_is_empty. unfold vr_len in Hlen. destruct (node_sets r), l; cbn in Hlen; try discriminate; split; auto; discriminate.
  - unfold vr_min, vr_max. rewrite Hsz. split; [apply min_or_0_spec|apply max_or_0_spec].
Qed.

Lemma result_empty_set r l : vr_unwrap r = Ok l -> (vr_contains_empty_set r = true <-> exists S, In S l /\ forall x, mem x S = false).
Proof.
  intros Hu. apply unwrap_map in Hu. unfold vr_contains_empty_set. rewrite existsb_exists. destruct (vr_unshrink_table r) as [t|].
  - destruct Hu as [Hr ->]. rewrite Forall_forall in Hr. split.
    + intros (s & Hs & E). apply beq_eq in E. subst s. exists (up t bempty). split; [apply in_map_iff; eauto|]. intros x.
      destruct (mem x (up t bempty)) eqn:Em; [|auto]. apply mem_up in Em. destruct Em as (i & Hi & _). rewrite mem_empty in Hi. discriminate.
    + intros (S & HS & HE). apply in_map_iff in HS. destruct HS as (s & <- & Hs). exists s. split; [auto|]. apply beq_eq.
      apply bset_ext. intros x. rewrite mem_empty. destruct (mem x s) eqn:Em; [|auto]. assert (Hl := Hr s Hs x Em). apply nth_error_Some in Hl.
      destruct (nth_error t x) as [y|] eqn:Ey; [|congruence]. rewrite <- (HE y). symmetry. apply mem_up. eauto.
  - subst l. split.
    + intros (s & Hs & E). apply beq_eq in E. subst s. exists bempty. split; [auto|]. apply mem_empty.
    + intros (S & HS & HE). exists S. split; [auto|]. apply beq_eq. apply bset_ext. intros x. now rewrite mem_empty.
Qed.

Lemma result_minimal_sets r l : ascending_table r -> vr_unwrap r = Ok l ->
  exists l', vr_unwrap (vr_minimal_sets r) = Ok l' /\ StronglySorted before l' /\ forall S, In S l' <-> minimal (fun X => In X l) S.
Proof.
  intros Ht Hu. apply unwrap_map in Hu. destruct (remove_non_minimal_exact (node_sets r)) as [Hs Hm].
  unfold ascending_table in Ht. unfold vr_unwrap, vr_unshrink, vr_minimal_sets. cbn [vr_unshrink_table node_sets].
  destruct (vr_unshrink_table r) as [t|].
  - destruct Hu as [Hr ->]. rewrite Forall_forall in Hr.
    assert (Hr' : forall s, In s (remove_non_minimal_node_sets (node_sets r)) -> in_range t s).
    { intros s H. apply Hm in H. apply Hr, H. }
    exists (map (up t) (remove_non_minimal_node_sets (node_sets r))). split.
    { assert (E : unshrink_sets_with t (remove_non_minimal_node_sets (node_sets r)) = Ok (map (up t) (remove_non_minimal_node_sets (node_sets r)))); [|now rewrite E].
      clear -Hr'. induction (remove_non_minimal_node_sets (node_sets r)) as [|s ss IH]; cbn; [auto|].
      unfold unshrink_sets_with in *. cbn. rewrite unshrink_set_ok by (apply Hr'; now left). cbn.
      rewrite IH; [auto|]. intros s' H. apply Hr'. now right. }
    split.
    { clear -Hs Hr' Ht. induction Hs as [|s ss Hs IH Hf]; cbn; [constructor|]. constructor.
      - apply IH. intros s' H. apply Hr'. now right.
      - rewrite Forall_forall in *. intros X HX. apply in_map_iff in HX. destruct HX as (s' & <- & H').
        apply before_up; auto; apply Hr'; [now left|now right]. }
    intros S. rewrite in_map_iff. split.
    + intros (s & <- & H). apply Hm in H. destruct H as [H1 H2]. split; [apply in_map_iff; eauto|].
      intros S' HS' Hi. apply in_map_iff in HS'. destruct HS' as (s' & <- & Hs'). f_equal. apply H2; [auto|].
      apply (up_incl_iff t s' s); auto.
    + intros [H1 H2]. apply in_map_iff in H1. destruct H1 as (s & <- & H1). exists s. split; [auto|]. apply Hm. split; [auto|].
      intros s' Hs' Hi. apply (up_eq t); auto. apply H2; [apply in_map_iff; eauto|]. apply (up_incl_iff t s' s); auto.
  - subst l. exists (remove_non_minimal_node_sets (node_sets r)). auto.
Qed.

(** ** groupings of a reduced FBAS *)
Section Groups.
Variables (f : fbas) (K : bset).
Variable gs : list grouping.
Hypothesis Hr : groups_of f gs.
Hypothesis Hd : disjoint_groups gs.
Let m := shrink_map (sm_new K).
Let gs' := map (grouping_shrunken m) gs.

Lemma member_shrunken y g : member y (grouping_shrunken m g) <-> exists x, member x g /\ nth_error (elements K) y = Some x.
Proof.
  unfold member, grouping_shrunken. cbn [g_validators]. rewrite sort_by_in, P_Shrink.filter_map_in.
  split; intros (x & H1 & H2); exists x; (split; [auto|]); now apply shrink_map_spec.
Qed.
Lemma shrunken_disjoint : disjoint_groups gs'.
Proof.
  intros i j gi gj x Hi Hj Hx Hx'. unfold gs' in *. rewrite nth_error_map in Hi, Hj.
  destruct (nth_error gs i) as [ri|] eqn:Ei; [|discriminate]. destruct (nth_error gs j) as [rj|] eqn:Ej; [|discriminate].
  injection Hi as <-. injection Hj as <-. apply member_shrunken in Hx, Hx'. destruct Hx as (y & H1 & H2). destruct Hx' as (y' & H3 & H4).
  assert (y = y') by congruence. subst y'. eapply Hd; eauto.
Qed.
Lemma shrunken_groups_of f' : number_of_nodes f' = len K -> groups_of f' gs'.
Proof.
  intros En g x Hg Hx. apply in_map_iff in Hg. destruct Hg as (g0 & <- & _). apply member_shrunken in Hx. destruct Hx as (y & _ & H).
  rewrite En, len_elements. apply nth_error_Some. congruence.
Qed.
Lemma same_group_shrunken i j x y : nth_error (elements K) i = Some x -> nth_error (elements K) j = Some y ->
  (same_group gs' i j <-> same_group gs x y).
Proof.
  intros Hi Hj. split.
  - intros (g & Hg & H1 & H2). apply in_map_iff in Hg. destruct Hg as (g0 & <- & Hg). apply member_shrunken in H1, H2.
    destruct H1 as (a & Ha & Ea). destruct H2 as (b & Hb & Eb). assert (a = x) by congruence. assert (b = y) by congruence. subst. exists g0. auto.
  - intros (g & Hg & H1 & H2). exists (grouping_shrunken m g). split; [apply in_map; auto|]. split; apply member_shrunken; eauto.
Qed.
Lemma shrunken_listing g : NoDup (g_validators g) -> StronglySorted lt (g_validators (grouping_shrunken m g)).
Proof.
  intros Hn. unfold grouping_shrunken. cbn [g_validators]. apply sort_ascending. clear -Hn. induction Hn as [|a l Ha Hn IH]; cbn [filter_map]; [constructor|].
  destruct (assoc Nat.eqb a m) as [i|] eqn:E; [|auto]. constructor; [|auto]. intro Hi. apply P_Shrink.filter_map_in in Hi.
  destruct Hi as (b & Hb & Eb). apply shrink_map_spec in E, Eb. assert (a = b) by congruence. subst. contradiction.
Qed.
End Groups.

Lemma images_len (l : list nat) (a b : nat -> nat) : (forall x y, In x l -> In y l -> (a x = a y <-> b x = b y)) ->
  len (of_list (map a l)) = len (of_list (map b l)).
Proof.
  intros H. assert (Hx : exists l0, incl l0 l /\ NoDup (map a l0) /\ NoDup (map b l0) /\ incl (map a l) (map a l0) /\ incl (map b l) (map b l0)).
  { induction l as [|x l IH]; [exists []; repeat split; auto using incl_refl, NoDup_nil; constructor|].
    destruct IH as (l0 & H1 & H2 & H3 & H4 & H5); [intros; apply H; now right|].
    destruct (in_dec Nat.eq_dec (a x) (map a l0)) as [Hi|Hi].
    - exists l0. split; [now apply incl_tl|]. split; [auto|]. split; [auto|]. split; [apply incl_cons; auto|]. apply incl_cons; [|auto].
      apply in_map_iff in Hi. destruct Hi as (y & Ey & Hy). apply in_map_iff. exists y. split; [|auto]. apply H; [right; auto|now left|auto].
    - exists (x :: l0). split; [apply incl_cons; [now left|now apply incl_tl]|]. cbn. split; [constructor; auto|]. split.
      + constructor; [|auto]. intro Hb. apply Hi. apply in_map_iff in Hb. destruct Hb as (y & Ey & Hy). apply in_map_iff. exists y. split; [|auto].
        apply H; [right; auto|now left|auto].
      + split; apply incl_cons; try (now left); now apply incl_tl. }
  destruct Hx as (l0 & H1 & H2 & H3 & H4 & H5).
  assert (Hs : forall c, incl (map c l) (map c l0) -> NoDup (map c l0) -> len (of_list (map c l)) = List.length l0).
  { intros c Hc Hn. rewrite <- (map_length c l0), <- (len_of_list (map c l0) Hn). f_equal. apply bset_ext. intros x. apply eq_true_iff_eq.
    rewrite !mem_of_list. split; [apply Hc|]. intros Hx. apply in_map_iff in Hx. destruct Hx as (y & <- & Hy). apply in_map. auto. }
  now rewrite !Hs.
Qed.

Lemma mapM_values (k : nat -> res nat) l : (forall x, In x l -> k x <> Panic) ->
  mapM k l = Ok (map (fun x => match k x with Ok r => r | Panic => 0 end) l).
Proof.
  induction l as [|x l IH]; intro H; cbn; [auto|]. destruct (k x) as [r|] eqn:E; [|exfalso; apply (H x); [now left|auto]].
  cbn. rewrite IH; [auto|]. intros y Hy. apply H. now right.
Qed.

Lemma shrunken_groups f K gs G f' sm : groups_of f gs -> disjoint_groups gs -> groupings_new gs f = Ok G -> incl_set K (all_nodes f) ->
  shrunken f K = Ok (f', sm) ->
  exists G', groupings_shrunken G sm f' = Ok G' /\ g_fbas G' = f' /\
    Forall2 (fun g g' => g_name g' = g_name g /\
      (forall y, member y g' <-> exists x, member x g /\ nth_error (elements K) y = Some x) /\
      (NoDup (g_validators g) -> StronglySorted lt (g_validators g'))) gs (g_groupings G') /\
    forall S' S, (forall i, mem i S' = true -> i < len K) ->
      (forall x, mem x S = true <-> exists i, mem i S' = true /\ nth_error (elements K) i = Some x) ->
      exists R' R, merge_node_set G' S' = Ok R' /\ merge_node_set G S = Ok R /\ len R' = len R.
Proof.
  intros Hr Hd EG HK Es.
  assert (Esm : sm = sm_new K) by (apply (shrunken_sm f K f'); auto). subst sm.
  assert (En : number_of_nodes f' = len K).
  { rewrite shrunken_eq in Es. injection Es as <-. now apply shrunken_nodes. }
  destruct (groupings_new_ok f gs Hr Hd) as (G0 & EG0 & HG). assert (G0 = G) by congruence. subst G0.
  destruct (groupings_new_ok f' (map (grouping_shrunken (shrink_map (sm_new K))) gs)) as (G' & EG' & HG').
  { now apply shrunken_groups_of. }
  { now apply shrunken_disjoint. }
  exists G'. unfold groupings_shrunken. rewrite (go_groups _ _ _ HG). split; [auto|]. split; [apply (go_fbas _ _ _ HG')|]. split.
  - rewrite (go_groups _ _ _ HG'). clear. induction gs as [|g l IH]; cbn; constructor; [|auto]. split; [auto|]. split.
    + intro y. apply member_shrunken.
    + apply shrunken_listing.
  - intros S' S Hrange HS.
    assert (Ht : forall i, mem i S' = true -> exists x, nth_error (elements K) i = Some x /\ mem x S = true).
    { intros i Hi. assert (Hl := Hrange i Hi). rewrite len_elements in Hl. apply nth_error_Some in Hl.
      destruct (nth_error (elements K) i) as [x|] eqn:Ex; [|congruence]. exists x. split; [auto|]. apply HS. eauto. }
    assert (HKn : forall i x, nth_error (elements K) i = Some x -> x < number_of_nodes f).
    { intros i x Hx. apply nth_error_In, elements_spec, HK, mem_all_nodes in Hx. auto. }
    assert (HSn : forall x, mem x S = true -> x < number_of_nodes f).
    { intros x Hx. apply HS in Hx. destruct Hx as (i & _ & Hx). eauto. }
    unfold merge_node_set. rewrite !mapM_values.
    + cbn [res_map bind]. eexists. eexists. split; [reflexivity|]. split; [reflexivity|].
      set (d := fun x => match merge_node G x with Ok r => r | Panic => 0 end).
      set (nthK := fun i => nth i (elements K) 0).
      assert (Hnth : forall i x, nth_error (elements K) i = Some x -> nthK i = x) by (intros i x Hx; unfold nthK; now apply nth_error_nth).
      transitivity (len (of_list (map (fun i => d (nthK i)) (elements S')))).
      * apply images_len. intros i j Hi Hj. apply elements_spec in Hi, Hj.
        destruct (Ht i Hi) as (x & Hx & Hxs). destruct (Ht j Hj) as (y & Hy & Hys). rewrite (Hnth i x Hx), (Hnth j y Hy).
        assert (Hil := Hrange i Hi). assert (Hjl := Hrange j Hj). rewrite <- En in Hil, Hjl.
        pose proof (merge_same f' _ G' HG' (shrunken_disjoint K gs Hd) i j Hil Hjl) as M1.
        pose proof (merge_same f _ G HG Hd x y (HSn x Hxs) (HSn y Hys)) as M2.
        rewrite (same_group_shrunken K gs i j x y Hx Hy) in M1.
        assert (Hij : i = j <-> x = y).
        { split; [intros ->; congruence|]. intros ->. apply (nth_error_inj (elements K) i j y); auto. apply elements_nodup. }
        unfold d.
        destruct (merge_node G' i) as [r1|] eqn:E1; [|apply (merge_node_panic f' _ G' HG') in E1; lia].
        destruct (merge_node G' j) as [r2|] eqn:E2; [|apply (merge_node_panic f' _ G' HG') in E2; lia].
        destruct (merge_node G x) as [r3|] eqn:E3; [|apply (merge_node_panic f _ G HG) in E3; specialize (HSn x Hxs); lia].
        destruct (merge_node G y) as [r4|] eqn:E4; [|apply (merge_node_panic f _ G HG) in E4; specialize (HSn y Hys); lia].
        transitivity (i = j \/ same_group gs x y); [rewrite <- M1; split; congruence|]. rewrite Hij, <- M2. split; congruence.
      * f_equal. apply bset_ext. intros r. apply eq_true_iff_eq. rewrite !mem_of_list, !in_map_iff. split.
        -- intros (i & Er & Hi). apply elements_spec in Hi. destruct (Ht i Hi) as (x & Hx & Hxs). rewrite (Hnth i x Hx) in Er.
           exists x. split; [auto|]. now apply elements_spec.
        -- intros (x & Er & Hx). apply elements_spec, HS in Hx. destruct Hx as (i & Hi & Hx). exists i. rewrite (Hnth i x Hx).
           split; [auto|]. now apply elements_spec.
    + intros x Hx Ep. apply elements_spec in Hx. apply (merge_node_panic f _ G HG) in Ep. specialize (HSn x Hx). lia.
    + intros x Hx Ep. apply elements_spec in Hx. apply (merge_node_panic f' _ G' HG') in Ep. specialize (Hrange x Hx). lia.
Qed.
