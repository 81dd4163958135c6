(** Proofs about statistics of results and about results merged by group. *)
From Verif Require Export P_ThAnalysis P_MergeQset.
Local Open Scope list_scope.

(** ** minimum, maximum, histogram *)
Lemma fold_min_spec l : forall a, (In (fold_left Nat.min l a) (a :: l)) /\ forall x, In x (a :: l) -> fold_left Nat.min l a <= x.
Proof.
  induction l as [|b l IH]; intros a; cbn [fold_left].
  - split; [now left|]. intros x [<-|[]]. auto.
  - destruct (IH (Nat.min a b)) as [H1 H2]. split.
    + destruct H1 as [H1|H1]; [|right; now right]. destruct (Nat.min_spec a b) as [[_ E]|[_ E]]; rewrite E in H1.
      * left. rewrite E. auto.
      * right. left. rewrite E. auto.
    + intros x [<-|[<-|Hx]].
      * transitivity (Nat.min a b); [apply H2; now left|lia].
      * transitivity (Nat.min a b); [apply H2; now left|lia].
      * apply H2. now right.
Qed.
Lemma fold_max_spec l : forall a, (In (fold_left Nat.max l a) (a :: l)) /\ forall x, In x (a :: l) -> x <= fold_left Nat.max l a.
Proof.
  induction l as [|b l IH]; intros a; cbn [fold_left].
  - split; [now left|]. intros x [<-|[]]. auto.
  - destruct (IH (Nat.max a b)) as [H1 H2]. split.
    + destruct H1 as [H1|H1]; [|right; now right]. destruct (Nat.max_spec a b) as [[_ E]|[_ E]]; rewrite E in H1.
      * right. left. rewrite E. auto.
      * left. rewrite E. auto.
    + intros x [<-|[<-|Hx]].
      * transitivity (Nat.max a b); [lia|apply H2; now left].
      * transitivity (Nat.max a b); [lia|apply H2; now left].
      * apply H2. now right.
Qed.

Lemma min_or_0_spec l : least_of l (min_or_0 l).
Proof. destruct l as [|a l]; [now left|right]. apply fold_min_spec. Qed.
Lemma max_or_0_spec l : greatest_of l (max_or_0 l).
Proof. destruct l as [|a l]; [now left|right]. apply fold_max_spec. Qed.


Lemma histogram_fold l : forall h, (forall x, In x l -> x < List.length h) ->
  exists h', foldM histogram_loop h l = Ok h' /\ List.length h' = List.length h /\
    (forall k c, nth_error h k = Some c -> nth_error h' k = Some (c + occurrences l k)) /\
    list_sum h' = list_sum h + List.length l.
Proof.
  induction l as [|a l IH]; intros h Hh; cbn [foldM].
  - exists h. split; auto. split; auto. split; [|cbn; lia]. intros k c Hk. rewrite Hk. f_equal. cbn. lia.
  - assert (Ha : a < List.length h) by (apply Hh; now left).
    unfold histogram_loop at 1. destruct (nth_error h a) as [c0|] eqn:Ea; [|apply nth_error_None in Ea; lia]. cbn [unwrap bind].
    destruct (IH (update a (c0 + 1) h)) as (h' & E & Hl & Hk & Hs).
    { intros x Hx. rewrite update_length. apply Hh. now right. }
    exists h'. split; auto. rewrite update_length in Hl. split; auto. split.
    + intros k c Hc. unfold occurrences. cbn [filter]. destruct (a =? k) eqn:Eak.
      * apply Nat.eqb_eq in Eak. subst k. rewrite Ea in Hc. inversion Hc; subst c0.
        rewrite (Hk a (c + 1)).
        -- f_equal. unfold occurrences. cbn [List.length]. lia.
        -- rewrite nth_error_update, Nat.eqb_refl. apply Nat.ltb_lt in Ha. rewrite Ha. reflexivity.
      * rewrite (Hk k c); auto. rewrite nth_error_update. destruct (k =? a) eqn:E2; auto.
        { apply Nat.eqb_eq in E2. subst. rewrite Nat.eqb_refl in Eak. discriminate. }
    + rewrite Hs. cbn [List.length]. clear -Ea. revert a Ea. induction h as [|b h IHh]; intros [|a] Ea; cbn in Ea; try discriminate.
      * inversion Ea; subst. cbn. lia.
      * specialize (IHh a Ea). cbn [update]. change (list_sum (b :: update a (c0 + 1) h)) with (b + list_sum (update a (c0 + 1) h)).
        change (list_sum (b :: h)) with (b + list_sum h). lia.
Qed.
Lemma list_sum_repeat0 n : list_sum (repeat 0 n) = 0.
Proof. induction n; cbn; auto. Qed.

Lemma histogram_spec (r : vec_result) : exists h, vr_histogram r = Ok h /\
  List.length h = vr_max r + 1 /\ (forall k, k <= vr_max r -> nth_error h k = Some (occurrences (map len (node_sets r)) k)) /\
  list_sum h = List.length (node_sets r).
Proof.
  unfold vr_histogram. destruct (histogram_fold (map len (node_sets r)) (repeat 0 (vr_max r + 1))) as (h & E & Hl & Hk & Hs).
  - intros x Hx. rewrite repeat_length. destruct (max_or_0_spec (map len (node_sets r))) as [[E _]|[_ H]].
    + rewrite E in Hx. contradiction.
    + specialize (H x Hx). unfold vr_max. lia.
  - exists h. split; auto. rewrite repeat_length in Hl. split; auto. split.
    + intros k Hk'. rewrite (Hk k 0); auto. assert (Hlt : k < vr_max r + 1) by lia.
      rewrite nth_error_nth' with (d := 0) by (rewrite repeat_length; auto). f_equal. apply nth_repeat.
    + rewrite Hs, list_sum_repeat0, map_length. auto.
Qed.

(** ** Tables of results *)
Lemma shrunken_sm f K g sm : shrunken f K = Ok (g, sm) -> sm = sm_new K.
Proof. unfold shrunken. intros H. destruct (new_generic_unconfigured _); cbn [bind] in H; inversion H; auto. Qed.
Definition has_table (a : analysis) : Prop := exists K, a_sm a = sm_new K.
Lemma shrink_table a a' : shrink_id_space_to_top_tier a = Ok a' -> has_table a'.
Proof.
  unfold shrink_id_space_to_top_tier. intros H.
  destruct (match mq_cache a with Some mq => _ | None => _ end) as [t|]; cbn [bind] in H; [|discriminate].
  destruct (unshrink_set (a_sm a) t) as [o|]; cbn [bind] in H; [|discriminate].
  destruct (shrunken (fbas_original a) o) as [[g sm]|] eqn:E; cbn [bind] in H; [|discriminate].
  unfold assert in H. destruct (_ || _); [|discriminate].
  destruct (mapM_option _ (mq_cache a)); cbn [bind] in H; [|discriminate].
  destruct (mapM_option _ (mbs_cache a)); cbn [bind] in H; [|discriminate].
  inversion H; subst. exists o. cbn. now apply (shrunken_sm (fbas_original a) o g).
Qed.
Lemma mq_table E a l a' : has_table a -> minimal_quorums_shrunken E a = Ok (l, a') -> has_table a'.
Proof.
  unfold minimal_quorums_shrunken. intros Ha H. destruct (mq_cache a) eqn:Ec; [inversion H; subst; auto|].
  destruct (find_minimal_quorums E (fbas_shrunken a)) as [mq|]; cbn [bind] in H; [|discriminate].
  match type of H with bind ?e _ = _ => destruct e as [a2|] eqn:E2 end; cbn [bind] in H; [|discriminate].
  destruct (unwrap (mq_cache a2)); cbn [bind] in H; [|discriminate]. inversion H; subst.
  destruct (_ && _) in E2; [eapply shrink_table; eauto|]. inversion E2; subst. exact Ha.
Qed.
Lemma mbs_table E a l a' : has_table a -> minimal_blocking_sets_shrunken E a = Ok (l, a') -> has_table a'.
Proof.
  unfold minimal_blocking_sets_shrunken. intros Ha H. destruct (mbs_cache a) eqn:Ec; [inversion H; subst; auto|].
  destruct (find_minimal_blocking_sets E (fbas_shrunken a)) as [mq|]; cbn [bind] in H; [|discriminate].
  match type of H with bind ?e _ = _ => destruct e as [a2|] eqn:E2 end; cbn [bind] in H; [|discriminate].
  destruct (unwrap (mbs_cache a2)); cbn [bind] in H; [|discriminate]. inversion H; subst.
  destruct (_ && _) in E2; [eapply shrink_table; eauto|]. inversion E2; subst. exact Ha.
Qed.
Lemma hqi_table E a b a' : has_table a -> has_quorum_intersection E a = Ok (b, a') -> has_table a'.
Proof.
  unfold has_quorum_intersection. intros Ha H. destruct (hqi_cache a); [inversion H; subst; auto|].
  destruct (minimal_quorums_shrunken E a) as [[l a2]|] eqn:E2; cbn [bind] in H; [|discriminate]. inversion H; subst.
  apply (mq_table E a l a2 Ha E2).
Qed.
Lemma mss_table E a l a' : has_table a -> minimal_splitting_sets_shrunken E a = Ok (l, a') -> has_table a'.
Proof.
  unfold minimal_splitting_sets_shrunken. intros Ha H.
  destruct (minimal_quorums_shrunken E a) as [[mq a1]|] eqn:E1; cbn [bind] in H; [|discriminate].
  pose proof (mq_table E a mq a1 Ha E1) as H1. destruct (mss_cache a1); [inversion H; subst; auto|].
  destruct (has_quorum_intersection E a1) as [[b a2]|] eqn:E2; cbn [bind] in H; [|discriminate].
  pose proof (hqi_table E a1 b a2 H1 E2) as H2.
  match type of H with bind ?e _ = _ => destruct e as [s|] end; cbn [bind] in H; [|discriminate]. cbn in H.
  inversion H; subst. exact H2.
Qed.
Lemma top_tier_table E a s a' : has_table a -> top_tier_shrunken E a = Ok (s, a') -> has_table a'.
Proof.
  unfold top_tier_shrunken. intros Ha H. destruct (_ || _).
  - destruct (minimal_quorums_shrunken E a) as [[mq a1]|] eqn:E1; cbn in H; [|discriminate]. inversion H; subst. apply (mq_table E a mq); auto.
  - destruct (minimal_blocking_sets_shrunken E a) as [[mq a1]|] eqn:E1; cbn in H; [|discriminate]. inversion H; subst. apply (mbs_table E a mq); auto.
Qed.
Lemma perform_table E a c x a' : has_table a -> perform E a c = Ok (x, a') ->
  has_table a' /\ forall r, x = AVec r -> exists K, vr_unshrink_table r = Some (elements K).
Proof.
  intros Ha H. destruct c; cbn [perform] in H; try (inversion H; subst; split; [auto|discriminate]).
  - destruct (has_quorum_intersection E a) as [[b a1]|] eqn:E1; cbn in H; [|discriminate]. inversion H; subst. split; [|discriminate].
    apply (hqi_table E a b); auto.
  - destruct (alternative_check E a) as [[b o]|]; cbn in H; [|discriminate]. inversion H; subst. split; [auto|discriminate].
  - destruct (minimal_quorums_shrunken E a) as [[l a1]|] eqn:E1; cbn in H; [|discriminate]. inversion H; subst.
    pose proof (mq_table E a l a' Ha E1) as (K & HK). split; [now exists K|]. intros r [= <-]. exists K. cbn. now rewrite HK.
  - destruct (minimal_blocking_sets_shrunken E a) as [[l a1]|] eqn:E1; cbn in H; [|discriminate]. inversion H; subst.
    pose proof (mbs_table E a l a' Ha E1) as (K & HK). split; [now exists K|]. intros r [= <-]. exists K. cbn. now rewrite HK.
  - destruct (minimal_splitting_sets_shrunken E a) as [[l a1]|] eqn:E1; cbn in H; [|discriminate]. inversion H; subst.
    pose proof (mss_table E a l a' Ha E1) as (K & HK). split; [now exists K|]. intros r [= <-]. exists K. cbn. now rewrite HK.
  - destruct (top_tier_shrunken E a) as [[s a1]|] eqn:E1; cbn in H; [|discriminate].
    destruct (unshrink_set (a_sm a1) s); cbn in H; [|discriminate]. inversion H; subst. split; [|discriminate].
    apply (top_tier_table E a s); auto.
Qed.
Lemma perform_all_table E cs : forall a xs a', has_table a -> perform_all E a cs = Ok (xs, a') ->
  forall r, In (AVec r) xs -> exists K, vr_unshrink_table r = Some (elements K).
Proof.
  induction cs as [|c cs IH]; intros a xs a' Ha H r Hr; cbn [perform_all] in H.
  - inversion H; subst. contradiction.
  - destruct (perform E a c) as [[x a1]|] eqn:E1; cbn [bind fst snd] in H; [|discriminate].
    destruct (perform_table E a c x a1 Ha E1) as [H1 Hx].
    destruct (perform_all E a1 cs) as [[xs' a2]|] eqn:E2; cbn [bind fst snd] in H; [|discriminate]. inversion H; subst.
    destruct Hr as [->|Hr]; [now apply Hx|]. apply (IH a1 xs' a' H1 E2 r Hr).
Qed.
Lemma analyze_table E f cs ans r : analyze E f cs = Ok ans -> In (AVec r) ans -> exists K, vr_unshrink_table r = Some (elements K).
Proof.
  unfold analyze, analysis_new. intros H Hr. destruct (shrunken f (relevant_nodes E f)) as [[g sm]|] eqn:Es; cbn [bind fst snd] in H; [|discriminate].
  match type of H with res_map fst (perform_all E ?a cs) = _ => destruct (perform_all E a cs) as [[xs a']|] eqn:E2;
    [apply (perform_all_table E cs a xs a'); auto|] end.
  - exists (relevant_nodes E f). cbn. apply (shrunken_sm f _ g); auto.
  - cbn in H. inversion H; subst. auto.
  - discriminate.
Qed.

(** sizes do not change when ids are translated back *)
Definition ascending_table (r : vec_result) : Prop :=
  match vr_unshrink_table r with Some t => StronglySorted lt t | None => True end.

Lemma unshrink_with_up t s s' : unshrink_set_with t s = Ok s' -> in_range t s /\ s' = up t s.
Proof.
  intros H. assert (Hr : in_range t s).
  { destruct (unshrink_set_panic t s) as [_ Hp]. unfold in_range. intros i Hi.
    destruct (le_lt_dec (List.length t) i) as [Hle|]; auto. exfalso.
    assert (unshrink_set_with t s = Panic); [|congruence]. apply Hp. intros Hr. specialize (Hr i Hi). lia. }
  split; auto. rewrite unshrink_set_ok in H by auto. congruence.
Qed.

Lemma unwrap_sizes r l : ascending_table r -> vr_unwrap r = Ok l -> map len (node_sets r) = map len l /\
  len (vr_involved_nodes r) = len (involved_nodes l).
Proof.
  unfold ascending_table. intros Ht Hu. apply vr_unwrap_inv in Hu. destruct (vr_unshrink_table r) as [t|]; [|subst l; auto].
  assert (HF : Forall2 (fun s s' => in_range t s /\ s' = up t s) (node_sets r) l).
  { clear -Hu. induction Hu; constructor; auto. now apply unshrink_with_up. }
  split.
  - clear -HF Ht. induction HF as [|s s' a b [Hs ->] _ IH]; cbn; auto. rewrite len_up by auto. now rewrite IH.
  - unfold vr_involved_nodes. rewrite <- (len_up t) with (s' := involved_nodes (node_sets r)); auto.
    + f_equal. apply bset_ext. intros x. apply eq_true_iff_eq. rewrite mem_up, mem_involved. split.
      * intros (i & Hi & En). apply mem_involved in Hi as (s & Hs & Hi).
        destruct (Forall2_in_l _ _ _ _ HF Hs) as (s' & Hs' & _ & ->). exists (up t s). split; auto. apply mem_up. eauto.
      * intros (s' & Hs' & Hx). destruct (Forall2_in_r _ _ _ _ HF Hs') as (s & Hs & _ & ->). apply mem_up in Hx as (i & Hi & En).
        exists i. split; auto. apply mem_involved. eauto.
    + intros i Hi. apply mem_involved in Hi as (s & Hs & Hi). destruct (Forall2_in_l _ _ _ _ HF Hs) as (s' & Hs' & Hr & _). auto.
Qed.

(** ** Results merged by group *)
Section Merged.
Context (f : fbas) (gs : list grouping) (Hr : groups_of f gs) (Hd : disjoint_groups gs).

Lemma merged_result (G : groupings) (r : vec_result) (l : list bset) : groupings_new gs f = Ok G -> vr_unwrap r = Ok l ->
  (forall s x, In s l -> mem x s = true -> x < number_of_nodes f) ->
  exists r' l', vr_merged_by_group r G = Ok r' /\ vr_unwrap r' = Ok l' /\ Forall2 (group_image gs) l l'.
Proof.
  intros EG Hu Hl. destruct (groupings_new_ok f gs Hr Hd) as (G' & EG' & HG). rewrite EG in EG'. inversion EG'; subst G'.
  destruct (merge_node_sets_spec f gs G HG Hd l) as (l' & El & HF); [intros s Hs x; now apply Hl|].
  unfold vr_merged_by_group. unfold vr_unwrap in Hu.
  assert (Hs : vr_unshrink r = Ok (mk_vec_result l None)).
  { unfold vr_unshrink in *. destruct (vr_unshrink_table r) as [t|]; cbn in *; [|congruence].
    destruct (unshrink_sets_with t (node_sets r)); cbn in *; congruence. }
  rewrite Hs. cbn [bind node_sets]. rewrite El. cbn [bind]. eexists. exists l'. split; [reflexivity|]. split; [reflexivity|]. auto.
Qed.

Lemma merged_result_minimal (P : bset -> Prop) (r : vec_result) (l : list bset) :
  (forall a b, incl_set a b -> P a -> P b) -> (forall S, P S \/ ~ P S) ->
  vr_unwrap r = Ok l -> (forall S, In S l <-> minimal P S) -> (forall s x, In s l -> mem x s = true -> x < number_of_nodes f) ->
  exists G r' l', groupings_new gs f = Ok G /\ vr_merged_by_group r G = Ok r' /\ vr_unwrap (vr_minimal_sets r') = Ok l' /\
    StronglySorted before l' /\ forall R, In R l' <-> minimal (by_groups f gs P) R.
Proof.
  intros Hm Hdec Hu Hl Hrange. destruct (groupings_new_ok f gs Hr Hd) as (G & EG & HG).
  destruct (merged_result G r l EG Hu Hrange) as (r' & l' & E1 & E2 & HF).
  assert (Et : vr_unshrink_table r' = None).
  { unfold vr_merged_by_group, vr_unshrink in E1. destruct (vr_unshrink_table r) as [t|]; cbn [bind node_sets vr_unshrink_table] in E1.
    - destruct (unshrink_sets_with t (node_sets r)) as [u|]; cbn [bind node_sets vr_unshrink_table] in E1; [|discriminate]. destruct (merge_node_sets G u); cbn [bind node_sets vr_unshrink_table] in E1; inversion E1; auto.
    - destruct (merge_node_sets G (node_sets r)); cbn [bind node_sets vr_unshrink_table] in E1; inversion E1; auto. }
  assert (El' : node_sets r' = l') by (apply vr_unwrap_inv in E2; rewrite Et in E2; auto).
  exists G, r', (remove_non_minimal_node_sets l'). split; auto. split; auto. split.
  - unfold vr_unwrap, vr_minimal_sets, vr_unshrink. cbn. rewrite Et. cbn. now rewrite El'.
  - split; [apply remove_non_minimal_exact|].
    apply (merged_minimal f gs G HG Hd P l l'); auto.
    + intros S HS x Hx. now apply (Hrange S).
    + intros S HS. destruct (minimal_below P Hdec S HS) as (m & Hi & Hmin). exists m. split; auto. now apply Hl.
Qed.
Lemma merge_minimal (P : bset -> Prop) (l : list bset) :
  (forall a b, incl_set a b -> P a -> P b) -> (forall S, P S \/ ~ P S) ->
  (forall S, In S l <-> minimal P S) -> (forall s x, In s l -> mem x s = true -> x < number_of_nodes f) ->
  exists G l', groupings_new gs f = Ok G /\ merge_minimal_node_sets G l = Ok l' /\
    StronglySorted before l' /\ forall R, In R l' <-> minimal (by_groups f gs P) R.
Proof.
  intros Hm Hdec Hl Hrange. destruct (groupings_new_ok f gs Hr Hd) as (G & EG & HG).
  destruct (merge_node_sets_spec f gs G HG Hd l) as (l' & El & HF); [intros s Hs x; now apply Hrange|].
  exists G, (remove_non_minimal_node_sets l'). split; auto. split; [unfold merge_minimal_node_sets; now rewrite El|].
  split; [apply remove_non_minimal_exact|].
  apply (merged_minimal f gs G HG Hd P l l'); auto.
  - intros S HS x Hx. now apply (Hrange S).
  - intros S HS. destruct (minimal_below P Hdec S HS) as (m & Hi & Hmin). exists m. split; auto. now apply Hl.
Qed.
End Merged.

Lemma quorum_in_range f Q x : quorum f Q -> mem x Q = true -> x < number_of_nodes f.
Proof.
  intros [_ H] Hx. destruct (H x Hx) as (q & Hn & _). destruct Hn as (n & Hn & _). apply nth_error_Some. congruence.
Qed.
Lemma minimal_blocking_in_range f B x : minimal_blocking f B -> mem x B = true -> x < number_of_nodes f.
Proof.
  intros HB Hx. destruct (minimal_blocking_top_tier f x) as [H _]. destruct H as (Q & [HQ _] & HxQ); [now exists B|].
  now apply (quorum_in_range f Q).
Qed.
Lemma minimal_splitting_in_range f S x : minimal_splitting f S -> mem x S = true -> x < number_of_nodes f.
Proof.
  intros [(Q1 & Q2 & H1 & H2 & Hne & Hi) Hmin] Hx.
  assert (E : inter Q1 Q2 = S).
  { apply Hmin.
    - exists Q1, Q2. split; auto. split; auto. split; auto. intros y Hy1 Hy2. rewrite mem_inter, Hy1, Hy2. auto.
    - intros y Hy. rewrite mem_inter in Hy. apply andb_true_iff in Hy as [Hy1 Hy2]. auto. }
  rewrite <- E, mem_inter in Hx. apply andb_true_iff in Hx as [Hx _]. apply (quorum_in_range f Q1); auto. apply H1.
Qed.

Lemma includes_quorum_minimal f S : minimal (includes_quorum f) S <-> minimal_quorum f S.
Proof.
  split.
  - intros [(Q & HQ & Hi) Hmin]. assert (E : Q = S) by (apply Hmin; auto; exists Q; split; auto; intros x; auto). subst Q.
    split; auto. intros S' HS' Hi'. apply Hmin; auto. exists S'. split; auto. intros x; auto.
  - intros [HQ Hmin]. split; [exists S; split; auto; intros x; auto|]. intros S' (Q & HQ' & Hi') Hi.
    assert (E : Q = S) by (apply Hmin; auto; intros x Hx; auto). subst Q. apply bset_ext. intros x. apply eq_true_iff_eq. split; auto.
Qed.
Lemma includes_quorum_dec f S : includes_quorum f S \/ ~ includes_quorum f S.
Proof.
  destruct (contains_quorum S f) eqn:E.
  - apply contains_quorum_iff in E as (Q & Hi & HQ). left. now exists Q.
  - rewrite contains_quorum_false in E. right. intros (Q & HQ & Hi). now apply (E Q).
Qed.
Lemma includes_quorum_mono f a b : incl_set a b -> includes_quorum f a -> includes_quorum f b.
Proof. intros Hi (Q & HQ & H). exists Q. split; auto. intros x Hx; auto. Qed.

Lemma quorums_merged E f gs cs : ext_ok E -> wf_fbas f -> Forall (allowed f) cs -> groups_of f gs -> disjoint_groups gs ->
  exists ans r G r' l, analyze E f (cs ++ [MinimalQuorums]) = Ok (ans ++ [AVec r]) /\ groupings_new gs f = Ok G /\
    vr_merged_by_group r G = Ok r' /\ vr_unwrap (vr_minimal_sets r') = Ok l /\
    StronglySorted before l /\ forall R, In R l <-> minimal (by_groups f gs (includes_quorum f)) R.
Proof.
  intros HE Hwf Hcs Hr Hd. destruct (mq_after E f cs HE Hwf Hcs) as (ans & r & l & Ea & Er & Hl).
  destruct (merged_result_minimal f gs Hr Hd (includes_quorum f) r l) as (G & r' & l' & H); auto using includes_quorum_dec.
  - apply includes_quorum_mono.
  - intros S. rewrite Hl. symmetry. apply includes_quorum_minimal.
  - intros S x HS. apply (quorum_in_range f S). apply Hl in HS. apply HS.
  - exists ans, r, G, r', l'. destruct H as (H1 & H2 & H3 & H4). auto.
Qed.
Lemma blocking_merged E f gs cs : ext_ok E -> wf_fbas f -> Forall (allowed f) cs -> groups_of f gs -> disjoint_groups gs ->
  sane_clusters f -> has_a_quorum f ->
  exists ans r G r' l, analyze E f (cs ++ [MinimalBlockingSets]) = Ok (ans ++ [AVec r]) /\ groupings_new gs f = Ok G /\
    vr_merged_by_group r G = Ok r' /\ vr_unwrap (vr_minimal_sets r') = Ok l /\
    StronglySorted before l /\ forall R, In R l <-> minimal (by_groups f gs (blocking f)) R.
Proof.
  intros HE Hwf Hcs Hr Hd Hs Hq. destruct (mbs_after E f cs HE Hwf Hcs Hs) as (ans & r & l & Ea & Er & _ & Hl).
  destruct (merged_result_minimal f gs Hr Hd (blocking f) r l) as (G & r' & l' & H); auto using blocking_dec.
  - apply blocking_mono.
  - intros S. rewrite Hl. unfold minimal_blocking. tauto.
  - intros S x HS. apply minimal_blocking_in_range. now apply Hl.
  - exists ans, r, G, r', l'. destruct H as (H1 & H2 & H3 & H4). auto.
Qed.
Lemma splitting_merged E f gs cs : ext_ok E -> wf_fbas f -> Forall (allowed f) cs -> groups_of f gs -> disjoint_groups gs ->
  splittable_clusters f -> has_a_quorum f ->
  exists ans r G r' l, analyze E f (cs ++ [MinimalSplittingSets]) = Ok (ans ++ [AVec r]) /\ groupings_new gs f = Ok G /\
    vr_merged_by_group r G = Ok r' /\ vr_unwrap (vr_minimal_sets r') = Ok l /\
    StronglySorted before l /\ forall R, In R l <-> minimal (by_groups f gs (splitting f)) R.
Proof.
  intros HE Hwf Hcs Hr Hd Hs Hq. destruct (mss_after E f cs HE Hwf Hcs Hs Hq) as (ans & r & l & Ea & Er & _ & Hl).
  destruct (merged_result_minimal f gs Hr Hd (splitting f) r l) as (G & r' & l' & H); auto.
  - apply splitting_mono.
  - intros S. now apply splitting_dec.
  - intros S x HS. apply minimal_splitting_in_range. now apply Hl.
  - exists ans, r, G, r', l'. destruct H as (H1 & H2 & H3 & H4). auto.
Qed.
