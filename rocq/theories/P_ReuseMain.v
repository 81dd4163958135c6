(** Statements of [Th_Reuse.v]. *)
From Verif Require Import P_Transfer P_Analysis P_Results P_ThAnalysis P_ThFloat P_Labels.
From Verif Require Export P_ReuseKeys.
Local Open Scope list_scope.

Lemma cached E fs : ext_ok E -> exists rs cache, reuse_all E [] fs = Ok (rs, cache) /\
  Forall2 (fun f r => exists s, to_standard_form E f = Ok s /\ do_analysis E s = Ok r) fs rs /\
  NoDup (map fst cache) /\ (forall s, In s (map fst cache) <-> exists f, In f fs /\ to_standard_form E f = Ok s).
Proof.
  intro HE. assert (Hc : cache_ok E []) by (split; [constructor|intros s r []]). assert (H := reuse_all_spec E fs [] Hc).
  assert (Hr : forall f, exists s r, to_standard_form E f = Ok s /\ do_analysis E s = Ok r).
  { intro f. exists (fbas_from_raw (sort_by (fun a b => string_compare (raw_public_key a) (raw_public_key b)) (fbas_to_raw (shrunken_fbas (relevant_nodes E f) f)))).
    destruct (do_analysis E _) as [r|] eqn:Er; [exists r; split; auto; apply to_standard_form_eq|]. exfalso. revert Er.
    unfold do_analysis. set (s := fbas_from_raw _).
    destruct (analyze_no_panic E HE s (from_raw_wf _) [MinimalBlockingSets; MinimalSplittingSets; TopTier; HasQuorumIntersection]) as (ans & Ea).
    { cbn. intuition discriminate. }
    rewrite Ea. cbn [bind]. clear -Ea. unfold analyze in Ea. destruct (analysis_new E s) as [a|]; cbn [bind] in Ea; [|discriminate].
    cbn [perform_all perform] in Ea.
    destruct (minimal_blocking_sets_shrunken E a) as [[l1 a1]|]; cbn [bind res_map fst snd vec_answer] in Ea; [|discriminate].
    destruct (minimal_splitting_sets_shrunken E a1) as [[l2 a2]|]; cbn [bind res_map fst snd vec_answer] in Ea; [|discriminate].
    destruct (top_tier_shrunken E a2) as [[l3 a3]|]; cbn [bind res_map fst snd] in Ea; [|discriminate].
    destruct (set_result_new l3 _) as [s3|]; cbn [bind res_map fst snd] in Ea; [|discriminate].
    destruct (has_quorum_intersection E a3) as [[l4 a4]|]; cbn [bind res_map fst snd] in Ea; [|discriminate].
    injection Ea as <-. discriminate. }
  assert (Hm : exists rs, mapM (results_of E) fs = Ok rs /\ Forall2 (fun f r => exists s, to_standard_form E f = Ok s /\ do_analysis E s = Ok r) fs rs).
  { clear -Hr. induction fs as [|f fs (rs & IH1 & IH2)]; [exists []; split; auto; reflexivity|]. destruct (Hr f) as (s & r & H1 & H2).
    exists (r :: rs). split; [|constructor; eauto]. cbn [mapM]. unfold results_of at 1. rewrite H1. cbn [bind]. rewrite H2. cbn [bind]. rewrite IH1. auto. }
  destruct Hm as (rs & Hm & HF). rewrite Hm in H. destruct H as (c' & H1 & [H2 _] & H3). exists rs, c'. split; auto. split; auto. split; auto.
  intro s. rewrite H3. cbn. tauto.
Qed.

Lemma reordered_reused E p f h cache : ext_ok E -> wf_fbas f -> distinct_keys f -> renumbering p f h -> (forall x pk, has_key f x pk -> has_key h (p x) pk) ->
  forall r cache', reuse E cache f = Ok (r, cache') -> reuse E cache' h = Ok (r, cache').
Proof.
  intros HE Hwf Hd Hp Hk r cache' H. unfold reuse in *. rewrite <- (standard_canonical E E p f h HE HE Hwf Hd Hp Hk).
  destruct (to_standard_form E f) as [s|]; cbn [bind] in *; [|discriminate]. destruct (assoc fbas_eqb s cache) as [r0|] eqn:Ea.
  - injection H as -> ->. rewrite Ea. auto.
  - destruct (do_analysis E s) as [r0|]; cbn [bind] in *; [|discriminate]. injection H as <- <-. cbn.
    rewrite (proj2 (fbas_eqb_eq s s) eq_refl). auto.
Qed.

(** ** standard forms *)
Section Standard.
Variables (E : ext) (f s : fbas).
Hypothesis HE : ext_ok E.
Hypothesis Hwf : wf_fbas f.
Hypothesis Hd : distinct_keys f.
Hypothesis Hs : to_standard_form E f = Ok s.

Lemma s_facts : distinct_keys s /\ keys_ok s /\ wf_fbas s.
Proof.
  destruct (standard_keys_thm E f s HE Hwf Hd Hs) as (H1 & _ & H2 & H3). split; auto. unfold distinct_keys. apply strict_sorted_nodup. auto.
Qed.
Let Hds : distinct_keys s := proj1 s_facts.
Let Hwfs : wf_fbas s := proj2 (proj2 s_facts).
Lemma fs_quorums Q : minimal_quorum f Q -> exists Q', minimal_quorum s Q' /\ same_keys f Q s Q'.
Proof. apply (proj2 (standard_minimal_quorums_thm E f s HE Hwf Hd Hs)). Qed.
Lemma sf_quorums Q' : minimal_quorum s Q' -> exists Q, minimal_quorum f Q /\ same_keys f Q s Q'.
Proof. apply (proj1 (standard_minimal_quorums_thm E f s HE Hwf Hd Hs)). Qed.
Lemma fs_quorums' Q' : minimal_quorum s Q' -> exists Q, minimal_quorum f Q /\ same_keys s Q' f Q.
Proof. intro H. destruct (sf_quorums Q' H) as (Q & H1 & H2). exists Q. split; auto. apply same_keys_sym; auto. Qed.
Lemma sf_quorums' Q : minimal_quorum f Q -> exists Q', minimal_quorum s Q' /\ same_keys s Q' f Q.
Proof. intro H. destruct (fs_quorums Q H) as (Q' & H1 & H2). exists Q'. split; auto. apply same_keys_sym; auto. Qed.

Lemma standard_has_quorum : has_a_quorum f <-> has_a_quorum s.
Proof. split; [apply (quorum_to_keys f s fs_quorums)|apply (quorum_to_keys s f fs_quorums')]. Qed.
Lemma standard_intersection : quorum_intersection f <-> quorum_intersection s.
Proof.
  split; [apply (intersection_to_keys f s Hds fs_quorums sf_quorums)|apply (intersection_to_keys s f Hd fs_quorums' sf_quorums')].
Qed.
Lemma standard_top_tier pk : (exists x, in_top_tier f x /\ has_key f x pk) <-> (exists y, in_top_tier s y /\ has_key s y pk).
Proof.
  split; intros (x & H1 & H2); [apply (top_tier_to_keys f s fs_quorums x)|apply (top_tier_to_keys s f fs_quorums' x)]; auto.
Qed.
Lemma blocking_fs B : blocking f B -> blocking s (to_keys f s B).
Proof. apply (blocking_to_keys f s sf_quorums). Qed.
Lemma blocking_sf B : blocking s B -> blocking f (to_keys s f B).
Proof. apply (blocking_to_keys s f sf_quorums'). Qed.
Lemma splitting_fs B : splitting f B -> splitting s (to_keys f s B).
Proof. apply (splitting_to_keys f s Hd fs_quorums). Qed.
Lemma splitting_sf B : splitting s B -> splitting f (to_keys s f B).
Proof. apply (splitting_to_keys s f Hds fs_quorums'). Qed.

Lemma by_keys (P P' : bset -> Prop) : (forall S, P S -> P' (to_keys f s S)) -> (forall S, P' S -> P (to_keys s f S)) ->
  (forall S, minimal P S -> exists S', minimal P' S' /\ same_keys f S s S' /\ len S' = len S) /\
  (forall S', minimal P' S' -> exists S, minimal P S /\ same_keys f S s S' /\ len S' = len S).
Proof.
  assert (Hnodes : forall h h' S x, mem x (to_keys h h' S) = true -> x < number_of_nodes h').
  { intros h h' S x Hx. apply mem_to_keys in Hx. destruct Hx as (y & pk & _ & _ & H). apply has_key_pk in H. tauto. }
  intros H1 H2. split.
  - intros S HS. destruct (minimal_to_keys f s P P' Hd Hds H1 H2 S HS) as (A & B & C). exists (to_keys f s S). split; auto. split; auto.
    symmetry. apply (same_keys_len f S s); auto. intros x; apply Hnodes.
  - intros S' HS'. destruct (minimal_to_keys s f P' P Hds Hd H2 H1 S' HS') as (A & B & C). exists (to_keys s f S'). split; auto.
    split; [apply same_keys_sym; auto|]. apply (same_keys_len s S' f); auto. intros x; apply Hnodes.
Qed.
Lemma standard_blocking :
  (forall B, minimal_blocking f B -> exists B', minimal_blocking s B' /\ same_keys f B s B' /\ len B' = len B) /\
  (forall B', minimal_blocking s B' -> exists B, minimal_blocking f B /\ same_keys f B s B' /\ len B' = len B).
Proof. apply by_keys; [apply blocking_fs|apply blocking_sf]. Qed.
Lemma standard_splitting :
  (forall S, minimal_splitting f S -> exists S', minimal_splitting s S' /\ same_keys f S s S' /\ len S' = len S) /\
  (forall S', minimal_splitting s S' -> exists S, minimal_splitting f S /\ same_keys f S s S' /\ len S' = len S).
Proof. apply by_keys; [apply splitting_fs|apply splitting_sf]. Qed.

Lemma empty_keys S S' : (forall x, mem x S = false) -> (forall x, mem x S' = false) -> same_keys f S s S'.
Proof. intros H1 H2 pk. split; intros (x & Hx & _); [rewrite H1 in Hx|rewrite H2 in Hx]; discriminate. Qed.

Lemma done : sane_clusters s -> splittable_clusters s -> exists r lb lp, do_analysis E s = Ok r /\
  vr_unwrap (r_blocking r) = Ok lb /\ lists (reported_blocking s) lb /\ vr_unwrap (r_splitting r) = Ok lp /\ lists (reported_splitting s) lp /\
  (forall x, mem x (r_top_tier r) = true <-> in_top_tier s x) /\ (r_intersection r = true <-> quorum_intersection s) /\
  ascending_table (r_blocking r) /\ ascending_table (r_splitting r).
Proof.
  intros H1 H2. destruct (analyze_ok E HE s Hwfs [MinimalBlockingSets; MinimalSplittingSets; TopTier; HasQuorumIntersection]) as (ans & Ea & Hf).
  { constructor; [exact H1|]. constructor; [exact H2|]. constructor; [exact I|]. constructor; [exact I|]. constructor. }
  inversion Hf as [|? a1 ? l1 Ha1 Hf1]; subst. inversion Hf1 as [|? a2 ? l2 Ha2 Hf2]; subst. inversion Hf2 as [|? a3 ? l3 Ha3 Hf3]; subst.
  inversion Hf3 as [|? a4 ? l4 Ha4 Hf4]; subst. inversion Hf4; subst. cbn in Ha1, Ha2, Ha3, Ha4.
  destruct Ha1 as (rb & lb & -> & Hb1 & Hb2). destruct Ha2 as (rp & lp & -> & Hp1 & Hp2). destruct Ha3 as (t & -> & Ht). destruct Ha4 as (b & -> & Hb).
  exists (mk_results rb rp t b), lb, lp. unfold do_analysis. rewrite Ea. cbn [bind r_blocking r_splitting r_top_tier r_intersection].
  assert (Ht1 : ascending_table rb) by (apply (describe_analysis E s _ _ rb Ea); left; auto).
  assert (Ht2 : ascending_table rp) by (apply (describe_analysis E s _ _ rp Ea); right; left; auto).
  repeat (split; auto).
Qed.

Lemma standard_results : sane_clusters s -> splittable_clusters s -> exists r lb lp, do_analysis E s = Ok r /\
  vr_unwrap (r_blocking r) = Ok lb /\ lists_by_key f (reported_blocking f) s lb /\
  vr_unwrap (r_splitting r) = Ok lp /\ lists_by_key f (reported_splitting f) s lp /\
  (forall pk, (exists y, mem y (r_top_tier r) = true /\ has_key s y pk) <-> (exists x, in_top_tier f x /\ has_key f x pk)) /\
  (r_intersection r = true <-> quorum_intersection f).
Proof.
  intros H1 H2. destruct (done H1 H2) as (r & lb & lp & Hr & Hb1 & [_ Hb2] & Hp1 & [_ Hp2] & Ht & Hi & _). exists r, lb, lp. split; auto. split; auto.
  assert (Hq := standard_has_quorum). split; [|split; auto; split; [|split]].
  - split.
    + intros B [HqB HB]. destruct (proj1 standard_blocking B HB) as (B' & HB' & Hk & _). exists B'. split; auto. apply Hb2. split; auto. apply Hq; auto.
    + intros B' HB'. apply Hb2 in HB'. destruct HB' as [HqB HB']. destruct (proj2 standard_blocking B' HB') as (B & HB & Hk & _).
      exists B. split; auto. split; auto. apply Hq; auto.
  - split.
    + intros S [[HqS HS]|[HqS HS]].
      * destruct (proj1 standard_splitting S HS) as (S' & HS' & Hk & _). exists S'. split; auto. apply Hp2. left. split; auto. apply Hq; auto.
      * exists bempty. split; [|apply empty_keys; auto; apply mem_empty]. apply Hp2. right. split; [rewrite <- Hq; auto|apply mem_empty].
    + intros S' HS'. apply Hp2 in HS'. destruct HS' as [[HqS HS']|[HqS HS']].
      * destruct (proj2 standard_splitting S' HS') as (S & HS & Hk & _). exists S. split; auto. left. split; auto. apply Hq; auto.
      * exists bempty. split; [|apply empty_keys; auto; apply mem_empty]. right. split; [rewrite Hq; auto|apply mem_empty].
  - intro pk. rewrite (standard_top_tier pk). split; intros (y & Hy & Hk); exists y; (split; [apply Ht; auto|auto]).
  - rewrite Hi, standard_intersection. tauto.
Qed.

(** ** post-analysis *)
Lemma least_minimal (P : bset -> Prop) l n : (forall S, P S \/ ~ P S) -> (forall S, In S l <-> minimal P S) -> least_of (map len l) n ->
  (exists S, P S) -> least_size P n.
Proof.
  intros Hdec Hl Hn (S0 & HS0).
  assert (Hb : forall S, P S -> exists M, In M l /\ len M <= len S).
  { intros S HS. destruct (minimal_below P Hdec S HS) as (M & Hi & HM). exists M. split; [apply Hl; auto|apply len_subset; auto]. }
  destruct (Hb S0 HS0) as (M0 & HM0 & _). destruct Hn as [[E0 _]|[Hin Hmin]]; [destruct l; [contradiction|discriminate]|]. split.
  - apply in_map_iff in Hin. destruct Hin as (M & HM & HMl). exists M. split; auto. apply Hl in HMl. apply HMl.
  - intros S HS. destruct (Hb S HS) as (M & HM & Hle). specialize (Hmin (len M) (in_map len _ _ HM)). lia.
Qed.
Lemma least_by_keys (P P' : bset -> Prop) n : (forall S, P S \/ ~ P S) -> (forall S, P' S \/ ~ P' S) ->
  (forall S, P S -> P' (to_keys f s S)) -> (forall S, P' S -> P (to_keys s f S)) -> least_size P' n -> least_size P n.
Proof.
  intros D1 D2 H1 H2 [(S' & HS' & Hl) Hmin]. destruct (by_keys P P' H1 H2) as [F1 F2]. split.
  - destruct (minimal_below P' D2 S' HS') as (M' & Hi & HM'). destruct (F2 M' HM') as (M & HM & _ & Hlen). exists M. split; [apply HM|].
    assert (len M' <= len S') by (apply len_subset; auto). specialize (Hmin M' (proj1 HM')). lia.
  - intros S HS. destruct (minimal_below P D1 S HS) as (M & Hi & HM). destruct (F1 M HM) as (M' & HM' & _ & Hlen).
    assert (len M <= len S) by (apply len_subset; auto). specialize (Hmin M' (proj1 HM')). lia.
Qed.
Lemma without_table r F r' : vr_without_nodes r F = Ok r' -> vr_unshrink_table r' = None.
Proof.
  unfold vr_without_nodes, vr_unshrink. destruct (vr_unshrink_table r) as [t|].
  - destruct (unshrink_sets_with t (node_sets r)); cbn; [|discriminate]. intro H. injection H as <-. auto.
  - cbn. intro H. injection H as <-. auto.
Qed.
Lemma to_keys_union h h' A B : to_keys h h' (union A B) = union (to_keys h h' A) (to_keys h h' B).
Proof.
  apply bset_ext. intro y. apply eq_true_iff_eq. rewrite mem_union, orb_true_iff, !mem_to_keys. split.
  - intros (x & pk & Hx & H). rewrite mem_union, orb_true_iff in Hx. destruct Hx as [Hx|Hx]; [left|right]; exists x, pk; auto.
  - intros [(x & pk & Hx & H)|(x & pk & Hx & H)]; exists x, pk; (split; [rewrite mem_union, Hx, ?orb_true_r; auto|auto]).
Qed.

(** [F] are nodes of [f], [F'] the nodes of the standard form with the same keys *)
Section Without.
Variables F F' : bset.
Hypothesis HF1 : forall y, mem y F' = true -> forall pk, has_key s y pk -> exists x, mem x F = true /\ has_key f x pk.
Hypothesis HF2 : forall x, mem x F = true -> forall y pk, has_key f x pk -> has_key s y pk -> mem y F' = true.
Lemma blocking_without_fs X : blocking f (union X F) -> blocking s (union (to_keys f s X) F').
Proof.
  intro H. apply blocking_fs in H. rewrite to_keys_union in H. revert H. apply blocking_mono. intros y. rewrite !mem_union, !orb_true_iff. intros [H|H]; auto.
  right. apply mem_to_keys in H. destruct H as (x & pk & Hx & Hkx & Hky). eauto.
Qed.
Lemma blocking_without_sf X : blocking s (union X F') -> blocking f (union (to_keys s f X) F).
Proof.
  intro H. apply blocking_sf in H. rewrite to_keys_union in H. revert H. apply blocking_mono. intros x. rewrite !mem_union, !orb_true_iff. intros [H|H]; auto.
  right. apply mem_to_keys in H. destruct H as (y & pk & Hy & Hky & Hkx). destruct (HF1 y Hy pk Hky) as (z & Hz & Hkz). rewrite (key_unique f x z pk Hd Hkx Hkz). auto.
Qed.
Lemma splitting_without_fs X : splitting f (union X F) -> splitting s (union (to_keys f s X) F').
Proof.
  intro H. apply splitting_fs in H. rewrite to_keys_union in H. revert H. apply splitting_mono. intros y. rewrite !mem_union, !orb_true_iff. intros [H|H]; auto.
  right. apply mem_to_keys in H. destruct H as (x & pk & Hx & Hkx & Hky). eauto.
Qed.
Lemma splitting_without_sf X : splitting s (union X F') -> splitting f (union (to_keys s f X) F).
Proof.
  intro H. apply splitting_sf in H. rewrite to_keys_union in H. revert H. apply splitting_mono. intros x. rewrite !mem_union, !orb_true_iff. intros [H|H]; auto.
  right. apply mem_to_keys in H. destruct H as (y & pk & Hy & Hky & Hkx). destruct (HF1 y Hy pk Hky) as (z & Hz & Hkz). rewrite (key_unique f x z pk Hd Hkx Hkz). auto.
Qed.
End Without.

Lemma least_zero (P : bset -> Prop) : (forall S, P S) -> least_size P 0.
Proof. intro H. split; [exists bempty; split; auto; apply len_zero; auto|]. intros; lia. Qed.
Lemma no_quorum_blocked h B : ~ has_a_quorum h -> blocking h B.
Proof. intros H Q HQ. exfalso. apply H. exists Q; auto. Qed.
Lemma vr_min_least r l : ascending_table r -> vr_unwrap r = Ok l -> least_of (map len l) (vr_min r).
Proof. intros Ht Hu. destruct (unwrap_sizes r l Ht Hu) as [Hsz _]. unfold vr_min. rewrite Hsz. apply min_or_0_spec. Qed.

Lemma failures_counted names : sane_clusters s -> splittable_clusters s -> exists r n, do_analysis E s = Ok r /\
  more_failures (r_blocking r) names s = Ok n /\
  forall F, nodes_with_keys f names F -> least_size (fun X => blocking f (union X F)) n.
Proof.
  intros H1 H2. destruct (done H1 H2) as (r & lb & lp & Hr & Hb1 & [_ Hb2] & _). exists r.
  unfold more_failures, vr_without_nodes_pretty, ids_of_names. set (ids := from_public_keys names s).
  assert (Hids : forall y, In y ids <-> exists pk, In pk names /\ has_key s y pk).
  { intro y. unfold ids, from_public_keys. rewrite P_Shrink.filter_map_in. split; intros (pk & Hpk & Hk); exists pk; (split; [auto|apply (proj1 (proj2 s_facts)); auto]). }
  destruct (proj2 (accessors (r_blocking r) lb Hb1) ids) as (r' & Er' & Eu').
  assert (Ht' := without_table _ _ _ Er').
  exists (vr_min (vr_minimal_sets r')). rewrite Er'. cbn [res_map]. split; auto. split; auto.
  intros F HF.
  assert (HF1 : forall y, mem y (of_list ids) = true -> forall pk, has_key s y pk -> exists x, mem x F = true /\ has_key f x pk).
  { intros y Hy pk Hk. rewrite mem_of_list in Hy. apply Hids in Hy. destruct Hy as (pk' & Hpk & Hk'). assert (pk = pk') by (unfold has_key in *; congruence). subst pk'.
    destruct (proj1 (proj1 (proj2 (standard_keys_thm E f s HE Hwf Hd Hs)) pk)) as (x & _ & Hx).
    { unfold has_key in Hk. destruct (nth_error (nodes s) y) as [n|] eqn:En; [|discriminate]. injection Hk as <-. apply in_map. eapply nth_error_In; eauto. }
    exists x. split; auto. apply HF. eauto. }
  assert (HF2 : forall x, mem x F = true -> forall y pk, has_key f x pk -> has_key s y pk -> mem y (of_list ids) = true).
  { intros x Hx y pk Hk Hky. rewrite mem_of_list. apply Hids. apply HF in Hx. destruct Hx as (pk' & Hpk & Hk').
    assert (pk = pk') by (unfold has_key in *; congruence). subst pk'. eauto. }
  destruct (quorum_decidable s) as [Hq|Hq].
  - assert (Hm : forall B, In B lb <-> minimal (blocking s) B) by (intro B; rewrite Hb2; unfold reported_blocking, minimal_blocking; tauto).
    destruct (without_nodes_result (blocking s) (r_blocking r) lb ids (blocking_mono s) (blocking_dec s) Hm Hb1) as (r2 & l2 & E1 & E2 & [_ E3] & _).
    rewrite Er' in E1. injection E1 as <-.
    assert (Hmin : least_of (map len l2) (vr_min (vr_minimal_sets r'))).
    { apply vr_min_least; auto. unfold ascending_table, vr_minimal_sets. cbn. rewrite Ht'. auto. }
    apply (least_by_keys _ (fun X => blocking s (union X (of_list ids)))).
    + intro X. apply blocking_dec.
    + intro X. apply blocking_dec.
    + intros X HX. apply (blocking_without_fs F (of_list ids) HF2). auto.
    + intros X HX. apply (blocking_without_sf F (of_list ids) HF1). auto.
    + apply (least_minimal _ l2); auto; [intro X; apply blocking_dec|]. exists (all_nodes s). apply (blocking_mono s (all_nodes s)); [|apply blocking_all].
      intros x Hx. rewrite mem_union, Hx. auto.
  - assert (Hnil : lb = []) by (destruct lb as [|b lb]; auto; exfalso; apply Hq; apply (proj1 (Hb2 b)); left; auto).
    subst lb. cbn in Eu'. unfold vr_unwrap, vr_unshrink in Eu'. rewrite Ht' in Eu'. cbn in Eu'. injection Eu' as Eu'.
    unfold vr_min, vr_minimal_sets. cbn. rewrite Eu'. cbn. apply least_zero. intro X. apply no_quorum_blocked. rewrite standard_has_quorum. auto.
Qed.

Lemma evil_counted evil : sane_clusters s -> splittable_clusters s -> exists r o, do_analysis E s = Ok r /\
  more_evil_nodes (r_splitting r) evil = Ok o /\
  forall F, (forall x, mem x F = true <-> exists y pk, In y evil /\ has_key s y pk /\ has_key f x pk) ->
  (o = None <-> ~ has_a_quorum f \/ splitting f F) /\
  (forall n, o = Some n -> (exists S, splitting f S) -> least_size (fun X => splitting f (union X F)) n).
Proof.
  intros H1 H2. destruct (done H1 H2) as (r & lb & lp & Hr & _ & _ & Hp1 & [_ Hp2] & _). exists r.
  unfold more_evil_nodes. destruct (proj2 (accessors (r_splitting r) lp Hp1) evil) as (r' & Er' & Eu').
  assert (Ht' := without_table _ _ _ Er'). rewrite Er'. cbn [res_map]. eexists. split; auto. split; [reflexivity|]. intros F HF.
  assert (HF1 : forall y, mem y (of_list evil) = true -> forall pk, has_key s y pk -> exists x, mem x F = true /\ has_key f x pk).
  { intros y Hy pk Hk. rewrite mem_of_list in Hy.
    destruct (proj1 (proj1 (proj2 (standard_keys_thm E f s HE Hwf Hd Hs)) pk)) as (x & _ & Hx).
    { unfold has_key in Hk. destruct (nth_error (nodes s) y) as [n|] eqn:En; [|discriminate]. injection Hk as <-. apply in_map. eapply nth_error_In; eauto. }
    exists x. split; auto. apply HF. eauto. }
  assert (HF2 : forall x, mem x F = true -> forall y pk, has_key f x pk -> has_key s y pk -> mem y (of_list evil) = true).
  { intros x Hx y pk Hk Hky. rewrite mem_of_list. apply HF in Hx. destruct Hx as (z & pk' & Hz & Hkz & Hk').
    assert (pk = pk') by (unfold has_key in *; congruence). subst pk'. rewrite (key_unique s y z pk Hds Hky Hkz). auto. }
  assert (Hempty : forall l : list bset, existsb (fun s0 => beq s0 bempty) l = true <-> In bempty l).
  { intro l. rewrite existsb_exists. split; [intros (x & Hx & Hb); apply beq_eq in Hb; subst; auto|]. intro H. exists bempty. split; [auto|]. now apply beq_eq. }
  destruct (quorum_decidable s) as [Hq|Hq].
  - assert (Hm : forall B, In B lp <-> minimal (splitting s) B) by (intro B; rewrite Hp2; unfold reported_splitting, minimal_splitting; tauto).
    destruct (without_nodes_result (splitting s) (r_splitting r) lp evil (splitting_mono s) (fun S => splitting_dec s S Hwfs) Hm Hp1) as (r2 & l2 & E1 & E2 & [_ E3] & _).
    rewrite Er' in E1. injection E1 as <-.
    assert (Hn2 : node_sets (vr_minimal_sets r') = l2).
    { unfold vr_unwrap, vr_unshrink, vr_minimal_sets in E2. cbn in E2. rewrite Ht' in E2. cbn in E2. injection E2 as <-. auto. }
    assert (HinF : In bempty l2 <-> splitting f F).
    { rewrite E3. split.
      - intros [H _]. apply (splitting_without_sf F (of_list evil) HF1) in H. revert H. apply splitting_mono. intros x. rewrite mem_union, orb_true_iff. intros [H|H]; auto.
        apply mem_to_keys in H. destruct H as (y & pk & Hy & _). rewrite mem_empty in Hy. discriminate.
      - intro H. split.
        + assert (H' : splitting f (union bempty F)) by (revert H; apply splitting_mono; intros x Hx; rewrite mem_union, Hx; apply orb_true_r).
          apply (splitting_without_fs F (of_list evil) HF2) in H'. revert H'. apply splitting_mono. intros y. rewrite !mem_union, !orb_true_iff. intros [Hy|Hy]; auto.
          apply mem_to_keys in Hy. destruct Hy as (x & pk & Hx & _). rewrite mem_empty in Hx. discriminate.
        + intros S' _ Hi. apply bset_ext. intro x. rewrite mem_empty. destruct (mem x S') eqn:Ex; auto. apply Hi in Ex. rewrite mem_empty in Ex. discriminate. }
    unfold vr_contains_empty_set. rewrite Hn2. split.
    + destruct (existsb (fun s0 => beq s0 bempty) l2) eqn:Ee.
      * split; auto. intros _. right. apply HinF, Hempty. auto.
      * split; [discriminate|]. intros [H|H]; [exfalso; apply H, standard_has_quorum; auto|]. apply HinF, Hempty in H. congruence.
    + intros n Hn (S0 & HS0). destruct (existsb (fun s0 => beq s0 bempty) l2); [discriminate|]. injection Hn as <-.
      assert (Hmin : least_of (map len l2) (vr_min (vr_minimal_sets r'))).
      { apply vr_min_least; auto. unfold ascending_table, vr_minimal_sets. cbn. rewrite Ht'. auto. }
      apply (least_by_keys _ (fun X => splitting s (union X (of_list evil)))).
      * intro X. apply splitting_dec; auto.
      * intro X. apply splitting_dec; auto.
      * intros X HX. apply (splitting_without_fs F (of_list evil) HF2). auto.
      * intros X HX. apply (splitting_without_sf F (of_list evil) HF1). auto.
      * apply (least_minimal _ l2); auto; [intro X; apply splitting_dec; auto|]. exists (to_keys f s S0). apply splitting_fs in HS0. revert HS0.
        apply splitting_mono. intros x Hx. rewrite mem_union, Hx. auto.
  - assert (Hlp : forall x, In x (node_sets (vr_minimal_sets r')) <-> x = bempty).
    { assert (Hl : forall S, In S lp <-> S = bempty).
      { intro S. rewrite Hp2. unfold reported_splitting. split; [intros [[H _]|[_ H]]; [contradiction|]; apply bset_ext; intro x; rewrite mem_empty; auto|].
        intros ->. right. split; [auto|]. intro z. now rewrite mem_empty. }
      unfold vr_minimal_sets. cbn [node_sets]. assert (Hn : node_sets r' = map (fun s0 => diff s0 (of_list evil)) lp).
      { unfold vr_unwrap, vr_unshrink in Eu'. rewrite Ht' in Eu'. cbn in Eu'. injection Eu' as <-. auto. }
      destruct (remove_non_minimal_exact (node_sets r')) as [_ Hx]. intro x. rewrite Hx, Hn.
      assert (Hd0 : diff bempty (of_list evil) = bempty) by (apply bset_ext; intro z; rewrite mem_diff, mem_empty; auto).
      assert (Hmap : forall S, In S (map (fun s0 => diff s0 (of_list evil)) lp) <-> S = bempty).
      { intro S. rewrite in_map_iff. split; [intros (S1 & <- & HS1); apply Hl in HS1; subst S1; auto|]. intros ->. exists bempty. split; auto. apply Hl; auto. }
      split; [intros [H _]; apply Hmap; auto|]. intros ->. split; [apply Hmap; auto|]. intros S' HS' _. apply Hmap in HS'. auto. }
    unfold vr_contains_empty_set. rewrite (proj2 (Hempty (node_sets (vr_minimal_sets r'))) (proj2 (Hlp bempty) eq_refl)).
    split; [|discriminate]. split; auto. intros _. left. rewrite standard_has_quorum. auto.
Qed.
End Standard.
