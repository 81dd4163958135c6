(** Lemmas in the form of the theorems on [Analysis], and counterexamples. *)
From Verif Require Export P_NoPanic P_ThCore.
Local Open Scope list_scope.

Definition splitting_from (l : list bset) (S : bset) : bool :=
  existsb (fun a => existsb (fun b => negb (beq a b) && subset (inter a b) S) l) l.

Lemma splitting_from_iff f l S : (forall Q, In Q l <-> minimal_quorum f Q) -> (splitting_from l S = true <-> splitting f S).
Proof.
  intro Hl. unfold splitting_from. rewrite existsb_exists. split.
  - intros (a & Ha & H). apply existsb_exists in H. destruct H as (b & Hb & H). apply andb_true_iff in H. destruct H as [Hn Hs].
    exists a, b. split; [apply Hl; auto|split; [apply Hl; auto|split]].
    + intro Hab. subst. rewrite beq_refl in Hn. discriminate.
    + intros x Hx Hx'. apply incl_subset in Hs. apply Hs. rewrite mem_inter, Hx, Hx'. auto.
  - intros (a & b & Ha & Hb & Hn & Hi). exists a. split; [apply Hl; auto|]. apply existsb_exists. exists b. split; [apply Hl; auto|].
    apply andb_true_iff. split.
    + apply negb_true_iff. apply not_true_iff_false. intro H. apply Hn. apply beq_eq; auto.
    + apply incl_subset. intros x Hx. rewrite mem_inter, andb_true_iff in Hx. apply Hi; tauto.
Qed.

Lemma splitting_mono f a b : incl_set a b -> splitting f a -> splitting f b.
Proof. intros H (Q1 & Q2 & H1 & H2 & H3 & H4). exists Q1, Q2. repeat (split; auto). Qed.

Lemma mq_list f : wf_fbas f -> exists l, forall Q, In Q l <-> minimal_quorum f Q.
Proof. intro Hwf. destruct (find_minimal_quorums_spec std_ext std_ext_ok f Hwf) as (l & _ & H & _). eauto. Qed.

Lemma splitting_dec f S : wf_fbas f -> splitting f S \/ ~ splitting f S.
Proof.
  intro Hwf. destruct (mq_list f Hwf) as (l & Hl). rewrite <- (splitting_from_iff f l S Hl).
  destruct (splitting_from l S); [left|right]; congruence.
Qed.

Lemma minimal_mono (P : bset -> Prop) B : (forall a b, incl_set a b -> P a -> P b) ->
  (minimal P B <-> P B /\ forall x, mem x B = true -> ~ P (remove x B)).
Proof.
  intro Hm. split.
  - intros [H1 H2]. split; auto. intros x Hx Hb.
    assert (E : remove x B = B).
    { apply H2; auto. intros y Hy. rewrite mem_remove, andb_true_iff in Hy. tauto. }
    rewrite <- E, mem_remove, Nat.eqb_refl, andb_false_r in Hx. discriminate.
  - intros [H1 H2]. split; auto. intros B' HB' Hi. apply incl_antisym; auto. intros x Hx.
    destruct (mem x B') eqn:Ex; auto. exfalso. apply (H2 x Hx). apply (Hm B'); auto. apply incl_remove. auto.
Qed.

Definition minimal_splitting_from l S := splitting_from l S && forallb (fun x => negb (splitting_from l (remove x S))) (elements S).
Lemma minimal_splitting_from_iff f l S : (forall Q, In Q l <-> minimal_quorum f Q) ->
  (minimal_splitting_from l S = true <-> minimal_splitting f S).
Proof.
  intro Hl. unfold minimal_splitting_from, minimal_splitting.
  rewrite (minimal_mono (splitting f) S (splitting_mono f)), andb_true_iff, (splitting_from_iff f l S Hl), forallb_forall.
  split; intros [H1 H2]; split; auto.
  - intros x Hx. rewrite <- (splitting_from_iff f l _ Hl), not_true_iff_false, <- negb_true_iff. apply H2, elements_spec; auto.
  - intros x Hx. rewrite negb_true_iff, <- not_true_iff_false, (splitting_from_iff f l _ Hl). apply H2, elements_spec; auto.
Qed.

Lemma mq_of f l : wf_fbas f -> find_minimal_quorums std_ext f = Ok l -> forall Q, In Q l <-> minimal_quorum f Q.
Proof.
  intros Hwf El. destruct (find_minimal_quorums_spec std_ext std_ext_ok f Hwf) as (l' & El' & H & _). rewrite El in El'. inversion El'; subst. auto.
Qed.

(** ** without failed nodes *)
Lemma minimal_without (P : bset -> Prop) (F : bset) (l : list bset) :
  (forall a b, incl_set a b -> P a -> P b) -> (forall S, P S \/ ~ P S) -> (forall B, In B l <-> minimal P B) ->
  forall S, minimal (fun B => In B (map (fun s => diff s F) l)) S <-> minimal (fun B => P (union B F)) S.
Proof.
  intros Hm Hd Hl S.
  assert (H1 : forall B, In B (map (fun s => diff s F) l) -> P (union B F)).
  { intros B HB. apply in_map_iff in HB. destruct HB as (s & <- & Hs). apply Hl in Hs. apply (Hm s); [|apply Hs].
    intros x Hx. rewrite mem_union, mem_diff, Hx. destruct (mem x F); auto. }
  assert (H2 : forall B, P (union B F) -> exists B', In B' (map (fun s => diff s F) l) /\ incl_set B' B).
  { intros B HB. destruct (minimal_below P Hd _ HB) as (s & Hs & Hmin). apply Hl in Hmin. exists (diff s F).
    split; [apply (in_map (fun s => diff s F)); auto|]. intros x Hx. rewrite mem_diff, andb_true_iff, negb_true_iff in Hx.
    destruct Hx as [Hx HF]. apply Hs in Hx. rewrite mem_union, HF, orb_false_r in Hx. auto. }
  split.
  - intros [HS Hmin]. split; [apply H1; auto|]. intros S' HS' Hi. destruct (H2 S' HS') as (B & HB & HBi).
    assert (E : B = S) by (apply Hmin; auto; intros x Hx; auto). subst B. apply incl_antisym; auto.
  - intros [HS Hmin]. destruct (H2 S HS) as (B & HB & HBi). assert (E : B = S) by (apply Hmin; auto). subst B. split; auto.
Qed.

Lemma without_nodes_result (P : bset -> Prop) r l F :
  (forall a b, incl_set a b -> P a -> P b) -> (forall S, P S \/ ~ P S) -> (forall B, In B l <-> minimal P B) -> vr_unwrap r = Ok l ->
  exists r' l', vr_without_nodes r F = Ok r' /\ vr_unwrap (vr_minimal_sets r') = Ok l' /\
    lists (minimal (fun B => P (union B (of_list F)))) l' /\
    (vr_contains_empty_set r' = true <-> P (of_list F)).
Proof.
  intros Hm Hd Hl Hr. unfold vr_without_nodes. unfold vr_unwrap in Hr.
  assert (Hu : exists s, vr_unshrink r = Ok (mk_vec_result s None)).
  { unfold vr_unshrink in *. destruct (vr_unshrink_table r); simpl in *; [|eauto].
    destruct (unshrink_sets_with l0 (node_sets r)); simpl in *; [eauto|discriminate]. }
  destruct Hu as (s & Es). rewrite Es in *. simpl in *. assert (Esl : s = l) by (inversion Hr; auto). subst s.
  eexists. eexists. split; [reflexivity|]. split; [reflexivity|]. simpl.
  destruct (remove_non_minimal_exact (map (fun s => diff s (of_list F)) l)) as [Hs Hi]. split.
  - split; auto. intro S. rewrite Hi. apply minimal_without; auto.
  - unfold vr_contains_empty_set. simpl. rewrite existsb_exists. split.
    + intros (x & Hx & He). apply beq_eq in He. subst x. apply in_map_iff in Hx. destruct Hx as (b & Eb & Hb). apply Hl in Hb.
      apply (Hm b); [|apply Hb]. intros y Hy. destruct (mem y (of_list F)) eqn:EF; auto.
      assert (Hc : mem y bempty = true) by (rewrite <- Eb, mem_diff, Hy, EF; auto). rewrite mem_empty in Hc. discriminate.
    + intro HF. destruct (minimal_below P Hd _ HF) as (b & Hb & Hmin). apply Hl in Hmin. exists (diff b (of_list F)).
      split; [apply (in_map (fun s => diff s (of_list F))); auto|]. apply beq_eq. apply bset_ext. intro x. rewrite mem_empty, mem_diff.
      destruct (mem x b) eqn:Ex; auto. rewrite (Hb x Ex). auto.
Qed.

(** ** one more call after a history *)
Lemma last_answer E f cs c : ext_ok E -> wf_fbas f -> Forall (allowed f) cs -> allowed f c ->
  exists ans a, analyze E f (cs ++ [c]) = Ok (ans ++ [a]) /\ correct_answer E f c a.
Proof.
  intros HE Hwf Hcs Hc. destruct (analyze_ok E HE f Hwf (cs ++ [c])) as (l & El & Hl).
  - apply Forall_app. split; auto.
  - apply Forall2_app_inv_l in Hl. destruct Hl as (l1 & l2 & _ & H2 & ->). inversion H2 as [|? a ? ? Ha Hn]; subst. inversion Hn; subst.
    exists l1, a. auto.
Qed.

Lemma history_independent E f cs c : ext_ok E -> wf_fbas f -> Forall (allowed f) cs -> allowed f c ->
  (c = MinimalQuorums -> distinct_clusters f) -> c <> AlternativeCheck ->
  exists ans a fresh, analyze E f (cs ++ [c]) = Ok (ans ++ [a]) /\ analyze E f [c] = Ok [fresh] /\ same_answer a fresh.
Proof.
  intros HE Hwf Hcs Hc Hd Hn. destruct (last_answer E f cs c HE Hwf Hcs Hc) as (ans & a & Ea & Ha).
  destruct (analyze_ok E HE f Hwf [c]) as (l & El & Hl); [constructor; auto|].
  inversion Hl as [|? b ? ? Hb Hnil]; subst. inversion Hnil; subst. exists ans, a, b. split; auto. split; auto.
  apply (correct_same E f c a b); auto. destruct c; auto; right; discriminate.
Qed.

Lemma alternative_independent E f cs : ext_ok E -> wf_fbas f -> Forall (allowed f) cs -> has_a_quorum f ->
  exists ans a hqi ans' b o, analyze E f (cs ++ [AlternativeCheck]) = Ok (ans ++ [a]) /\
    analyze E f (cs ++ [HasQuorumIntersection]) = Ok (ans' ++ [ABool hqi]) /\ a = AAlternative b o /\ b = hqi.
Proof.
  intros HE Hwf Hcs Hq. destruct (last_answer E f cs AlternativeCheck HE Hwf Hcs Hq) as (ans & a & Ea & Ha).
  destruct (last_answer E f cs HasQuorumIntersection HE Hwf Hcs I) as (ans' & a' & Ea' & h & -> & Hh).
  destruct Ha as [(-> & HQ)|(r & l & -> & _ & HQ & _)].
  - exists ans, (AAlternative true None), h, ans', true, None. repeat (split; auto). symmetry. apply Hh. auto.
  - exists ans, (AAlternative false (Some r)), h, ans', false, (Some r). repeat (split; auto).
    symmetry. apply not_true_iff_false. rewrite Hh. auto.
Qed.

(** ** checking the conditions of concrete FBASs *)
Definition top_tier_of (f : fbas) : bset := match find_minimal_quorums std_ext f with Ok l => involved_nodes l | Panic => bempty end.
Lemma working_cases f K : wf_fbas f -> working_set f K -> K = relevant_nodes std_ext f \/ K = top_tier_of f.
Proof.
  intros Hwf [H|H]; [left|right]; apply bset_ext; intro x; apply eq_true_iff_eq; rewrite H.
  - symmetry. apply mem_relevant_iff; auto. apply std_ext_ok.
  - unfold top_tier_of. destruct (find_minimal_quorums_spec std_ext std_ext_ok f Hwf) as (l & El & Hl & _). rewrite El.
    rewrite mem_involved. unfold in_top_tier. split; intros (Q & H1 & H2); exists Q; split; auto; apply Hl; auto.
Qed.

Definition all_restricted (p : qset -> bool) (f : fbas) (K : bset) : bool := forallb (fun x => p (pruned K (qset_of f x))) (elements K).
Lemma clusters_check (P : qset -> Prop) (p : qset -> bool) f : (forall q, p q = true -> P q) -> wfb f = true ->
  all_restricted p f (relevant_nodes std_ext f) = true -> all_restricted p f (top_tier_of f) = true ->
  forall K q, working_set f K -> working_cluster f K q -> P q.
Proof.
  intros Hp Hwf H1 H2 K q HK Hq. apply wfb_ok in Hwf. apply Hp.
  assert (H : all_restricted p f K = true) by (destruct (working_cases f K Hwf HK) as [E0|E0]; rewrite E0; auto).
  unfold all_restricted in H. rewrite forallb_forall in H. destruct Hq as (_ & _ & (x & qx & Hx & Hn & ->) & _).
  replace qx with (qset_of f x); [apply H, elements_spec; auto|]. destruct Hn as (n & En & <-). unfold qset_of. rewrite En. auto.
Qed.

Fixpoint splittableb (q : qset) : bool :=
  let 'QS t vs is_ := q in
  let n := List.length vs + List.length is_ in
  (t <=? n) && (n <? 2 * t) && ((t <? n) || negb (match is_ with [] => true | _ => false end)) && forallb splittableb is_.
Fixpoint rigidb (q : qset) : bool :=
  let 'QS t vs is_ := q in (t =? List.length vs + List.length is_) && (1 <=? t) && forallb rigidb is_.
Lemma splittableb_ok q : splittableb q = true -> splittable q.
Proof.
  induction q as [t vs is_ IH] using qset_ind'. cbn [splittableb].
  rewrite !andb_true_iff, forallb_forall, orb_true_iff, Nat.leb_le, !Nat.ltb_lt, negb_true_iff. intros [[[H1 H2] H3] H4].
  constructor; auto. destruct H3 as [H3|H3]; auto. right. destruct is_; congruence.
Qed.
Lemma rigidb_ok q : rigidb q = true -> rigid q.
Proof.
  induction q as [t vs is_ IH] using qset_ind'. cbn [rigidb].
  rewrite !andb_true_iff, forallb_forall, Nat.eqb_eq, Nat.leb_le. intros [[H1 H2] H3]. constructor; auto.
Qed.
Definition noRepb (q : qset) : bool := negb (contains_duplicates q).
Lemma noRepb_ok q : noRepb q = true -> no_repetitions q.
Proof. intro H. apply negb_true_iff, contains_duplicates_false in H. apply no_repetitions_nodup. auto. Qed.

Definition distinctb f := wfb f && all_restricted noRepb f (relevant_nodes std_ext f) && all_restricted noRepb f (top_tier_of f).
Definition saneCb f := let p q := noRepb q && saneb q in wfb f && all_restricted p f (relevant_nodes std_ext f) && all_restricted p f (top_tier_of f).
Definition splitCb f := let p q := noRepb q && (splittableb q || rigidb q) in
  wfb f && all_restricted p f (relevant_nodes std_ext f) && all_restricted p f (top_tier_of f).
Lemma distinctb_ok f : distinctb f = true -> distinct_clusters f.
Proof.
  unfold distinctb. rewrite !andb_true_iff. intros [[H1 H2] H3].
  exact (clusters_check no_repetitions noRepb f noRepb_ok H1 H2 H3).
Qed.
Lemma saneCb_ok f : saneCb f = true -> sane_clusters f.
Proof.
  unfold saneCb. cbv zeta. rewrite !andb_true_iff. intros [[H1 H2] H3].
  refine (clusters_check (fun q => no_repetitions q /\ sane q) _ f _ H1 H2 H3).
  intros q H. apply andb_true_iff in H. split; [apply noRepb_ok|apply saneb_ok]; tauto.
Qed.
Lemma splitCb_ok f : splitCb f = true -> splittable_clusters f.
Proof.
  unfold splitCb. cbv zeta. rewrite !andb_true_iff. intros [[H1 H2] H3].
  refine (clusters_check (fun q => no_repetitions q /\ (splittable q \/ rigid q)) _ f _ H1 H2 H3).
  intros q H. apply andb_true_iff in H. destruct H as [Ha Hb]. split; [apply noRepb_ok; auto|].
  apply orb_true_iff in Hb. destruct Hb; [left; apply splittableb_ok|right; apply rigidb_ok]; auto.
Qed.

(** four nodes, 3 of 4, plus observers *)
Definition fourth := let q := QS 3 [0;1;2;3] [] in sample [q;q;q;q; QS 2 [0;4] []].
(** organizations of three nodes each; 2 of 3 organizations, 2 of 3 nodes *)
Definition org3 a := QS 2 [a; a+1; a+2] [].
Definition orgs3 := QS 2 [] [org3 0; org3 3; org3 6].
Definition nested3 := sample (repeat orgs3 9).

(** ** counterexamples *)
(** a nine node network in which every node of an organization failed (here: has an unknown, that
    is empty quorum set) *)
Definition crashed_q := QS 3 [0;1;2;3] [QS 1 [4] []].
Definition crashed := sample [crashed_q; crashed_q; crashed_q; crashed_q; QS 1 [] []].
Definition vec_of (r : res (list answer)) : list (list (list nat)) :=
  match r with
  | Ok l => map (fun a => match a with AVec r => match vr_unwrap r with Ok l => map elements l | Panic => [] end | _ => [] end) l
  | Panic => [] end.

Lemma crashed_wf : wf_fbas crashed. Proof. apply wfb_ok. vm_compute. reflexivity. Qed.

Definition pairs_of l := map of_list l.
Lemma crashed_blocking : exists f B r, wf_fbas f /\ minimal_blocking f B /\
  (forall x q, node_of f x q -> no_repetitions q) /\
  analyze std_ext f [MinimalBlockingSets] = Ok [AVec r] /\
  exists l, vr_unwrap r = Ok l /\ ~ In B l /\ exists B', In B' l /\ ~ minimal_blocking f B'.
Proof.
  exists crashed, (of_list [0;1]). eexists. split; [exact crashed_wf|]. split; [apply minimal_blockingb_iff; vm_compute; reflexivity|].
  split.
  { intros x q (n & Hn & <-). apply noRepb_ok. apply nth_error_In in Hn.
    assert (H : forallb (fun n => noRepb (node_qset n)) (nodes crashed) = true) by (vm_compute; reflexivity).
    rewrite forallb_forall in H. auto. }
  split; [vm_compute; reflexivity|].
  eexists. split; [vm_compute; reflexivity|]. split; [apply not_in_eqb; vm_compute; reflexivity|].
  exists (of_list [0;1;2]). split; [vm_compute; auto|]. rewrite <- minimal_blockingb_iff. vm_compute. discriminate.
Qed.

Lemma crashed_splitting : exists f S S' r, wf_fbas f /\ quorum_intersection f /\ minimal_splitting f S /\
  (forall x q, node_of f x q -> no_repetitions q) /\
  analyze std_ext f [MinimalSplittingSets] = Ok [AVec r] /\
  exists l, vr_unwrap r = Ok l /\ ~ In S l /\ In S' l /\ ~ splitting f S'.
Proof.
  exists crashed, (of_list [0;1]), (of_list [0]). eexists. split; [exact crashed_wf|].
  destruct (find_minimal_quorums std_ext crashed) as [mq|] eqn:Emq; [|vm_compute in Emq; discriminate].
  assert (Hmq := mq_of crashed mq crashed_wf Emq).
  split.
  { assert (Ha := last_answer std_ext crashed [] HasQuorumIntersection std_ext_ok crashed_wf (Forall_nil _) I).
    destruct Ha as (ans & a & Ea & b & -> & Hb). apply Hb.
    assert (Ev : analyze std_ext crashed [HasQuorumIntersection] = Ok [ABool true]) by (vm_compute; reflexivity).
    simpl app in Ea. rewrite Ev in Ea. destruct ans as [|a0 [|a1 ans]]; inversion Ea; auto. }
  split; [apply (minimal_splitting_from_iff crashed mq _ Hmq); vm_compute in Emq; inversion Emq; vm_compute; reflexivity|].
  split.
  { intros x q (n & Hn & <-). apply noRepb_ok. apply nth_error_In in Hn.
    assert (H : forallb (fun n => noRepb (node_qset n)) (nodes crashed) = true) by (vm_compute; reflexivity).
    rewrite forallb_forall in H. auto. }
  split; [vm_compute; reflexivity|].
  eexists. split; [vm_compute; reflexivity|]. split; [apply not_in_eqb; vm_compute; reflexivity|].
  split; [vm_compute; auto|]. rewrite <- (splitting_from_iff crashed mq _ Hmq). vm_compute in Emq. inversion Emq. vm_compute. discriminate.
Qed.

(** an inner quorum set without (known) validators *)
Definition hollow := sample [QS 1 [0] [QS 1 [] []]].
Lemma hollow_wf : wf_fbas hollow. Proof. apply wfb_ok. vm_compute. reflexivity. Qed.
Lemma history_matters : exists f r r', wf_fbas f /\ (forall x q, node_of f x q -> no_repetitions q) /\ quorum_intersection f /\
  analyze std_ext f [HasQuorumIntersection] = Ok [ABool true] /\
  analyze std_ext f [MinimalBlockingSets; HasQuorumIntersection] = Ok [AVec r; ABool false] /\
  analyze std_ext f [TopTier] = Ok [ASet (of_list [0])] /\
  analyze std_ext f [MinimalBlockingSets; TopTier] = Ok [AVec r'; ASet bempty].
Proof.
  exists hollow. eexists. eexists. split; [exact hollow_wf|]. split.
  { intros x q (n & Hn & <-). apply noRepb_ok. apply nth_error_In in Hn.
    assert (H : forallb (fun n => noRepb (node_qset n)) (nodes hollow) = true) by (vm_compute; reflexivity).
    rewrite forallb_forall in H. auto. }
  split.
  { destruct (last_answer std_ext hollow [] HasQuorumIntersection std_ext_ok hollow_wf (Forall_nil _) I) as (ans & a & Ea & b & -> & Hb).
    apply Hb. assert (Ev : analyze std_ext hollow [HasQuorumIntersection] = Ok [ABool true]) by (vm_compute; reflexivity).
    simpl app in Ea. rewrite Ev in Ea. destruct ans as [|a0 [|a1 ans]]; inversion Ea; auto. }
  split; [vm_compute; reflexivity|]. split; [vm_compute; reflexivity|]. split; vm_compute; reflexivity.
Qed.

Definition five := sample [QS 1 [0;1] []; QS 2 [0;1;2] []; QS 1 [3] []; QS 1 [2] []].
Lemma five_wf : wf_fbas five. Proof. apply wfb_ok. vm_compute. reflexivity. Qed.
Lemma alternative_payload : exists f r r' mq l l', wf_fbas f /\
  analyze std_ext f [AlternativeCheck] = Ok [AAlternative false (Some r)] /\
  analyze std_ext f [MinimalQuorums; AlternativeCheck] = Ok [mq; AAlternative false (Some r')] /\
  vr_unwrap r = Ok l /\ vr_unwrap r' = Ok l' /\ l <> l'.
Proof.
  exists five. eexists. eexists. eexists. exists [of_list [0;1]; of_list [2;3]], [of_list [0]; of_list [2;3]]. split; [exact five_wf|].
  split; [vm_compute; reflexivity|]. split; [vm_compute; reflexivity|]. split; [vm_compute; reflexivity|]. split; [vm_compute; reflexivity|].
  vm_compute. discriminate.
Qed.

Definition silent := sample [QS 2 [0] []].
Lemma alternative_panics : exists f, wf_fbas f /\ analyze std_ext f [AlternativeCheck] = Panic /\
  analyze std_ext f [HasQuorumIntersection] = Ok [ABool false].
Proof. exists silent. split; [apply wfb_ok; vm_compute; reflexivity|]. split; vm_compute; reflexivity. Qed.

(** 2 of 3 organizations that each need both of their nodes *)
Definition strict_q := QS 2 [] [QS 2 [0;1] []; QS 2 [2;3] []; QS 2 [4;5] []].
Definition strict := sample (repeat strict_q 6).
Lemma strict_splitting : exists f MQ S, wf_fbas f /\ quorum_intersection f /\ (forall x q, node_of f x q -> no_repetitions q /\ sane q) /\
  find_minimal_quorums std_ext f = Ok MQ /\ minimal_splitting f S /\ find_minimal_splitting_sets std_ext f MQ = Ok [].
Proof.
  assert (Hwf : wf_fbas strict) by (apply wfb_ok; vm_compute; reflexivity).
  destruct (find_minimal_quorums std_ext strict) as [mq|] eqn:Emq; [|vm_compute in Emq; discriminate].
  exists strict, mq, (of_list [0;1]). split; auto.
  assert (Hmq := mq_of strict mq Hwf Emq).
  split.
  { destruct (last_answer std_ext strict [] HasQuorumIntersection std_ext_ok Hwf (Forall_nil _) I) as (ans & a & Ea & b & -> & Hb).
    apply Hb. assert (Ev : analyze std_ext strict [HasQuorumIntersection] = Ok [ABool true]) by (vm_compute; reflexivity).
    simpl app in Ea. rewrite Ev in Ea. destruct ans as [|a0 [|a1 ans]]; inversion Ea; auto. }
  split; [apply goodb_ok; vm_compute; reflexivity|]. split; auto.
  split; [apply (minimal_splitting_from_iff strict mq _ Hmq)|]; vm_compute in Emq; inversion Emq; vm_compute; reflexivity.
Qed.

Lemma no_quorum_splitting : exists f r, wf_fbas f /\ (forall S, ~ minimal_splitting f S) /\
  analyze std_ext f [MinimalSplittingSets] = Ok [AVec r] /\ vr_unwrap r = Ok [bempty].
Proof.
  exists silent. eexists. split; [apply wfb_ok; vm_compute; reflexivity|]. split.
  - intros S [(Q1 & Q2 & H & _) _].
    assert (Hwf : wf_fbas silent) by (apply wfb_ok; vm_compute; reflexivity).
    assert (El : find_minimal_quorums std_ext silent = Ok []) by (vm_compute; reflexivity).
    apply (mq_of silent [] Hwf El) in H. destruct H.
  - split; vm_compute; reflexivity.
Qed.

(** [involved_nodes] of a result reports shrunken ids *)
Definition late := sample [QS 2 [0] []; QS 1 [1] []].
Lemma involved_shrunken : exists f r l, wf_fbas f /\ analyze std_ext f [MinimalQuorums] = Ok [AVec r] /\ vr_unwrap r = Ok l /\
  vr_involved_nodes r <> involved_nodes l.
Proof.
  exists late. eexists. exists [of_list [1]]. split; [apply wfb_ok; vm_compute; reflexivity|]. split; [vm_compute; reflexivity|].
  split; [vm_compute; reflexivity|]. vm_compute. discriminate.
Qed.

Lemma accessors r l : vr_unwrap r = Ok l ->
  vr_into_vec_vec r = Ok (map elements l) /\
  forall F, exists r', vr_without_nodes r F = Ok r' /\ vr_unwrap r' = Ok (map (fun s => diff s (of_list F)) l).
Proof.
  unfold vr_unwrap, vr_into_vec_vec, vr_without_nodes. intro H.
  assert (Hu : exists s, vr_unshrink r = Ok (mk_vec_result s None)).
  { unfold vr_unshrink in *. destruct (vr_unshrink_table r); simpl in *; [|eauto].
    destruct (unshrink_sets_with l0 (node_sets r)); simpl in *; [eauto|discriminate]. }
  destruct Hu as (s & Es). rewrite Es in *. simpl in *. inversion H; subst. split; auto. intro F. eexists. split; reflexivity.
Qed.

(** shrink managers *)
Lemma shrink_unshrink K s : incl_set s K -> exists s', shrink_set (sm_new K) s = Ok s' /\ unshrink_set (sm_new K) s' = Ok s /\ len s' = len s.
Proof.
  intro H. exists (down (elements K) s). split; [apply shrink_set_ok; auto|]. unfold unshrink_set. simpl unshrink_table.
  rewrite unshrink_set_ok by apply (down_in_range K). rewrite (up_down_K K s H). split; auto.
  rewrite <- (up_down_K K s H) at 2. rewrite len_up; auto; [apply elements_sorted|apply (down_in_range K)].
Qed.
Lemma in_range_len K s' : in_range (elements K) s' <-> forall i, mem i s' = true -> i < len K.
Proof. unfold in_range. rewrite len_elements. tauto. Qed.
Lemma unshrink_shrink K s' : (forall i, mem i s' = true -> i < len K) ->
  exists s, unshrink_set (sm_new K) s' = Ok s /\ incl_set s K /\ shrink_set (sm_new K) s = Ok s' /\
    forall x, mem x s = true <-> exists i, mem i s' = true /\ nth_error (elements K) i = Some x.
Proof.
  intro H. apply in_range_len in H. exists (up (elements K) s'). unfold unshrink_set. simpl unshrink_table.
  split; [apply unshrink_set_ok; auto|]. split; [apply (up_in_K K)|]. split.
  - rewrite shrink_set_ok by apply (up_in_K K). f_equal. apply down_up; auto. apply elements_nodup.
  - intro x. apply mem_up.
Qed.
Lemma unshrink_panic K s' : unshrink_set (sm_new K) s' = Panic <-> ~ forall i, mem i s' = true -> i < len K.
Proof. unfold unshrink_set. simpl unshrink_table. rewrite unshrink_set_panic, in_range_len. tauto. Qed.

Lemma unshrink_order K a b ua ub : unshrink_set (sm_new K) a = Ok ua -> unshrink_set (sm_new K) b = Ok ub ->
  (incl_set a b <-> incl_set ua ub) /\ (before a b <-> before ua ub) /\ len a = len ua.
Proof.
  unfold unshrink_set. simpl unshrink_table. intros Ha Hb.
  assert (Ra : in_range (elements K) a).
  { destruct (unshrink_set_panic (elements K) a) as [_ H]. intros i Hi. destruct (le_lt_dec (List.length (elements K)) i); auto. exfalso.
    rewrite H in Ha; [discriminate|]. intro Hr. specialize (Hr i Hi). lia. }
  assert (Rb : in_range (elements K) b).
  { destruct (unshrink_set_panic (elements K) b) as [_ H]. intros i Hi. destruct (le_lt_dec (List.length (elements K)) i); auto. exfalso.
    rewrite H in Hb; [discriminate|]. intro Hr. specialize (Hr i Hi). lia. }
  rewrite unshrink_set_ok in Ha, Hb by auto. inversion Ha; inversion Hb; subst.
  split; [|split].
  - split; [apply up_incl|]. intro H. rewrite <- (down_up (elements K) a), <- (down_up (elements K) b); auto using elements_nodup. apply down_incl; auto.
  - symmetry. apply before_up; auto. apply elements_sorted.
  - symmetry. apply len_up; auto. apply elements_sorted.
Qed.

Lemma shrunken_quorums f K : exists g, shrunken f K = Ok (g, sm_new K) /\ number_of_nodes g = len K /\ wf_fbas g /\
  forall S' S, unshrink_set (sm_new K) S' = Ok S -> (quorum g S' <-> quorum f S) /\ (minimal_quorum g S' <-> minimal_quorum f S).
Proof.
  exists (shrunken_fbas K f). split; [apply shrunken_eq|]. split; [apply shrunken_nodes|]. split; [apply shrunken_wf|].
  intros S' S H. unfold unshrink_set in H. simpl unshrink_table in H.
  assert (Ra : in_range (elements K) S').
  { destruct (unshrink_set_panic (elements K) S') as [_ Hp]. intros i Hi. destruct (le_lt_dec (List.length (elements K)) i); auto. exfalso.
    rewrite Hp in H; [discriminate|]. intro Hr. specialize (Hr i Hi). lia. }
  rewrite unshrink_set_ok in H by auto. inversion H; subst. split; [apply shrunken_quorum; auto|apply minimal_quorum_shrunken; auto].
Qed.

(** ** the answers, one by one *)
Section After.
Variable E : ext.
Variable f : fbas.
Variable cs : list call.
Hypothesis HE : ext_ok E.
Hypothesis Hwf : wf_fbas f.
Hypothesis Hcs : Forall (allowed f) cs.
Lemma hqi_after : exists ans b, analyze E f (cs ++ [HasQuorumIntersection]) = Ok (ans ++ [ABool b]) /\ (b = true <-> quorum_intersection f).
Proof. destruct (last_answer E f cs HasQuorumIntersection HE Hwf Hcs I) as (ans & a & Ea & b & -> & Hb). eauto. Qed.
Lemma alternative_after : has_a_quorum f ->
  exists ans a, analyze E f (cs ++ [AlternativeCheck]) = Ok (ans ++ [a]) /\
    ((a = AAlternative true None /\ quorum_intersection f) \/
     (exists r l, a = AAlternative false (Some r) /\ vr_unwrap r = Ok l /\ ~ quorum_intersection f /\
        2 <= List.length l /\ (forall Q, In Q l -> quorum f Q) /\ ForallOrdPairs (fun A B => ~ meets A B) l)).
Proof. intro Hq. exact (last_answer E f cs AlternativeCheck HE Hwf Hcs Hq). Qed.
Lemma mbs_after : sane_clusters f ->
  exists ans r l, analyze E f (cs ++ [MinimalBlockingSets]) = Ok (ans ++ [AVec r]) /\ vr_unwrap r = Ok l /\
    StronglySorted before l /\ forall B, In B l <-> has_a_quorum f /\ minimal_blocking f B.
Proof.
  intro Hs. destruct (last_answer E f cs MinimalBlockingSets HE Hwf Hcs Hs) as (ans & a & Ea & r & l & -> & Er & H1 & H2).
  exists ans, r, l. auto.
Qed.
Lemma mss_after : splittable_clusters f -> has_a_quorum f ->
  exists ans r l, analyze E f (cs ++ [MinimalSplittingSets]) = Ok (ans ++ [AVec r]) /\ vr_unwrap r = Ok l /\
    StronglySorted before l /\ forall S, In S l <-> minimal_splitting f S.
Proof.
  intros Hs Hq. destruct (last_answer E f cs MinimalSplittingSets HE Hwf Hcs Hs) as (ans & a & Ea & r & l & -> & Er & H1 & H2).
  exists ans, r, l. split; auto. split; auto. split; auto. intro S. rewrite H2. unfold reported_splitting. tauto.
Qed.
Lemma mq_after : exists ans r l, analyze E f (cs ++ [MinimalQuorums]) = Ok (ans ++ [AVec r]) /\ vr_unwrap r = Ok l /\
    forall Q, In Q l <-> minimal_quorum f Q.
Proof.
  destruct (last_answer E f cs MinimalQuorums HE Hwf Hcs I) as (ans & a & Ea & r & l & -> & Er & H1 & H2).
  exists ans, r, l. split; auto. split; auto. apply H1.
Qed.
Lemma top_tier_after : exists ans s, analyze E f (cs ++ [TopTier]) = Ok (ans ++ [ASet s]) /\
    forall x, mem x s = true <-> exists Q, minimal_quorum f Q /\ mem x Q = true.
Proof. destruct (last_answer E f cs TopTier HE Hwf Hcs I) as (ans & a & Ea & s & -> & Hs). eauto. Qed.
End After.

Lemma single_answer (x y : answer) ans r : r = Ok (ans ++ [x]) -> (exists z, r = Ok [z]) -> r = Ok [x].
Proof. intros -> (z & Hz). destruct ans as [|a [|b ans]]; inversion Hz; auto. Qed.

Lemma analyze_single E f c : ext_ok E -> wf_fbas f -> allowed f c -> exists z, analyze E f [c] = Ok [z].
Proof.
  intros HE Hwf Hc. destruct (analyze_ok E HE f Hwf [c]) as (l & El & Hl); [constructor; auto|].
  inversion Hl as [|? b ? ? Hb Hnil]; subst. inversion Hnil; subst. eauto.
Qed.

Lemma nonintersecting_panic E f : ext_ok E -> wf_fbas f -> ~ has_a_quorum f -> find_nonintersecting_quorums E f = Panic.
Proof. intros HE Hwf Hn. apply find_nonintersecting_quorums_panic; auto. intros Q HQ. apply Hn. exists Q. auto. Qed.

Lemma blocking_without E f F : ext_ok E -> wf_fbas f -> sane_clusters f -> has_a_quorum f ->
  exists r r' l, analyze E f [MinimalBlockingSets] = Ok [AVec r] /\ vr_without_nodes r F = Ok r' /\
    vr_unwrap (vr_minimal_sets r') = Ok l /\
    StronglySorted before l /\ (forall B, In B l <-> minimal (fun B => blocking f (union B (of_list F))) B) /\
    (vr_contains_empty_set r' = true <-> blocking f (of_list F)).
Proof.
  intros HE Hwf Hs Hq. destruct (mbs_after E f [] HE Hwf (Forall_nil _) Hs) as (ans & r & l & Ea & Er & _ & Hl).
  apply (single_answer (AVec r) (AVec r)) in Ea; [|apply analyze_single; auto].
  destruct (without_nodes_result (blocking f) r l F (blocking_mono f) (blocking_dec f)) as (r' & l' & E1 & E2 & [H1 H2] & H3); auto.
  { intro B. rewrite Hl. unfold minimal_blocking. tauto. }
  exists r, r', l'. repeat (split; auto).
Qed.
Lemma splitting_without E f F : ext_ok E -> wf_fbas f -> splittable_clusters f -> has_a_quorum f ->
  exists r r' l, analyze E f [MinimalSplittingSets] = Ok [AVec r] /\ vr_without_nodes r F = Ok r' /\
    vr_unwrap (vr_minimal_sets r') = Ok l /\
    StronglySorted before l /\ (forall S, In S l <-> minimal (fun S => splitting f (union S (of_list F))) S) /\
    (vr_contains_empty_set r' = true <-> splitting f (of_list F)).
Proof.
  intros HE Hwf Hs Hq. destruct (mss_after E f [] HE Hwf (Forall_nil _) Hs Hq) as (ans & r & l & Ea & Er & _ & Hl).
  apply (single_answer (AVec r) (AVec r)) in Ea; [|apply analyze_single; auto].
  destruct (without_nodes_result (splitting f) r l F (splitting_mono f) (fun S => splitting_dec f S Hwf)) as (r' & l' & E1 & E2 & [H1 H2] & H3); auto.
  exists r, r', l'. repeat (split; auto).
Qed.
