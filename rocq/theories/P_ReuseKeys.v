(** FBASs with the same minimal quorums, by public key, have the same results, by public key. *)
From Verif Require Import P_Transfer P_Analysis P_Results P_ThAnalysis.
From Verif Require Export P_Reuse.
Local Open Scope list_scope.

(** the nodes of [g] with the keys of [S] *)
Definition to_keys (f g : fbas) (S : bset) : bset :=
  of_list (filter (fun y => existsb (fun x => (x <? number_of_nodes f) && String.eqb (pk_of f x) (pk_of g y)) (elements S)) (seq 0 (number_of_nodes g))).
Lemma mem_to_keys f g S y : mem y (to_keys f g S) = true <-> exists x pk, mem x S = true /\ has_key f x pk /\ has_key g y pk.
Proof.
  unfold to_keys. rewrite mem_of_list, filter_In, in_seq, existsb_exists. split.
  - intros [Hy (x & Hx & H)]. apply andb_true_iff in H. destruct H as [Hl He]. apply Nat.ltb_lt in Hl. apply String.eqb_eq in He.
    exists x, (pk_of f x). rewrite !has_key_pk. split; [apply elements_spec; auto|]. split; [auto|]. split; [lia|auto].
  - intros (x & pk & Hx & Hf & Hg). apply has_key_pk in Hf, Hg. destruct Hf as [H1 H2]. destruct Hg as [H3 H4]. split; [lia|].
    exists x. split; [apply elements_spec; auto|]. apply andb_true_iff. split; [apply Nat.ltb_lt; auto|]. apply String.eqb_eq. congruence.
Qed.
Lemma same_keys_sym f S g S' : same_keys f S g S' -> same_keys g S' f S.
Proof. intros H pk. symmetry. apply H. Qed.
Definition in_nodes (f : fbas) (S : bset) : Prop := forall x, mem x S = true -> x < number_of_nodes f.
Lemma in_nodes_key f S x : in_nodes f S -> mem x S = true -> has_key f x (pk_of f x).
Proof. intros H Hx. apply has_key_pk. auto. Qed.
Lemma same_keys_unique f S T g S' : distinct_keys f -> in_nodes f S -> in_nodes f T -> same_keys f S g S' -> same_keys f T g S' -> S = T.
Proof.
  intros Hd HS HT H1 H2.
  assert (Hi : forall A B, in_nodes f A -> same_keys f A g S' -> same_keys f B g S' -> forall x, mem x A = true -> mem x B = true).
  { intros A B HA E1 E2 x Hx. assert (Hk := in_nodes_key f A x HA Hx). destruct (proj1 (E1 (pk_of f x))) as (y & Hy & Hky); [eauto|].
    destruct (proj2 (E2 (pk_of f x))) as (z & Hz & Hkz); [eauto|]. rewrite (key_unique f x z _ Hd Hk Hkz). auto. }
  apply incl_antisym; intros x Hx; eauto.
Qed.
Lemma len_keys f S : distinct_keys f -> in_nodes f S -> NoDup (map (pk_of f) (elements S)).
Proof.
  intros Hd HS. apply NoDup_map_inj; [apply elements_nodup|]. intros x y Hx Hy. apply elements_spec in Hx, Hy. apply pk_of_inj; auto.
Qed.
Lemma same_keys_len f S g S' : distinct_keys f -> distinct_keys g -> in_nodes f S -> in_nodes g S' -> same_keys f S g S' -> len S = len S'.
Proof.
  intros Hf Hg HS HS' H.
  assert (Hle : forall f S g S', distinct_keys f -> in_nodes f S -> same_keys f S g S' -> len S <= len S').
  { clear. intros f S g S' Hd HS H. rewrite !len_elements. rewrite <- (map_length (pk_of f)), <- (map_length (pk_of g) (elements S')).
    apply NoDup_incl_length; [apply len_keys; auto|]. intros pk Hpk. apply in_map_iff in Hpk. destruct Hpk as (x & <- & Hx). apply elements_spec in Hx.
    destruct (proj1 (H (pk_of f x))) as (y & Hy & Hk); [exists x; split; auto; apply has_key_pk; auto|]. apply has_key_pk in Hk. destruct Hk as [_ ->].
    apply in_map, elements_spec. auto. }
  assert (H1 := Hle f S g S' Hf HS H). assert (H2 := Hle g S' f S Hg HS' (same_keys_sym _ _ _ _ H)). lia.
Qed.

Section Keys.
Variables f g : fbas.
Hypothesis Hf : distinct_keys f.
Hypothesis Hg : distinct_keys g.
Hypothesis Hfg : forall Q, minimal_quorum f Q -> exists Q', minimal_quorum g Q' /\ same_keys f Q g Q'.
Hypothesis Hgf : forall Q', minimal_quorum g Q' -> exists Q, minimal_quorum f Q /\ same_keys f Q g Q'.
Lemma quorum_in_nodes h Q : minimal_quorum h Q -> in_nodes h Q.
Proof. intros [HQ _] x Hx. apply mem_all_nodes. apply (quorum_nodes h Q); auto. Qed.

Lemma blocking_to_keys B : blocking f B -> blocking g (to_keys f g B).
Proof.
  intro HB. apply blocking_minimal. intros Q' HQ'. destruct (Hgf Q' HQ') as (Q & HQ & Hk). destruct (HB Q) as (x & Hx & HxQ); [apply HQ|].
  assert (Hkx := in_nodes_key f Q x (quorum_in_nodes f Q HQ) HxQ). destruct (proj1 (Hk (pk_of f x))) as (y & Hy & Hky); [eauto|].
  exists y. split; auto. apply mem_to_keys. eauto.
Qed.
Lemma splitting_to_keys S : splitting f S -> splitting g (to_keys f g S).
Proof.
  intros (Q1 & Q2 & H1 & H2 & Hne & Hi). destruct (Hfg Q1 H1) as (R1 & M1 & K1). destruct (Hfg Q2 H2) as (R2 & M2 & K2).
  exists R1, R2. split; auto. split; auto. split.
  - intros ->. apply Hne. apply (same_keys_unique f Q1 Q2 g R2); auto; apply quorum_in_nodes; auto.
  - intros y Hy1 Hy2. assert (Hk := in_nodes_key g R1 y (quorum_in_nodes g R1 M1) Hy1).
    destruct (proj2 (K1 (pk_of g y))) as (x & Hx & Hkx); [eauto|]. destruct (proj2 (K2 (pk_of g y))) as (z & Hz & Hkz); [eauto|].
    assert (x = z) by (exact (key_unique f x z _ Hf Hkx Hkz)). subst z. apply mem_to_keys. exists x, (pk_of g y). auto.
Qed.
Lemma quorum_to_keys : has_a_quorum f -> has_a_quorum g.
Proof.
  intros (Q & HQ). destruct (minimal_quorum_below f Q HQ) as (M & _ & HM). destruct (Hfg M HM) as (M' & HM' & _). exists M'. apply HM'.
Qed.
Lemma meets_keys S T S' T' : in_nodes f S -> in_nodes f T -> same_keys f S g S' -> same_keys f T g T' -> meets S T -> meets S' T'.
Proof.
  intros HS HT E1 E2 (x & Hx & Hx'). assert (Hk := in_nodes_key f S x HS Hx). destruct (proj1 (E1 (pk_of f x))) as (y & Hy & Hky); [eauto|].
  destruct (proj1 (E2 (pk_of f x))) as (z & Hz & Hkz); [eauto|]. exists y. split; auto. rewrite (key_unique g y z _ Hg Hky Hkz). auto.
Qed.
Lemma intersection_to_keys : quorum_intersection f -> quorum_intersection g.
Proof.
  intros [Hex H]. split; [apply quorum_to_keys; auto|]. intros A B HA HB.
  destruct (minimal_quorum_below g A HA) as (a & Ia & Ma). destruct (minimal_quorum_below g B HB) as (b & Ib & Mb).
  destruct (Hgf a Ma) as (a' & Ma' & Ka). destruct (Hgf b Mb) as (b' & Mb' & Kb).
  destruct (meets_keys a' b' a b (quorum_in_nodes f a' Ma') (quorum_in_nodes f b' Mb') Ka Kb) as (y & Hy & Hy'); [apply H; [apply Ma'|apply Mb']|]. exists y. auto.
Qed.
Lemma top_tier_to_keys x pk : in_top_tier f x -> has_key f x pk -> exists y, in_top_tier g y /\ has_key g y pk.
Proof.
  intros (Q & HQ & Hx) Hk. destruct (Hfg Q HQ) as (Q' & HQ' & Hs). destruct (proj1 (Hs pk)) as (y & Hy & Hky); [eauto|].
  exists y. split; auto. exists Q'. auto.
Qed.
End Keys.

(** from a property to its minimal sets *)
Lemma minimal_to_keys f g (P P' : bset -> Prop) : distinct_keys f -> distinct_keys g ->
  (forall S, P S -> P' (to_keys f g S)) -> (forall S, P' S -> P (to_keys g f S)) ->
  forall S, minimal P S -> minimal P' (to_keys f g S) /\ same_keys f S g (to_keys f g S) /\ in_nodes f S.
Proof.
  intros Hf Hg H1 H2 S [HS Hm].
  assert (Hb : to_keys g f (to_keys f g S) = S).
  { apply Hm; auto. intros x Hx. apply mem_to_keys in Hx. destruct Hx as (y & pk & Hy & Hky & Hkx). apply mem_to_keys in Hy.
    destruct Hy as (z & pk' & Hz & Hkz & Hky'). assert (pk = pk') by (unfold has_key in *; congruence). subst pk'.
    rewrite (key_unique f x z pk Hf Hkx Hkz). auto. }
  assert (Hin : in_nodes f S).
  { intros x Hx. rewrite <- Hb in Hx. apply mem_to_keys in Hx. destruct Hx as (y & pk & _ & _ & Hk). apply has_key_pk in Hk. tauto. }
  split; [|split; auto].
  - split; auto. intros R' HR' Hi.
    assert (E : to_keys g f R' = S).
    { apply Hm; auto. intros x Hx. apply mem_to_keys in Hx. destruct Hx as (y & pk & Hy & Hky & Hkx). apply Hi in Hy. rewrite <- Hb. apply mem_to_keys. eauto. }
    apply incl_antisym; auto. intros y Hy. apply mem_to_keys in Hy. destruct Hy as (x & pk & Hx & Hkx & Hky). rewrite <- E in Hx.
    apply mem_to_keys in Hx. destruct Hx as (z & pk' & Hz & Hkz & Hkx'). assert (pk = pk') by (unfold has_key in *; congruence). subst pk'.
    rewrite (key_unique g y z pk Hg Hky Hkz). auto.
  - intro pk. split.
    + intros (x & Hx & Hk). assert (Hx' := Hx). rewrite <- Hb in Hx'. apply mem_to_keys in Hx'. destruct Hx' as (y & pk' & Hy & Hky & Hkx).
      assert (pk = pk') by (unfold has_key in *; congruence). subst pk'. eauto.
    + intros (y & Hy & Hk). apply mem_to_keys in Hy. destruct Hy as (x & pk' & Hx & Hkx & Hky). assert (pk = pk') by (unfold has_key in *; congruence). subst pk'. eauto.
Qed.
