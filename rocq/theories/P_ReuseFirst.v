(** The first blocking set that is listed is a smallest one. *)
From Verif Require Import P_Analysis P_Results P_ThAnalysis P_ThFloat P_Groupings P_ThGroupings.
From Verif Require Export P_ReuseMain.
Local Open Scope list_scope.

Lemma first_smallest l a : StronglySorted before (a :: l) -> forall b, In b (a :: l) -> len a <= len b.
Proof.
  intros H b [->|Hb]; [auto|]. inversion H as [|? ? _ Hf]; subst. rewrite Forall_forall in Hf. destruct (Hf b Hb) as [Hlt|[Hle _]]; lia.
Qed.

Section First.
Variables (E : ext) (f s : fbas).
Hypothesis HE : ext_ok E.
Hypothesis Hwf : wf_fbas f.
Hypothesis Hd : distinct_keys f.
Hypothesis Hs : to_standard_form E f = Ok s.

Lemma first_listed : sane_clusters s -> splittable_clusters s -> has_a_quorum f ->
  exists r names B, do_analysis E s = Ok r /\ smallest_blocking (r_blocking r) s = Ok names /\
  minimal_blocking f B /\ (forall pk, In pk names <-> exists x, mem x B = true /\ has_key f x pk) /\
  List.length names = len B /\ vr_min (r_blocking r) = len B /\ least_size (blocking f) (len B).
Proof.
  intros H1 H2 Hq. assert (Hqs : has_a_quorum s) by (apply (standard_has_quorum E f s); auto).
  destruct (done E f s HE Hwf Hd Hs H1 H2) as (r & lb & lp & Hr & Hb1 & [Hb0 Hb2] & _ & _ & _ & _ & Ht & _).
  assert (Hm : forall B, In B lb <-> minimal (blocking s) B) by (intro B; rewrite Hb2; unfold reported_blocking, minimal_blocking; tauto).
  assert (Hrange : forall B x, In B lb -> mem x B = true -> x < number_of_nodes s).
  { intros B x HB. apply minimal_blocking_in_range. apply Hb2 in HB. apply HB. }
  destruct lb as [|B' rest].
  { exfalso. destruct (minimal_below (blocking s) (blocking_dec s) (all_nodes s)) as (M & _ & HM); [apply blocking_all|]. now apply Hm in HM. }
  destruct (pretty_by_key s (r_blocking r) (B' :: rest) Hb1 Hrange) as (ll & Ell & HF).
  inversion HF as [|? names ? ll' Hn HF']; subst.
  assert (HB' : minimal_blocking s B') by (apply Hm; now left).
  destruct (proj2 (standard_blocking E f s HE Hwf Hd Hs) B' HB') as (B & HB & Hk & Hlen).
  exists r, names, B. split; [auto|]. split; [unfold smallest_blocking; rewrite Ell; auto|]. split; [auto|].
  destruct Hn as (ids & Hids & Hin & HFn).
  split; [|split].
  - intro pk. rewrite (Hk pk). split.
    + intro Hpk. destruct (Forall2_in_r _ _ _ _ HFn Hpk) as (y & Hy & [(g & [] & _)|[_ (n & En & ->)]]).
      exists y. split; [now apply Hin|]. unfold has_key. now rewrite En.
    + intros (y & Hy & Hky). apply Hin in Hy. destruct (Forall2_in_l _ _ _ _ HFn Hy) as (name & Hname & [(g & [] & _)|[_ (n & En & ->)]]).
      unfold has_key in Hky. rewrite En in Hky. injection Hky as <-. auto.
  - assert (Eids : B' = of_list ids) by (apply bset_ext; intro x; apply eq_true_iff_eq; rewrite mem_of_list, Hin; tauto).
    rewrite <- Hlen, Eids, len_of_list by (now apply sorted_lt_nodup). clear -HFn. induction HFn; cbn; congruence.
  - assert (Hleast : least_of (map len (B' :: rest)) (len B')).
    { right. split; [now left|]. intros n Hi. apply in_map_iff in Hi. destruct Hi as (b & <- & Hb). apply (first_smallest rest B'); auto. }
    assert (Hmin := vr_min_least (r_blocking r) _ Ht Hb1).
    split.
    + rewrite <- Hlen. destruct Hleast as [[E0 _]|[L1 L2]]; [discriminate|]. destruct Hmin as [[E0 _]|[M1 M2]]; [discriminate|].
      specialize (L2 _ M1). specialize (M2 _ L1). lia.
    + rewrite <- Hlen. apply (least_by_keys E f s HE Hwf Hd Hs (blocking f) (blocking s)).
      * apply blocking_dec.
      * apply blocking_dec.
      * apply (blocking_fs E f s HE Hwf Hd Hs).
      * apply (blocking_sf E f s HE Hwf Hd Hs).
      * apply (least_minimal (blocking s) (B' :: rest)); auto. apply blocking_dec. exists (all_nodes s). apply blocking_all.
Qed.
End First.
