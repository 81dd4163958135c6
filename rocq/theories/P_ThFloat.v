(** Statements of [Th_Float.v]. *)
From Coq Require Import ZArith Reals Lia Lra.
From Flocq Require Import Core IEEE754.BinarySingleNaN.
From Verif Require Export P_Rank P_Results.
Local Open Scope list_scope.

Lemma describe_spec (r : vec_result) (l : list bset) : ascending_table r -> vr_unwrap r = Ok l ->
  exists d mn mx mean h, vr_describe r = Ok (List.length l, d, (mn, mx, mean), h) /\
  (exists U, (forall x, mem x U = true <-> exists s, In s l /\ mem x s = true) /\ d = len U) /\
  least_of (map len l) mn /\ greatest_of (map len l) mx /\
  List.length h = mx + 1 /\ (forall k, k <= mx -> nth_error h k = Some (occurrences (map len l) k)) /\ list_sum h = List.length l /\
  (l = [] -> mean = fzero) /\
  (l <> [] -> (Z.of_nat (list_sum (map len l)) <= 2 ^ 53)%Z -> (Z.of_nat (List.length l) <= 2 ^ 53)%Z ->
     finite mean = true /\ R_of mean = rnd64 (INR (list_sum (map len l)) / INR (List.length l)) /\ (INR mn <= R_of mean <= INR mx)%R).
Proof.
  intros Ht Hu. destruct (unwrap_sizes r l Ht Hu) as [Hs Hd]. destruct (histogram_spec r) as (h & Eh & Hh1 & Hh2 & Hh3).
  assert (El : List.length (node_sets r) = List.length l).
  { rewrite <- (map_length len (node_sets r)), Hs. apply map_length. }
  exists (len (vr_involved_nodes r)), (vr_min r), (vr_max r), (vr_mean r), h.
  unfold vr_describe. rewrite Eh. cbn [bind]. rewrite El. split; [reflexivity|].
  split. { exists (involved_nodes l). split; auto. intros x. apply mem_involved. }
  assert (Hmin : least_of (map len l) (vr_min r)) by (unfold vr_min; rewrite Hs; apply min_or_0_spec).
  assert (Hmax : greatest_of (map len l) (vr_max r)) by (unfold vr_max; rewrite Hs; apply max_or_0_spec).
  split; auto. split; auto. split; auto. split. { intros k Hk. rewrite <- Hs. auto. }
  split; [congruence|]. split.
  - intros ->. unfold vr_mean. destruct (node_sets r); [reflexivity|discriminate].
  - intros Hne Hsum Hlen.
    assert (Hb : forall s, In s (node_sets r) -> vr_min r <= len s <= vr_max r).
    { intros s Hin. apply (in_map len) in Hin. rewrite Hs in Hin.
      destruct Hmin as [[E _]|[_ H1]]; [rewrite E in Hin; contradiction|].
      destruct Hmax as [[E _]|[_ H2]]; [rewrite E in Hin; contradiction|]. auto. }
    assert (Hmx : (Z.of_nat (vr_max r) <= 2 ^ 53)%Z).
    { destruct Hmax as [[E _]|[Hin _]]; [destruct l; [congruence|discriminate]|].
      assert (vr_max r <= list_sum (map len l)); [|lia]. clear -Hin. induction (map len l) as [|a m IH]; [contradiction|].
      change (list_sum (a :: m)) with (a + list_sum m). destruct Hin as [->|Hin]; [lia|]. specialize (IH Hin). lia. }
    destruct (mean_spec r (vr_min r) (vr_max r)) as (H1 & H2 & H3); auto.
    + intros E. rewrite E in El. destruct l; [congruence|discriminate].
    + now rewrite Hs.
    + now rewrite El.
    + rewrite Hs, El in H2. auto.
Qed.

Lemma describe_analysis E f cs ans r : analyze E f cs = Ok ans -> In (AVec r) ans -> ascending_table r.
Proof.
  intros H Hi. destruct (analyze_table E f cs ans r H Hi) as (K & HK). unfold ascending_table. rewrite HK. apply elements_sorted.
Qed.

Lemma inclusion_exclusion a b : len a + len b = len (union a b) + len (inter a b).
Proof.
  assert (H1 : len (union a b) = len a + len (diff b a)).
  { rewrite <- len_union_disjoint.
    - f_equal. apply bset_ext. intros x. rewrite !mem_union, mem_diff. destruct (mem x a), (mem x b); auto.
    - intros x Hx Hy. rewrite mem_diff, Hx, andb_false_r in Hy. discriminate. }
  assert (H2 : len b = len (inter a b) + len (diff b a)).
  { rewrite <- len_union_disjoint.
    - f_equal. apply bset_ext. intros x. rewrite mem_union, mem_inter, mem_diff. destruct (mem x a), (mem x b); auto.
    - intros x Hx Hy. rewrite mem_diff in Hy. rewrite mem_inter in Hx. destruct (mem x a), (mem x b); discriminate. }
  lia.
Qed.
Lemma threshold_overlap n (U A B : bset) : len U = n -> incl_set A U -> incl_set B U -> (1 <= n)%nat -> (Z.of_nat n <= 2 ^ 53)%Z ->
  calculate_67p_threshold n <= len A -> calculate_67p_threshold n <= len B -> n < 3 * len (inter A B).
Proof.
  intros HU HA HB H1 H2 Ha Hb. destruct (threshold_67p_least n H1 H2) as (_ & Ht & _).
  pose proof (inclusion_exclusion A B). assert (len (union A B) <= len U).
  { apply len_subset. intros x Hx. rewrite mem_union in Hx. apply orb_true_iff in Hx as [Hx|Hx]; auto. }
  lia.
Qed.
