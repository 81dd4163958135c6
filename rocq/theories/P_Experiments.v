(** Proofs about the rows of the performance experiment and their updates. *)
From Coq Require Import ZArith Reals Permutation.
From Verif Require Export P_Performance P_NoPanic.
Local Open Scope list_scope.
Local Open Scope nat_scope.

Section Runs.
Context (E : ext) (HE : ext_ok E) (clock : experiment -> experiment_durations).

Lemma inv_weak f a K : inv f a K -> winv f a K.
Proof.
  intros [I1 I2 I3 I4 I5 I6 I7 I8 I9 I10]. constructor; auto.
  - intros l Hl. now apply I8.
  - intros l Hl. now apply I9.
  - intros l Hl. now apply I10.
Qed.
Lemma run_ok (stellar : bool) k f : 
  (if stellar then make_almost_ideal_stellarlike_fbas (x_top_tier_size k) else make_almost_ideal_fbas (x_top_tier_size k)) = Ok f ->
  number_of_nodes f = x_top_tier_size k -> wf_fbas f -> quorum_intersection f ->
  exists row, run_experiment E clock k stellar = Ok row /\ experiment_of row = k.
Proof.
  intros Hf Hn Hwf Hqi. unfold run_experiment. rewrite Hf. cbn [bind]. rewrite Hn, Nat.eqb_refl. cbn [assert].
  destruct (inv_new E HE f Hwf) as (a0 & -> & Hi0). cbn [bind]. unfold ask_sets at 1.
  destruct (perform_step E HE f Hwf a0 _ MinimalQuorums Hi0 I) as (ans & a1 & K1 & -> & Hi1 & (rq & lq & -> & _)). cbn [bind fst snd].
  destruct (ask_hqi E HE f Hwf a1 K1 Hi1) as (b & a2 & K2 & -> & Hi2 & Hb). cbn [bind].
  assert (b = true) as -> by now apply Hb. cbn [assert].
  destruct (perform_step E HE f Hwf a2 K2 AlternativeCheck Hi2 (proj1 Hqi)) as (ans & a3 & K3 & -> & Hi3 & Hans). cbn [bind].
  destruct Hans as [(-> & _)|(r & l & _ & _ & Hno & _)]; [|now destruct Hno]. cbn [assert].
  unfold ask_sets, perform.
  destruct (w_mbs_step E HE f Hwf a3 K3 (inv_weak f a3 K3 Hi3)) as (lb & a4 & K4 & -> & Hi4 & _). cbn [res_map bind vec_answer fst snd].
  destruct (w_mss_step E HE f Hwf a4 K4 Hi4) as (ls & a5 & K5 & -> & Hi5 & _). cbn [res_map bind vec_answer fst snd].
  eexists. split; [reflexivity|]. now destruct k.
Qed.
Lemma requested_runs max runs stellar k : (Z.of_nat max <= 2 ^ 53)%Z -> requested max runs stellar k ->
  exists row, run_experiment E clock k stellar = Ok row /\ experiment_of row = k.
Proof.
  intros Hmax ((H1 & H2) & _ & H3). destruct stellar.
  - destruct (H3 eq_refl) as (g & Hg). assert (G1 : 1 <= g) by lia.
    destruct (almost_ok (3 * g) (stellar_like g) ltac:(lia)) as (f0 & f & Hf & N0 & N & Q0 & Qz & Qx).
    assert (A1 := stellar_made g G1 ltac:(lia)). assert (G2 : 1 <= 3 * g) by lia.
    assert (Hnd := organized_nodes (two_thirds g) 2 g). fold (stellar_like g) in Hnd. assert (Hs := stellar_sane g G1).
    apply (run_ok true k f); rewrite ?Hg; [congruence|auto| |].
    + apply (f_wf (3 * g) (stellar_like g) G2 Hnd Hs f0 f N0 N Q0 Qz Qx).
    + apply (f_intersection (3 * g) (stellar_like g) G2 Hnd Hs f0 f N0 N Q0 Qz Qx). left. now apply stellar_splittable.
  - set (n := x_top_tier_size k) in *. destruct (almost_ok n (ideal n) H1) as (f0 & f & Hf & N0 & N & Q0 & Qz & Qx).
    assert (A1 := ideal_made n H1 ltac:(lia)).
    assert (Hnd := ideal_nodes n). assert (Hs := ideal_sane n H1).
    apply (run_ok false k f); fold n; [congruence|auto| |].
    + apply (f_wf n (ideal n) H1 Hnd Hs f0 f N0 N Q0 Qz Qx).
    + apply (f_intersection n (ideal n) H1 Hnd Hs f0 f N0 N Q0 Qz Qx). now apply ideal_kind.
Qed.

(** ** the map of existing outputs *)
Lemma experiment_eq a b : experiment_compare a b = Eq <-> a = b.
Proof.
  destruct a as [s r], b as [s' r']. unfold experiment_compare. cbn. destruct (Nat.compare_spec s s'); split; intro H0; try discriminate; try (injection H0; lia).
  - apply Nat.compare_eq_iff in H0. congruence.
  - injection H0 as _ ->. apply Nat.compare_refl.
Qed.
Lemma contains_iff k m : contains_experiment k m = true <-> In k (map fst m).
Proof.
  unfold contains_experiment. rewrite existsb_exists, in_map_iff. split.
  - intros ([k' v] & Hin & H). cbn in H. destruct (experiment_compare k k') eqn:Ec; try discriminate. apply experiment_eq in Ec. subst. exists (k', v). auto.
  - intros ([k' v] & Hk & Hin). cbn in Hk. subst. exists (k, v). split; auto. cbn. now rewrite (proj2 (experiment_eq k k) eq_refl).
Qed.
Definition experiment_before (a b : experiment) : Prop := experiment_compare a b = Lt.
Lemma before_spec a b : experiment_before a b <-> x_top_tier_size a < x_top_tier_size b \/ (x_top_tier_size a = x_top_tier_size b /\ x_run a < x_run b).
Proof.
  unfold experiment_before, experiment_compare. destruct (Nat.compare_spec (x_top_tier_size a) (x_top_tier_size b)); [rewrite Nat.compare_lt_iff; lia| |]; split; intro; try lia; try discriminate; auto.
Qed.
Lemma gt_before a b : experiment_compare a b = Gt -> experiment_before b a.
Proof.
  intro H. apply before_spec. unfold experiment_compare in H. destruct (Nat.compare_spec (x_top_tier_size a) (x_top_tier_size b)); try discriminate; [|auto].
  apply Nat.compare_gt_iff in H. lia.
Qed.
Definition ascending (m : list (experiment * measurement)) : Prop := StronglySorted experiment_before (map fst m).
Lemma insert_in k v m : ascending m -> forall k' v', In (k', v') (experiment_insert k v m) <-> (k' = k /\ v' = v) \/ (k' <> k /\ In (k', v') m).
Proof.
  unfold ascending. induction m as [|[k1 v1] m IH]; intros Ha k' v'; cbn [experiment_insert map fst] in *.
  - cbn. split; [intros [H|[]]; injection H; auto|]. intros [[-> ->]|[_ []]]. auto.
  - inversion Ha as [|? ? Ha' Hf]; subst. rewrite Forall_forall in Hf.
    assert (Hirr : forall x y, experiment_before x y -> x <> y) by (intros x y Hb ->; apply before_spec in Hb; lia).
    destruct (experiment_compare k k1) eqn:Ec; cbn [In].
    + apply experiment_eq in Ec. subst k1. split.
      * intros [H|H]; [injection H; auto|]. right. split; [|auto]. intro He. subst k'. apply (Hirr k k); auto. apply Hf. apply (in_map fst) in H. auto.
      * intros [[-> ->]|[H1 [H2|H2]]]; auto. injection H2 as <- <-. contradiction.
    + split.
      * intros [H|[H|H]]; [injection H; auto| |].
        -- right. split; [|auto]. injection H as -> ->. intro He. subst. apply (Hirr k k); auto.
        -- right. split; [|auto]. intro He. subst k'. apply (in_map fst) in H. cbn in H. specialize (Hf k H). apply before_spec in Hf. apply before_spec in Ec. lia.
      * intros [[-> ->]|[H1 H2]]; auto.
    + rewrite (IH Ha'). apply gt_before in Ec. split.
      * intros [H|[H|[H1 H2]]]; auto. injection H as <- <-. right. split; auto.
      * intros [H|[H1 [H2|H2]]]; auto.
Qed.
Lemma insert_keys k v m x : In x (map fst (experiment_insert k v m)) -> x = k \/ In x (map fst m).
Proof.
  induction m as [|[k1 v1] m IH]; cbn [experiment_insert map fst In]; [intros [H|[]]; auto|].
  destruct (experiment_compare k k1); cbn [map fst In]; intuition.
Qed.
Lemma insert_ascending k v m : ascending m -> ascending (experiment_insert k v m).
Proof.
  unfold ascending. induction m as [|[k1 v1] m IH]; intro Ha; cbn [experiment_insert map fst] in *; [repeat constructor|].
  inversion Ha as [|? ? Ha' Hf]; subst. rewrite Forall_forall in Hf. destruct (experiment_compare k k1) eqn:Ec; cbn [map fst].
  - apply experiment_eq in Ec. subst. constructor; [auto|now rewrite Forall_forall].
  - constructor; auto. rewrite Forall_forall. intros x [<-|Hx]; [exact Ec|]. specialize (Hf x Hx). apply before_spec. apply before_spec in Hf. apply before_spec in Ec. lia.
  - constructor; auto. rewrite Forall_forall. intros x Hx. apply insert_keys in Hx. destruct Hx as [->|Hx]; [now apply gt_before|auto].
Qed.
Lemma ascending_nodup m : ascending m -> NoDup (map fst m).
Proof.
  unfold ascending. induction 1 as [|k l Hs IH Hf]; constructor; auto. intro Hin. rewrite Forall_forall in Hf. specialize (Hf k Hin). apply before_spec in Hf. lia.
Qed.
Lemma last_row_snoc rows d k v : last_row (rows ++ [d]) k v <-> (k = experiment_of d /\ v = d) \/ (k <> experiment_of d /\ last_row rows k v).
Proof.
  split.
  - intros (pre & post & He & Hk & Hp).
    destruct post as [|p post].
    + apply app_inj_tail in He. destruct He as [-> ->]. auto.
    + destruct (@exists_last _ (p :: post) ltac:(discriminate)) as (post' & z' & Hz'). rewrite Hz' in He, Hp.
      rewrite app_comm_cons, app_assoc in He. apply app_inj_tail in He. destruct He as [-> ->]. right. split.
      * intro Hc. apply (Hp z'); [apply in_app_iff; right; now left|auto].
      * exists pre, post'. split; auto. split; auto. intros p0 H0. apply Hp, in_app_iff. auto.
  - intros [[-> ->]|[Hne (pre & post & -> & Hk & Hp)]].
    + exists rows, []. auto.
    + exists pre, (post ++ [d]). split; [now rewrite <- app_assoc|]. split; auto. intros p H. apply in_app_iff in H. destruct H as [H|[<-|[]]]; auto.
Qed.
Lemma outputs_by_experiment_spec rows : ascending (outputs_by_experiment rows) /\ forall k d, In (k, d) (outputs_by_experiment rows) <-> last_row rows k d.
Proof.
  induction rows as [|d rows [IH1 IH2]] using rev_ind.
  - split; [constructor|]. intros k d. split; [intros []|]. intros (pre & post & H & _). destruct pre; discriminate.
  - unfold outputs_by_experiment in *. rewrite fold_left_app. cbn [fold_left]. split; [now apply insert_ascending|].
    intros k v. rewrite insert_in by auto. rewrite last_row_snoc, IH2. reflexivity.
Qed.
Lemma last_row_in rows k d : last_row rows k d -> In d rows /\ experiment_of d = k.
Proof. intros (pre & post & -> & H & _). split; auto. apply in_app_iff. right. now left. Qed.
Lemma last_row_exists rows d : In d rows -> exists d', last_row rows (experiment_of d) d'.
Proof.
  induction rows as [|d1 rows IH] using rev_ind; [intros []|]. rewrite in_app_iff. cbn. intro H.
  assert (De : {experiment_of d = experiment_of d1} + {experiment_of d <> experiment_of d1}) by (decide equality; apply Nat.eq_dec).
  destruct De as [He|Hne].
  - exists d1. apply last_row_snoc. auto.
  - destruct H as [H|[H|[]]]; [|subst; congruence]. destruct (IH H) as (d' & H'). exists d'. apply last_row_snoc. auto.
Qed.

(** ** tasks *)
Lemma requested_iff max runs stellar k : In k (generate_inputs max runs stellar) <-> requested max runs stellar k.
Proof.
  unfold generate_inputs, requested. rewrite in_flat_map. split.
  - intros (m & Hm & Hk). apply filter_In in Hm. destruct Hm as [Hm Hs]. apply in_seq in Hm. apply in_map_iff in Hk. destruct Hk as (r & <- & Hr). apply in_seq in Hr. cbn.
    split; [lia|]. split; [lia|]. intros ->. cbn [negb orb] in Hs. apply Nat.eqb_eq in Hs. exists (m / 3). assert (D := Nat.div_mod m 3 ltac:(lia)). lia.
  - intros (H1 & H2 & H3). exists (x_top_tier_size k). split.
    + apply filter_In. split; [apply in_seq; lia|]. destruct stellar; [|auto]. destruct (H3 eq_refl) as (g & ->). cbn [negb orb].
      rewrite Nat.mul_comm, Nat.mod_mul by lia. auto.
    + apply in_map_iff. exists (x_run k). split; [now destruct k|apply in_seq; lia].
Qed.
Lemma inputs_nodup max runs stellar : NoDup (generate_inputs max runs stellar).
Proof.
  unfold generate_inputs. assert (H : NoDup (filter (fun m => negb stellar || (m mod 3 =? 0)) (seq 1 max))) by apply NoDup_filter, seq_NoDup.
  induction H as [|m l Hm H IH]; cbn; [constructor|]. apply NoDup_app_intro; auto.
  - apply FinFun.Injective_map_NoDup; [intros a b Hab; congruence|apply seq_NoDup].
  - intros x Hx Hx'. apply in_map_iff in Hx. destruct Hx as (r & <- & _). apply in_flat_map in Hx'. destruct Hx' as (m' & Hm' & Hx').
    apply in_map_iff in Hx'. destruct Hx' as (r' & He & _). injection He as -> _. contradiction.
Qed.
Definition task_key (t : experiment_task) : experiment := match t with Repeat d => experiment_of d | Perform k => k end.

Lemma write_all stellar tasks : (forall t, In t tasks -> exists row, perform_or_repeat E clock stellar t = Ok row) ->
  exists rows, write_measurements E clock stellar tasks = (rows, true) /\ Forall2 (fun t row => perform_or_repeat E clock stellar t = Ok row) tasks rows.
Proof.
  induction tasks as [|t tasks IH]; intro H; cbn [write_measurements]; [exists []; split; constructor|].
  destruct (H t) as (row & Hr); [now left|]. rewrite Hr. destruct IH as (rows & -> & HF); [intros; apply H; now right|].
  exists (row :: rows). split; auto.
Qed.

Lemma filter_map_in {A B} (g : A -> option B) l y : In y (filter_map g l) <-> exists x, In x l /\ g x = Some y.
Proof.
  induction l as [|a l IH]; cbn; [split; [intros []|intros (x & [] & _)]|]. destruct (g a) as [b|] eqn:Eg; cbn; rewrite ?IH; split.
  - intros [<-|(x & H1 & H2)]; eauto.
  - intros (x & [<-|H1] & H2); [left; congruence|eauto].
  - intros (x & H1 & H2); eauto.
  - intros (x & [<-|H1] & H2); [congruence|eauto].
Qed.
Lemma tasks_in inputs m t : In t (experiment_tasklist inputs m) <->
  (exists k, t = Perform k /\ In k inputs /\ ~ In k (map fst m)) \/ (exists k d, t = Repeat d /\ In (k, d) m).
Proof.
  unfold experiment_tasklist. rewrite sort_by_in, in_app_iff, filter_map_in, map_map, in_map_iff. split; (intros [H|H]; [left|right]).
  - destruct H as (k & Hk & H). destruct (contains_experiment k m) eqn:Ec; cbn in H; [discriminate|]. injection H as <-. exists k. split; auto. split; auto.
    intro Hin. apply contains_iff in Hin. congruence.
  - destruct H as ([k d] & <- & H). eauto.
  - destruct H as (k & -> & Hk & Hn). exists k. split; auto. destruct (contains_experiment k m) eqn:Ec; [|reflexivity]. apply contains_iff in Ec. contradiction.
  - destruct H as (k & d & -> & H). exists (k, d). auto.
Qed.
Lemma tasks_nodup inputs m : NoDup inputs -> ascending m -> (forall k d, In (k, d) m -> experiment_of d = k) -> NoDup (map task_key (experiment_tasklist inputs m)).
Proof.
  intros Hi Hm Hk. unfold experiment_tasklist. eapply Permutation_NoDup; [apply Permutation_map; symmetry; apply sort_by_perm|]. rewrite map_app.
  apply NoDup_app_intro.
  - induction Hi as [|k l Hk' Hi IH]; cbn; [constructor|]. destruct (contains_experiment k m) eqn:Ec; cbn; auto. constructor; auto.
    intro Hin. apply in_map_iff in Hin. destruct Hin as (t & Ht & Hin). apply filter_map_in in Hin. destruct Hin as (k' & Hin & Ht').
    destruct (negb (contains_experiment k' m)); [|discriminate]. injection Ht' as <-. cbn in Ht. subst. contradiction.
  - rewrite !map_map. cbn [task_key]. replace (map (fun x => experiment_of (snd x)) m) with (map fst m); [now apply ascending_nodup|].
    apply map_ext_in. intros [k d] H. symmetry. now apply Hk.
  - intros k H1 H2. apply in_map_iff in H1. destruct H1 as (t & <- & H1). apply filter_map_in in H1. destruct H1 as (k & Hin & Ht).
    destruct (contains_experiment k m) eqn:Ec; cbn in Ht; [discriminate|]. injection Ht as <-. cbn in H2. rewrite !map_map in H2. apply in_map_iff in H2.
    destruct H2 as ([k' d] & He & H2). cbn in He. rewrite (Hk k' d H2) in He. subst k'. apply (in_map fst) in H2. cbn [fst] in H2. apply contains_iff in H2. congruence.
Qed.

(** what the experiments with found rows [old] amount to *)
Definition row_for (max runs : nat) (stellar : bool) (old : list measurement) (d : measurement) : Prop :=
  last_row old (experiment_of d) d \/
  (requested max runs stellar (experiment_of d) /\ (forall d', In d' old -> experiment_of d' <> experiment_of d) /\ run_experiment E clock (experiment_of d) stellar = Ok d).

Lemma Forall2_in_r' {A B} (R : A -> B -> Prop) l l' y : Forall2 R l l' -> In y l' -> exists x, In x l /\ R x y.
Proof. induction 1 as [|a b l l' H HF IH]; cbn; [intros []|]. intros [<-|Hin]; eauto. destruct (IH Hin) as (x & H1 & H2). eauto. Qed.
Lemma Forall2_in_l' {A B} (R : A -> B -> Prop) l l' x : Forall2 R l l' -> In x l -> exists y, In y l' /\ R x y.
Proof. induction 1 as [|a b l l' H HF IH]; cbn; [intros []|]. intros [<-|Hin]; eauto. destruct (IH Hin) as (y & H1 & H2). eauto. Qed.

Lemma tasks_written max runs stellar old : (Z.of_nat max <= 2 ^ 53)%Z ->
  exists rows, write_measurements E clock stellar (experiment_tasklist (generate_inputs max runs stellar) (outputs_by_experiment old)) = (rows, true) /\
    by_size rows /\ NoDup (map experiment_of rows) /\ forall d, In d rows <-> row_for max runs stellar old d.
Proof.
  intro Hmax. set (m := outputs_by_experiment old). destruct (outputs_by_experiment_spec old) as [Ha Hm]. fold m in Ha, Hm.
  set (tasks := experiment_tasklist (generate_inputs max runs stellar) m).
  assert (Hrun : forall t, In t tasks -> exists row, perform_or_repeat E clock stellar t = Ok row).
  { intros t Ht. apply tasks_in in Ht. destruct Ht as [(k & -> & Hk & _)|(k & d & -> & _)]; cbn [perform_or_repeat]; [|eauto].
    apply requested_iff in Hk. destruct (requested_runs max runs stellar k Hmax Hk) as (row & Hr & _). eauto. }
  destruct (write_all stellar tasks Hrun) as (rows & Hw & HF). exists rows. split; auto.
  assert (Hkey : Forall2 (fun t row => task_key t = experiment_of row) tasks rows).
  { assert (Hin : forall t, In t tasks -> forall row, perform_or_repeat E clock stellar t = Ok row -> task_key t = experiment_of row).
    { intros t Ht row Hrow. apply tasks_in in Ht. destruct Ht as [(k & -> & Hk & _)|(k & d & -> & Hd)]; cbn [perform_or_repeat task_key] in *.
      - apply requested_iff in Hk. destruct (requested_runs max runs stellar k Hmax Hk) as (row' & Hr & He). congruence.
      - injection Hrow as ->. auto. }
    clear -HF Hin. induction HF as [|t row tasks rows H HF IH]; constructor; [apply Hin; [now left|auto]|]. apply IH. intros t' H'. apply Hin. now right. }
  split; [|split].
  - assert (Hs : StronglySorted (fun a b => experiment_label a <= experiment_label b) tasks).
    { unfold tasks, experiment_tasklist. set (cmp := fun a b => _). eapply sorted_impl; [|apply sort_by_sorted].
      - intros a b Hab. unfold cmp in Hab. rewrite Nat.compare_le_iff in Hab. exact Hab.
      - intros a b. unfold cmp. intros H1 H2. apply Nat.compare_gt_iff in H1. apply Nat.compare_gt_iff in H2. lia.
      - intros a b c. unfold cmp. rewrite !Nat.compare_le_iff. lia. }
    assert (Hl : forall t, experiment_label t = x_top_tier_size (task_key t)) by (intros []; reflexivity).
    clear -Hs Hkey Hl. unfold by_size. induction Hkey as [|t row tasks rows Hk HF IH]; constructor; inversion Hs as [|? ? Hs' Hf]; subst; auto.
    rewrite Forall_forall in *. intros r Hr. destruct (Forall2_in_r' _ _ _ r HF Hr) as (t' & Ht' & Hk'). specialize (Hf t' Ht'). rewrite !Hl, Hk, Hk' in Hf. exact Hf.
  - replace (map experiment_of rows) with (map task_key tasks).
    + apply tasks_nodup; auto; [apply inputs_nodup|]. intros k d H. apply Hm, last_row_in in H. tauto.
    + clear -Hkey. induction Hkey as [|t row tasks rows Hk HF IH]; cbn; congruence.
  - intro d. unfold row_for. split.
    + intro Hd. destruct (Forall2_in_r' _ _ _ d HF Hd) as (t & Ht & Hr). destruct (Forall2_in_r' _ _ _ d Hkey Hd) as (_ & _ & _).
      apply tasks_in in Ht. destruct Ht as [(k & -> & Hk & Hn)|(k & d' & -> & Hd')]; cbn [perform_or_repeat] in Hr.
      * right. apply requested_iff in Hk. destruct (requested_runs max runs stellar k Hmax Hk) as (row & Hr' & He). rewrite Hr in Hr'. injection Hr' as <-. rewrite He.
        split; auto. split; auto. intros d' Hd' Hc. apply Hn. destruct (last_row_exists old d' Hd') as (d2 & H2). rewrite Hc in H2. apply Hm in H2. now apply (in_map fst) in H2.
      * injection Hr as ->. left. apply Hm in Hd'. destruct (last_row_in _ _ _ Hd') as [_ He]. now rewrite He.
    + intros [Hl|(H1 & H2 & H3)].
      * assert (Ht : In (Repeat d) tasks) by (apply tasks_in; right; exists (experiment_of d), d; split; auto; now apply Hm).
        destruct (Forall2_in_l' _ _ _ _ HF Ht) as (r & Hr & He). cbn in He. injection He as ->. auto.
      * assert (Ht : In (Perform (experiment_of d)) tasks).
        { apply tasks_in. left. exists (experiment_of d). split; auto. split; [now apply requested_iff|]. intro Hin. apply in_map_iff in Hin.
          destruct Hin as ([k d'] & He & Hin). cbn in He. subst k. apply Hm, last_row_in in Hin. destruct Hin as [Hin He]. apply (H2 d' Hin He). }
        destruct (Forall2_in_l' _ _ _ _ HF Ht) as (r & Hr & He). cbn [perform_or_repeat] in He. rewrite H3 in He. injection He as ->. auto.
Qed.
Lemma outputs_nil : outputs_by_experiment [] = [].
Proof. reflexivity. Qed.
Lemma main_ok max runs stellar update output old : (Z.of_nat max <= 2 ^ 53)%Z -> rows_found update output old ->
  exists rows, experiment_main E clock max runs stellar update output = Some (rows, true) /\
    by_size rows /\ NoDup (map experiment_of rows) /\ forall d, In d rows <-> row_for max runs stellar old d.
Proof.
  intros Hmax Ho. destruct (tasks_written max runs stellar old Hmax) as (rows & Hw & H). exists rows. split; auto.
  destruct update, output as [|[rs|]]; cbn [rows_found] in Ho; try contradiction; subst old; unfold experiment_main; rewrite ?outputs_nil in Hw; rewrite Hw; auto.
Qed.
Lemma main_refused max runs stellar update output : (forall old, ~ rows_found update output old) -> experiment_main E clock max runs stellar update output = None.
Proof.
  intro H. destruct update, output as [|[rs|]]; cbn in *; auto; exfalso; eapply H; reflexivity.
Qed.
Lemma rows_perm max runs stellar old rows max' runs' rows' old' :
  NoDup (map experiment_of rows) -> (forall d, In d rows <-> row_for max runs stellar old d) ->
  NoDup (map experiment_of rows') -> (forall d, In d rows' <-> row_for max' runs' stellar old' d) ->
  (forall d, row_for max runs stellar old d <-> row_for max' runs' stellar old' d) -> Permutation rows rows'.
Proof.
  intros H1 H2 H3 H4 H. apply NoDup_Permutation; [eapply NoDup_map_inv; eauto|eapply NoDup_map_inv; eauto|]. intro d. rewrite H2, H4. apply H.
Qed.
Lemma nodup_last rows d : NoDup (map experiment_of rows) -> In d rows -> last_row rows (experiment_of d) d.
Proof.
  intros Hn Hd. destruct (in_split d rows Hd) as (pre & post & ->). exists pre, post. split; auto. split; auto. intros p Hp He.
  rewrite map_app in Hn. cbn in Hn. apply NoDup_remove_2 in Hn. apply Hn. rewrite <- He. apply in_app_iff. right. now apply in_map.
Qed.
Lemma incremental max1 runs1 max2 runs2 stellar rows1 rows2 : (Z.of_nat max2 <= 2 ^ 53)%Z -> max1 <= max2 -> runs1 <= runs2 ->
  experiment_main E clock max1 runs1 stellar false (OutputFile None) = Some (rows1, true) ->
  experiment_main E clock max2 runs2 stellar true (OutputFile (Some rows1)) = Some (rows2, true) ->
  exists rows, experiment_main E clock max2 runs2 stellar false (OutputFile None) = Some (rows, true) /\ Permutation rows2 rows.
Proof.
  intros Hmax Hm Hr E1 E2.
  destruct (main_ok max1 runs1 stellar false (OutputFile None) [] ltac:(lia) eq_refl) as (r1 & M1 & _ & D1 & I1). rewrite E1 in M1. injection M1 as <-.
  destruct (main_ok max2 runs2 stellar true (OutputFile (Some rows1)) rows1 Hmax eq_refl) as (r2 & M2 & _ & D2 & I2). rewrite E2 in M2. injection M2 as <-.
  destruct (main_ok max2 runs2 stellar false (OutputFile None) [] Hmax eq_refl) as (r3 & M3 & _ & D3 & I3). exists r3. split; auto.
  apply (rows_perm max2 runs2 stellar rows1 rows2 max2 runs2 r3 []); auto.
  assert (Hnil : forall k d, ~ last_row [] k d) by (intros k d (pre & post & He & _); destruct pre; discriminate).
  assert (Hlift : forall d, In d rows1 -> requested max2 runs2 stellar (experiment_of d) /\ run_experiment E clock (experiment_of d) stellar = Ok d).
  { intros d Hd. apply I1 in Hd. destruct Hd as [Hd|(H1 & _ & H3)]; [destruct (Hnil _ _ Hd)|]. split; auto. destruct H1 as (A1 & A2 & A3). split; [lia|]. split; [lia|auto]. }
  intro d. unfold row_for. split.
  - intros [Hl|(H1 & H2 & H3)].
    + right. apply last_row_in in Hl. destruct (Hlift d (proj1 Hl)) as [L1 L2]. split; auto.
    + right. split; auto.
  - intros [Hl|(H1 & H2 & H3)]; [destruct (Hnil _ _ Hl)|].
    assert (Hdec : (exists d', In d' rows1 /\ experiment_of d' = experiment_of d) \/ (forall d', In d' rows1 -> experiment_of d' <> experiment_of d)).
    { clear. induction rows1 as [|a l IH]; [right; intros d' []|]. assert (De : {experiment_of a = experiment_of d} + {experiment_of a <> experiment_of d}) by (decide equality; apply Nat.eq_dec).
      destruct De as [He|Hne]; [left; exists a; split; [now left|auto]|]. destruct IH as [(d' & A & B)|IH]; [left; exists d'; split; [now right|auto]|].
      right. intros d' [<-|Hd']; auto. }
    destruct Hdec as [(d' & Hd' & He)|Hno]; [left|right; auto]. destruct (Hlift d' Hd') as [_ L2]. rewrite He, H3 in L2. injection L2 as <-. now apply nodup_last.
Qed.
End Runs.
Definition no_watch (k : experiment) : experiment_durations := mk_experiment_durations fzero fzero fzero fzero fzero fzero.

(** ** rows in terms of the specification *)
Lemma row_measured E clock max runs stellar d : ext_ok E -> (Z.of_nat max <= 2 ^ 53)%Z -> requested max runs stellar (experiment_of d) ->
  run_experiment E clock (experiment_of d) stellar = Ok d -> measured stellar d.
Proof.
  intros HE Hmax ((H1 & H2) & _ & H3) Hr. unfold experiment_of in Hr, H1, H2, H3. cbn [x_top_tier_size] in H1, H2, H3. unfold measured. destruct stellar.
  - destruct (H3 eq_refl) as (g & Hg). exists g. split; auto. assert (G1 : 1 <= g) by lia. assert (G2 : (Z.of_nat g <= 2 ^ 53)%Z) by lia.
    destruct (stellar_row E HE clock g (me_run d) G1 G2) as (row & Hr' & _ & Hall). rewrite Hg in Hr. rewrite Hr in Hr'. injection Hr' as <-. exact Hall.
  - intro G1. assert (G2 : (Z.of_nat (me_top_tier_size d) <= 2 ^ 53)%Z) by lia.
    destruct (ideal_row E HE clock (me_top_tier_size d) (me_run d) G1 G2) as (row & Hr' & _ & Hall). rewrite Hr in Hr'. injection Hr' as <-. exact Hall.
Qed.
Lemma main_rows E clock max runs stellar update output old : ext_ok E -> (Z.of_nat max <= 2 ^ 53)%Z -> rows_found update output old ->
  exists rows, experiment_main E clock max runs stellar update output = Some (rows, true) /\ by_size rows /\ NoDup (map experiment_of rows) /\
    (forall d, In d rows -> last_row old (experiment_of d) d \/
       (requested max runs stellar (experiment_of d) /\ (forall d', In d' old -> experiment_of d' <> experiment_of d) /\ measured stellar d)) /\
    (forall k d, last_row old k d -> In d rows) /\
    (forall k, requested max runs stellar k -> exists d, In d rows /\ experiment_of d = k).
Proof.
  intros HE Hmax Ho. destruct (main_ok E HE clock max runs stellar update output old Hmax Ho) as (rows & Hm & Hs & Hn & Hi). exists rows. split; auto. split; auto. split; auto. split; [|split].
  - intros d Hd. apply Hi in Hd. destruct Hd as [Hd|(H1 & H2 & H3)]; [auto|]. right. split; auto. split; auto. eapply row_measured; eauto.
  - intros k d Hd. apply Hi. left. destruct (last_row_in _ _ _ Hd) as [_ ->]. auto.
  - intros k Hk. assert (Hdec : (exists d', In d' old /\ experiment_of d' = k) \/ (forall d', In d' old -> experiment_of d' <> k)).
    { clear. induction old as [|a l IH]; [right; intros d' []|]. assert (De : {experiment_of a = k} + {experiment_of a <> k}) by (decide equality; apply Nat.eq_dec).
      destruct De as [He|Hne]; [left; exists a; split; [now left|auto]|]. destruct IH as [(d' & A & B)|IH]; [left; exists d'; split; [now right|auto]|].
      right. intros d' [<-|Hd']; auto. }
    destruct Hdec as [(d' & Hd' & <-)|Hno].
    + destruct (last_row_exists old d' Hd') as (d & Hd). exists d. split; [|apply (last_row_in _ _ _ Hd)]. apply Hi. left. destruct (last_row_in _ _ _ Hd) as [_ ->]. auto.
    + destruct (requested_runs E HE clock max runs stellar k Hmax Hk) as (row & Hr & <-). exists row. split; auto. apply Hi. right. auto.
Qed.
Lemma main_decided E clock max runs stellar update output : ext_ok E -> (Z.of_nat max <= 2 ^ 53)%Z ->
  (experiment_main E clock max runs stellar update output = None <-> forall old, ~ rows_found update output old).
Proof.
  intros HE Hmax. split; [|apply main_refused]. intros H old Ho. destruct (main_ok E HE clock max runs stellar update output old Hmax Ho) as (rows & Hm & _). congruence.
Qed.

Lemma single_node : exists f row q, make_almost_ideal_fbas 1 = Ok f /\ run_experiment std_ext no_watch (mk_experiment 1 0) false = Ok row /\
  number_of (minimal_blocking f) 1 /\ me_mbs_number row = 2 /\ find_symmetric_top_tier std_ext f = Ok (Some q).
Proof.
  destruct (ideal_fbas 1 ltac:(lia) ltac:(lia)) as (f & Hf & _ & _ & _ & Hb & _).
  destruct (requested_runs std_ext std_ext_ok no_watch 1 1 false (mk_experiment 1 0)) as (row & Hr & _); [lia|repeat split; cbn; try lia; discriminate|].
  exists f, row, (QS 2 [0; 0] []). split; auto. split; auto. split; [exact Hb|].
  assert (H : res_map me_mbs_number (run_experiment std_ext no_watch (mk_experiment 1 0) false) = Ok 2) by (vm_compute; reflexivity).
  rewrite Hr in H. injection H as ->. split; auto.
  assert (H : (f' <- make_almost_ideal_fbas 1 ;; find_symmetric_top_tier std_ext f') = Ok (Some (QS 2 [0; 0] []))) by (vm_compute; reflexivity).
  rewrite Hf in H. exact H.
Qed.
Lemma ideal_measured E clock : ext_ok E -> forall n run, 2 <= n -> (Z.of_nat n <= 2 ^ 53)%Z ->
  exists row, run_experiment E clock (mk_experiment n run) false = Ok row /\ experiment_of row = mk_experiment n run /\ measured false row.
Proof.
  intros HE n run H1 H2. destruct (ideal_row E HE clock n run H1 H2) as (row & Hr & He & Hall). exists row. split; auto. split; auto.
  unfold measured. injection He as -> _. auto.
Qed.
Lemma stellar_measured E clock : ext_ok E -> forall g run, 1 <= g -> (Z.of_nat g <= 2 ^ 53)%Z ->
  exists row, run_experiment E clock (mk_experiment (3 * g) run) true = Ok row /\ experiment_of row = mk_experiment (3 * g) run /\ measured true row.
Proof.
  intros HE g run H1 H2. destruct (stellar_row E HE clock g run H1 H2) as (row & Hr & He & Hall). exists row. split; auto. split; auto.
  unfold measured. exists g. split; [now injection He|auto].
Qed.
Lemma order_differs : exists rows1 rows2 rows,
  experiment_main std_ext no_watch 1 1 false false (OutputFile None) = Some (rows1, true) /\
  experiment_main std_ext no_watch 1 2 false true (OutputFile (Some rows1)) = Some (rows2, true) /\
  experiment_main std_ext no_watch 1 2 false false (OutputFile None) = Some (rows, true) /\
  map me_run rows2 = [1; 0] /\ map me_run rows = [0; 1].
Proof.
  assert (Hz1 : (Z.of_nat 1 <= 2 ^ 53)%Z) by lia.
  destruct (main_ok std_ext std_ext_ok no_watch 1 1 false false (OutputFile None) [] Hz1 eq_refl) as (rows1 & M1 & _).
  destruct (main_ok std_ext std_ext_ok no_watch 1 2 false true (OutputFile (Some rows1)) rows1 Hz1 eq_refl) as (rows2 & M2 & _).
  destruct (main_ok std_ext std_ext_ok no_watch 1 2 false false (OutputFile None) [] Hz1 eq_refl) as (rows & M3 & _).
  exists rows1, rows2, rows. split; auto. split; auto. split; auto.
  assert (H3 : option_map (fun p => map me_run (fst p)) (experiment_main std_ext no_watch 1 2 false false (OutputFile None)) = Some [0; 1]) by (vm_compute; reflexivity).
  rewrite M3 in H3. injection H3 as ->. split; [|reflexivity].
  assert (H2 : (match experiment_main std_ext no_watch 1 1 false false (OutputFile None) with
                | Some (r, _) => option_map (fun p => map me_run (fst p)) (experiment_main std_ext no_watch 1 2 false true (OutputFile (Some r)))
                | None => None end) = Some [1; 0]) by (vm_compute; reflexivity).
  rewrite M1, M2 in H2. now injection H2.
Qed.
