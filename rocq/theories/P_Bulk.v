(** Proofs about labels, inputs, tasks and runs of the bulk analyzer. *)
From Coq Require Import ZArith Ascii Permutation.
From Verif Require Export Spec_Bulk P_GraphIO P_IO.
Local Open Scope string_scope.
Local Open Scope list_scope.
Local Open Scope nat_scope.

(** ** order of labels *)
Lemma label_total a b : a = b \/ string_before a b \/ string_before b a.
Proof.
  destruct string_cmp_ok as [He Ho Ht]. destruct (string_compare a b) eqn:E.
  - left. now apply He.
  - right; left. now apply string_compare_lt.
  - right; right. apply string_compare_lt. rewrite Ho, E. auto.
Qed.
Lemma label_trans a b c : string_before a b -> string_before b c -> string_before a c.
Proof. rewrite <- !string_compare_lt. destruct string_cmp_ok as [He Ho Ht]. eauto. Qed.
Lemma label_irrefl a : ~ string_before a a.
Proof. rewrite <- string_compare_lt. destruct string_cmp_ok as [He Ho Ht]. intro H. rewrite (proj2 (He a a) eq_refl) in H. discriminate. Qed.
Lemma compare_not_gt a b : string_compare a b <> Gt <-> a = b \/ string_before a b.
Proof.
  rewrite <- string_compare_lt. destruct string_cmp_ok as [He Ho Ht]. split.
  - destruct (string_compare a b) eqn:E; [left; now apply He|auto|congruence].
  - intros [->|E]; [rewrite (proj2 (He b b) eq_refl)|rewrite E]; discriminate.
Qed.

(** ** lists sorted by label *)
Section Labels.
Context {A : Type} (label : A -> string).
Lemma with_label_in L l x : In x (with_label label L l) <-> In x l /\ label x = L.
Proof. unfold with_label. rewrite filter_In, String.eqb_eq. tauto. Qed.
Lemma with_label_app L l l' : with_label label L (l ++ l') = with_label label L l ++ with_label label L l'.
Proof. unfold with_label. induction l as [|x l IH]; cbn; auto. destruct (String.eqb (label x) L); cbn; rewrite ?IH; auto. Qed.
Lemma with_label_none L l : (forall x, In x l -> label x <> L) -> with_label label L l = [].
Proof.
  intro H. destruct (with_label label L l) as [|x r] eqn:E; auto. exfalso. assert (Hx : In x (with_label label L l)) by (rewrite E; left; auto).
  apply with_label_in in Hx. destruct Hx as [Hx Hl]. now apply (H x).
Qed.
Lemma with_label_cons x l : with_label label (label x) (x :: l) = x :: with_label label (label x) l.
Proof. unfold with_label. cbn. now rewrite String.eqb_refl. Qed.
Definition by_label_cmp (a b : A) : comparison := string_compare (label a) (label b).
Lemma sorted_by_label l : by_label label (sort_by by_label_cmp l).
Proof.
  unfold by_label. assert (H := sort_by_sorted by_label_cmp).
  assert (H' : StronglySorted (fun a b => by_label_cmp a b <> Gt) (sort_by by_label_cmp l)).
  { apply H; unfold by_label_cmp; intros; eauto using cmp_ok_tot, cmp_ok_tr, string_cmp_ok. }
  clear H. induction H' as [|a m Hm IH Ha]; constructor; auto. eapply Forall_impl; [|exact Ha]. intros b Hb. now apply compare_not_gt.
Qed.
Lemma insert_with_label L x l : by_label label l -> with_label label L (insert_by by_label_cmp x l) = with_label label L (x :: l).
Proof.
  intro Hs. induction Hs as [|y l Hl IH Hy]; auto. cbn [insert_by]. destruct (by_label_cmp x y) eqn:E; auto.
  unfold with_label in *. cbn [filter] in *. rewrite IH. destruct (String.eqb_spec (label x) L) as [Ex|Ex]; [|reflexivity].
  destruct (String.eqb_spec (label y) L) as [Ey|Ey]; [|reflexivity].
  exfalso. unfold by_label_cmp in E. rewrite Ex, Ey in E. destruct string_cmp_ok as [He _ _]. rewrite (proj2 (He L L) eq_refl) in E. discriminate.
Qed.
(** the sort is stable *)
Lemma sort_with_label L l : with_label label L (sort_by by_label_cmp l) = with_label label L l.
Proof.
  induction l as [|x l IH]; auto. change (sort_by by_label_cmp (x :: l)) with (insert_by by_label_cmp x (sort_by by_label_cmp l)).
  rewrite insert_with_label by apply sorted_by_label. unfold with_label in *. cbn [filter]. now rewrite IH.
Qed.
Lemma distinct_with_label L l x : distinct_labels label l -> In x l -> label x = L -> with_label label L l = [x].
Proof.
  unfold distinct_labels. induction l as [|y l IH]; cbn; [tauto|]. intros Hn [->|Hx] Hl; inversion Hn as [|? ? Hi Hn']; subst.
  - unfold with_label. cbn. rewrite String.eqb_refl. f_equal. apply (with_label_none (label x)). intros z Hz E. apply Hi. rewrite <- E. now apply in_map.
  - unfold with_label. cbn. destruct (String.eqb_spec (label y) (label x)) as [E|E]; [|apply IH; auto].
    exfalso. apply Hi. rewrite E. now apply in_map.
Qed.
End Labels.

Lemma with_label_map {A B} (la : A -> string) (lb : B -> string) (g : A -> B) L l : (forall a, lb (g a) = la a) ->
  with_label lb L (map g l) = map g (with_label la L l).
Proof. intro H. unfold with_label. induction l as [|x l IH]; cbn; auto. rewrite H. destruct (String.eqb (la x) L); cbn; rewrite IH; auto. Qed.

(** sorted lists that correspond label by label correspond entry by entry *)
Lemma labels_align {A B} (la : A -> string) (lb : B -> string) (R : A -> B -> Prop) :
  forall a b, by_label la a -> by_label lb b -> (forall L, Forall2 R (with_label la L a) (with_label lb L b)) -> Forall2 R a b.
Proof.
  induction a as [|x a IH]; intros b Ha Hb HF.
  - destruct b as [|y b]; [constructor|]. specialize (HF (lb y)). rewrite with_label_cons in HF. inversion HF.
  - inversion Ha as [|? ? Ha' Hx]; subst. destruct b as [|y b].
    { specialize (HF (la x)). rewrite with_label_cons in HF. inversion HF. }
    inversion Hb as [|? ? Hb' Hy]; subst. rewrite Forall_forall in Hx, Hy.
    assert (E : la x = lb y).
    { destruct (label_total (la x) (lb y)) as [E|[E|E]]; auto; exfalso.
      - specialize (HF (la x)). rewrite with_label_cons in HF.
        rewrite (with_label_none lb) in HF; [inversion HF|]. intros z [<-|Hz] Ez; [rewrite Ez in E; now apply label_irrefl in E|].
        destruct (Hy z Hz) as [E'|E']; [rewrite E', Ez in E; now apply label_irrefl in E|]. rewrite Ez in E'. apply (label_irrefl (la x)). eapply label_trans; eauto.
      - specialize (HF (lb y)). rewrite with_label_cons in HF.
        rewrite (with_label_none la) in HF; [inversion HF|]. intros z [<-|Hz] Ez; [rewrite Ez in E; now apply label_irrefl in E|].
        destruct (Hx z Hz) as [E'|E']; [rewrite E', Ez in E; now apply label_irrefl in E|]. rewrite Ez in E'. apply (label_irrefl (lb y)). eapply label_trans; eauto. }
    assert (HR : R x y /\ forall L, Forall2 R (with_label la L a) (with_label lb L b)).
    { assert (HL : forall L, Forall2 R (with_label la L a) (with_label lb L b) /\ (L = la x -> R x y)).
      { intro L. specialize (HF L). unfold with_label in HF. cbn in HF. rewrite <- E in HF. destruct (String.eqb_spec (la x) L) as [El|El].
        - inversion HF; subst. split; auto.
        - split; auto. intro; congruence. }
      split; [apply (HL (la x)); auto|]. intro L; apply HL. }
    destruct HR as [HR HL]. constructor; auto.
Qed.

(** ** maps *)
Lemma in_bt_insert {V} k (v : V) m : StronglySorted string_before (map fst m) ->
  StronglySorted string_before (map fst (bt_insert k v m)) /\
  forall k' v', In (k', v') (bt_insert k v m) <-> (k' = k /\ v' = v) \/ (k' <> k /\ In (k', v') m).
Proof.
  destruct string_cmp_ok as [He Ho Ht]. induction m as [|[k1 v1] m IH]; cbn [bt_insert map fst]; intro Hs.
  - split; [repeat constructor|]. intros k' v'. cbn. split.
    + intros [E|[]]. inversion E; auto.
    + intros [[-> ->]|[_ []]]; auto.
  - inversion Hs as [|? ? Hs' Hk]; subst. rewrite Forall_forall in Hk. destruct (string_compare k k1) eqn:E.
    + apply He in E. subst k1. cbn [map fst]. split; [constructor; auto; now apply Forall_forall|]. intros k' v'. cbn. split.
      * intros [H|H]; [inversion H; auto|]. right. split; auto. intros ->. apply (label_irrefl k). apply Hk. apply in_map_iff. exists (k, v'). auto.
      * intros [[-> ->]|[Hn [H|H]]]; auto. inversion H; congruence.
    + apply string_compare_lt in E. cbn [map fst]. split.
      * constructor; [constructor; auto; now apply Forall_forall|]. constructor; auto. apply Forall_forall. intros z Hz. eapply label_trans; eauto.
      * intros k' v'. cbn. split.
        -- intros [H|[H|H]]; [inversion H; auto| |].
           ++ inversion H; subst. right. split; auto. intros ->. now apply label_irrefl in E.
           ++ right. split; auto. intros ->. apply (label_irrefl k). eapply label_trans; [exact E|]. apply Hk. apply in_map_iff. exists (k, v'). auto.
        -- intros [[-> ->]|[Hn [H|H]]]; auto.
    + assert (E' : string_before k1 k) by (apply string_compare_lt; rewrite Ho, E; auto). cbn [map fst].
      destruct (IH Hs') as [IH1 IH2]. split.
      * constructor; auto. apply Forall_forall. intros z Hz. apply in_map_iff in Hz. destruct Hz as ([z1 z2] & <- & Hz). apply IH2 in Hz. cbn.
        destruct Hz as [[-> _]|[_ Hz]]; auto. apply Hk. apply in_map_iff. exists (z1, z2). auto.
      * intros k' v'. cbn. rewrite IH2. split.
        -- intros [H|[H|[H1 H2]]]; auto. inversion H; subst. right. split; auto. intros ->. now apply label_irrefl in E'.
        -- intros [H|[Hn [H|H]]]; auto.
Qed.
(** the last entry for a key *)
Definition latest_entry {V} (l : list (string * V)) (k : string) (v : V) : Prop :=
  exists pre post, l = pre ++ (k, v) :: post /\ ~ In k (map fst post).
Lemma latest_snoc {V} (l : list (string * V)) p k v : latest_entry (l ++ [p]) k v <-> (k = fst p /\ v = snd p) \/ (k <> fst p /\ latest_entry l k v).
Proof.
  destruct p as [k0 v0]. cbn [fst snd]. split.
  - intros (pre & post & E & Hn). destruct post as [|y post] using rev_ind.
    + apply app_inj_tail in E. destruct E as [_ E]. inversion E; auto.
    + clear IHpost. rewrite map_app in Hn. cbn in Hn. rewrite in_app_iff in Hn. cbn in Hn. right.
      change (pre ++ (k, v) :: post ++ [y]) with (pre ++ ((k, v) :: post) ++ [y]) in E. rewrite app_assoc in E. apply app_inj_tail in E. destruct E as [E Ey].
      subst y. cbn in Hn. split; [intros ->; apply Hn; auto|]. exists pre, post. split; auto.
  - intros [[-> ->]|[Hn (pre & post & -> & Hp)]].
    + exists l, []. split; auto.
    + exists pre, (post ++ [(k0, v0)]). rewrite <- app_assoc. split; auto. rewrite map_app, in_app_iff. cbn. intros [H|[H|[]]]; auto.
Qed.
Lemma in_bt_collect {V} (l : list (string * V)) : StronglySorted string_before (map fst (bt_collect l)) /\
  forall k v, In (k, v) (bt_collect l) <-> latest_entry l k v.
Proof.
  unfold bt_collect. induction l as [|p l IH] using rev_ind; cbn.
  - split; [constructor|]. intros k v. split; [intros []|]. intros (pre & post & E & _). destruct pre; discriminate.
  - rewrite fold_left_app. cbn. destruct IH as [IH1 IH2]. destruct (in_bt_insert (fst p) (snd p) _ IH1) as [H1 H2]. split; auto.
    intros k v. rewrite H2, latest_snoc, IH2. tauto.
Qed.
Lemma sorted_keys_nodup l : StronglySorted string_before l -> NoDup l.
Proof.
  induction 1 as [|k l Hl IH Hk]; constructor; auto. intro H. rewrite Forall_forall in Hk. apply (label_irrefl k). auto.
Qed.
Lemma bt_get_spec {V} k (m : list (string * V)) v : NoDup (map fst m) -> (bt_get k m = Some v <-> In (k, v) m).
Proof.
  unfold bt_get. induction m as [|[k1 v1] m IH]; cbn; intro Hn.
  - split; [discriminate|intros []].
  - inversion Hn as [|? ? Hi Hn']; subst. destruct (String.eqb_spec k k1) as [->|E].
    + split; [intros [= ->]; auto|]. intros [H|H]; [inversion H; auto|]. exfalso. apply Hi. apply in_map_iff. exists (k1, v). auto.
    + rewrite IH; auto. split; auto. intros [H|H]; auto. inversion H; congruence.
Qed.
Lemma bt_get_none {V} k (m : list (string * V)) : bt_get k m = None <-> ~ In k (map fst m).
Proof.
  unfold bt_get. induction m as [|[k1 v1] m IH]; cbn; [tauto|]. destruct (String.eqb_spec k k1) as [->|E].
  - split; [discriminate|]. intro H. exfalso; auto.
  - rewrite IH. split; intros H; [intros [H'|H']; auto|auto].
Qed.

(** ** tasks *)
Lemma tasklist_spec inputs existing : output_map existing ->
  let tasks := make_sorted_tasklist inputs existing in
  by_label task_label tasks /\
  (forall L o, In (L, o) existing -> with_label task_label L tasks = [Reuse o]) /\
  (forall L, ~ In L (map fst existing) -> with_label task_label L tasks = map Analyze (with_label in_label L inputs)).
Proof.
  intros [Hs Hl]. unfold make_sorted_tasklist. cbv zeta.
  change (fun a b : task => string_compare (task_label a) (task_label b)) with (by_label_cmp task_label).
  set (new := filter_map _ inputs). split; [apply sorted_by_label|].
  assert (Hnew : forall L, with_label task_label L new = if is_none (bt_get L existing) then map Analyze (with_label in_label L inputs) else []).
  { intro L. unfold new, with_label. induction inputs as [|i inputs IH]; cbn; [destruct (is_none _); auto|].
    destruct (String.eqb_spec (in_label i) L) as [E|E].
    - rewrite E. destruct (is_none (bt_get L existing)) eqn:En; auto. cbn. rewrite (proj2 (String.eqb_eq _ _) E). f_equal. auto.
    - destruct (is_none (bt_get (in_label i) existing)); auto. cbn. rewrite (proj2 (String.eqb_neq _ _) E). auto. }
  assert (Hn := sorted_keys_nodup _ Hs).
  assert (Hold : forall L, with_label task_label L (map Reuse (map snd existing)) = map Reuse (with_label out_label L (map snd existing))).
  { intro L. now apply with_label_map. }
  split.
  - intros L o Ho. rewrite sort_with_label, with_label_app, Hnew, Hold. rewrite (proj2 (bt_get_spec L existing o Hn) Ho). cbn [is_none app].
    rewrite (distinct_with_label out_label L _ o); auto.
    + unfold distinct_labels. replace (map out_label (map snd existing)) with (map fst existing); auto. rewrite map_map.
      apply map_ext_in. intros [k v] H. cbn. symmetry. auto.
    + apply in_map_iff. exists (L, o). auto.
  - intros L HL. rewrite sort_with_label, with_label_app, Hnew, Hold. rewrite (proj2 (bt_get_none L existing) HL). cbn [is_none].
    rewrite (with_label_none out_label); [cbn; now rewrite app_nil_r|]. intros o Ho E. apply in_map_iff in Ho. destruct Ho as ([k v] & <- & Ho).
    cbn in E. apply HL. apply in_map_iff. exists (k, v). split; auto. cbn. rewrite <- E. symmetry; auto.
Qed.
Lemma outputs_spec rows : output_map (outputs_by_label rows) /\ forall L o, In (L, o) (outputs_by_label rows) <-> latest rows L o.
Proof.
  unfold outputs_by_label. set (l := map _ rows). destruct (in_bt_collect l) as [H1 H2].
  assert (H : forall L o, latest_entry l L o <-> latest rows L o).
  { intros L o. unfold l. clear. split.
    - intros (pre & post & E & Hn). assert (E' := E). apply map_eq_app in E. destruct E as (r1 & r2 & -> & <- & E2).
      destruct r2 as [|o' r2]; [discriminate|]. cbn in E2. inversion E2; subst. exists r1, r2. split; auto. split; auto.
      intros p Hp Ep. apply Hn. rewrite map_map. cbn. rewrite <- Ep. now apply in_map.
    - intros (pre & post & -> & Hl & Hn). exists (map (fun d => (out_label d, d)) pre), (map (fun d => (out_label d, d)) post).
      split; [rewrite map_app; cbn; now rewrite Hl|]. rewrite map_map. cbn. intro Hi. apply in_map_iff in Hi. destruct Hi as (p & Ep & Hp). now apply (Hn p). }
  split.
  - split; auto. intros L o Ho. apply H2, H in Ho. destruct Ho as (_ & _ & _ & E & _). auto.
  - intros L o. rewrite H2. apply H.
Qed.
Lemma distinct_latest rows o : distinct_labels out_label rows -> In o rows -> latest rows (out_label o) o.
Proof.
  intros Hn Ho. apply in_split in Ho. destruct Ho as (pre & post & ->). exists pre, post. split; auto. split; auto.
  intros p Hp E. unfold distinct_labels in Hn. rewrite map_app in Hn. cbn in Hn. apply NoDup_remove_2 in Hn. apply Hn.
  apply in_or_app. right. rewrite <- E. now apply in_map.
Qed.
Lemma latest_in rows L o : latest rows L o -> In o rows /\ out_label o = L.
Proof. intros (pre & post & -> & H & _). split; auto. apply in_or_app. right; left; auto. Qed.
Lemma labelled_latest rows o : In o rows -> exists o', latest rows (out_label o) o'.
Proof.
  induction rows as [|p rows IH] using rev_ind; [intros []|]. intro H. apply in_app_or in H.
  destruct (string_dec (out_label o) (out_label p)) as [E|E].
  - exists p. exists rows, []. split; auto.
  - destruct H as [H|[H|[]]]; [|subst; congruence]. destruct (IH H) as (o' & pre & post & -> & Hl & Hn). exists o', pre, (post ++ [p]).
    rewrite <- app_assoc. split; auto. split; auto. intros q Hq. apply in_app_or in Hq. destruct Hq as [Hq|[<-|[]]]; auto.
Qed.

(** ** runs *)
Section Runs.
Context (E : ext) (digest : json -> string) (files : path -> option json) (clock : input_data_point -> durations).
Notation run := (analyze_or_reuse E digest files clock).
Lemma write_rows_ext a b : Forall2 (fun t t' => run t = run t') a b -> write_rows E digest files clock a = write_rows E digest files clock b.
Proof. induction 1 as [|t t' a b H HF IH]; cbn [write_rows]; auto. rewrite H, IH. auto. Qed.
Lemma write_rows_complete tasks rows : write_rows E digest files clock tasks = (rows, true) -> Forall2 (fun t row => run t = Ok row) tasks rows.
Proof.
  revert rows. induction tasks as [|t tasks IH]; intros rows; cbn [write_rows].
  - intros [= <-]. constructor.
  - destruct (run t) as [row|] eqn:Er; [|discriminate]. destruct (write_rows E digest files clock tasks) as [rows' c] eqn:Ew.
    intros [= <- ->]. constructor; auto.
Qed.
Lemma write_rows_all tasks : (forall t, In t tasks -> exists row, run t = Ok row) -> exists rows, write_rows E digest files clock tasks = (rows, true).
Proof.
  induction tasks as [|t tasks IH]; intro H; cbn [write_rows]; [eauto|].
  destruct (H t) as (row & ->); [left; auto|]. destruct IH as (rows & ->); [intros; apply H; right; auto|]. eauto.
Qed.
Lemma bulk_analyze_label i row : bulk_analyze E digest files clock i = Ok row -> out_label row = in_label i.
Proof.
  unfold bulk_analyze. intro H.
  repeat match type of H with
  | bind ?x _ = Ok _ => destruct x as [?|]; cbn [bind] in H; [|discriminate]
  | (let '_ := ?p in _) = Ok _ => destruct p
  | (let (_, _) := ?p in _) = Ok _ => destruct p
  end. inversion H. auto.
Qed.
Lemma run_label t row : run t = Ok row -> out_label row = task_label t.
Proof. destruct t; cbn; [intros [= ->]; auto|apply bulk_analyze_label]. Qed.
Lemma rows_by_label tasks rows : Forall2 (fun t row => run t = Ok row) tasks rows -> by_label task_label tasks ->
  by_label out_label rows /\ forall L, Forall2 (fun t row => run t = Ok row) (with_label task_label L tasks) (with_label out_label L rows).
Proof.
  intros HF Hs. revert Hs. induction HF as [|t row tasks rows Hr HF IH]; intro Hs.
  - split; [constructor|]. intro L. constructor.
  - inversion Hs as [|? ? Hs' Ht]; subst. destruct (IH Hs') as [H1 H2]. split.
    + constructor; auto. rewrite Forall_forall in *. intros r' Hr'. clear -Hr HF Ht Hr'.
      assert (exists t', In t' tasks /\ run t' = Ok r') as (t' & Ht' & Er').
      { clear Ht. induction HF as [|u v tasks rows Hu HF IH]; [contradiction|]. destruct Hr' as [<-|Hr']; [exists u; split; auto; left; auto|].
        destruct (IH Hr') as (t' & H & H'). exists t'. split; auto. right; auto. }
      rewrite (run_label _ _ Hr), (run_label _ _ Er'). auto.
    + intro L. unfold with_label. cbn [filter]. rewrite (run_label _ _ Hr). destruct (String.eqb (task_label t) L); [constructor|]; auto; apply H2.
Qed.

Lemma run_from existing inputs : output_map existing -> (forall i, In i inputs -> ~ In (in_label i) (map fst existing) -> exists row, bulk_analyze E digest files clock i = Ok row) ->
  exists rows, write_rows E digest files clock (make_sorted_tasklist inputs existing) = (rows, true) /\ by_label out_label rows /\
  (forall L o, In (L, o) existing -> with_label out_label L rows = [o]) /\
  (forall L, ~ In L (map fst existing) ->
     Forall2 (fun i row => bulk_analyze E digest files clock i = Ok row) (with_label in_label L inputs) (with_label out_label L rows)).
Proof.
  intros Hm Ha. destruct (tasklist_spec inputs existing Hm) as (Hs & Ht1 & Ht2). set (tasks := make_sorted_tasklist inputs existing) in *.
  destruct (write_rows_all tasks) as (rows & Ew).
  { intros t Ht. assert (Hin : In t (with_label task_label (task_label t) tasks)) by (apply with_label_in; auto).
    destruct (bt_get (task_label t) existing) as [o|] eqn:Eg.
    - apply bt_get_spec in Eg; [|apply sorted_keys_nodup, Hm]. rewrite (Ht1 _ _ Eg) in Hin. destruct Hin as [<-|[]]. cbn. eauto.
    - apply bt_get_none in Eg. rewrite (Ht2 _ Eg) in Hin. apply in_map_iff in Hin. destruct Hin as (i & <- & Hi). apply with_label_in in Hi.
      destruct Hi as [Hi _]. cbn in *. apply Ha; auto. }
  exists rows. split; auto. destruct (rows_by_label tasks rows (write_rows_complete _ _ Ew) Hs) as [H1 H2]. split; auto. split.
  - intros L o Ho. specialize (H2 L). rewrite (Ht1 L o Ho) in H2. inversion H2 as [|? ? ? ? H3 H4]; subst. inversion H4; subst. inversion H3. auto.
  - intros L HL. specialize (H2 L). rewrite (Ht2 L HL) in H2. remember (with_label out_label L rows) as r eqn:Er. clear -H2.
    revert r H2. induction (with_label in_label L inputs) as [|i l IH]; cbn; intros r H; inversion H; subst; constructor; auto.
Qed.
Lemma empty_map : output_map [].
Proof. split; [constructor|intros L o []]. Qed.

Lemma fresh_run paths ignored inputs out : extract_inputs paths ignored = Ok (Some inputs) ->
  (forall i, In i inputs -> exists row, bulk_analyze E digest files clock i = Ok row) -> out = Stdout \/ out = File None ->
  exists rows, bulk_main E digest files clock paths ignored out false = Ok (Some (rows, true)) /\ by_label out_label rows /\
  forall L, Forall2 (fun i row => bulk_analyze E digest files clock i = Ok row) (with_label in_label L inputs) (with_label out_label L rows).
Proof.
  intros Hi Ha Ho. destruct (run_from [] inputs empty_map) as (rows & Ew & H1 & _ & H2); [intros; auto|].
  exists rows. unfold bulk_main. rewrite Hi. cbn [bind]. rewrite Ew. split; [destruct Ho as [->| ->]; auto|]. split; auto.
Qed.
Lemma update_run paths ignored inputs old : extract_inputs paths ignored = Ok (Some inputs) -> distinct_labels out_label old ->
  (forall i, In i inputs -> (forall o, In o old -> out_label o <> in_label i) -> exists row, bulk_analyze E digest files clock i = Ok row) ->
  exists rows, bulk_main E digest files clock paths ignored (File (Some old)) true = Ok (Some (rows, true)) /\ by_label out_label rows /\
  (forall o, In o old -> with_label out_label (out_label o) rows = [o]) /\
  (forall L, (forall o, In o old -> out_label o <> L) ->
     Forall2 (fun i row => bulk_analyze E digest files clock i = Ok row) (with_label in_label L inputs) (with_label out_label L rows)).
Proof.
  intros Hi Hd Ha. destruct (outputs_spec old) as [Hm Hin].
  assert (Hk : forall L, In L (map fst (outputs_by_label old)) <-> exists o, In o old /\ out_label o = L).
  { intro L. rewrite in_map_iff. split.
    - intros ([k o] & <- & H). apply Hin, latest_in in H. exists o. auto.
    - intros (o & Ho & <-). exists (out_label o, o). split; auto. apply Hin. now apply distinct_latest. }
  destruct (run_from (outputs_by_label old) inputs Hm) as (rows & Ew & H1 & H2 & H3).
  { intros i Hi' Hn. apply Ha; auto. intros o Ho El. apply Hn, Hk. eauto. }
  exists rows. unfold bulk_main. rewrite Hi. cbn [bind]. rewrite Ew. split; auto. split; auto. split.
  - intros o Ho. apply H2. apply Hin. now apply distinct_latest.
  - intros L HL. apply H3. rewrite Hk. intros (o & Ho & El). now apply (HL o).
Qed.

(** updating yields what analyzing everything at once yields *)
Lemma incremental_run paths1 paths2 ign1 ign2 inputs1 inputs2 rows1 :
  extract_inputs paths1 ign1 = Ok (Some inputs1) -> extract_inputs paths2 ign2 = Ok (Some inputs2) ->
  incl inputs1 inputs2 -> distinct_labels in_label inputs1 -> distinct_labels in_label inputs2 ->
  bulk_main E digest files clock paths1 ign1 (File None) false = Ok (Some (rows1, true)) ->
  bulk_main E digest files clock paths2 ign2 (File (Some rows1)) true = bulk_main E digest files clock paths2 ign2 Stdout false.
Proof.
  intros H1 H2 Hi Hd1 Hd2. unfold bulk_main. rewrite H1, H2. cbn [bind]. intro Hr.
  assert (Hw : write_rows E digest files clock (make_sorted_tasklist inputs1 []) = (rows1, true)) by congruence. clear Hr.
  apply write_rows_complete in Hw. destruct (tasklist_spec inputs1 [] empty_map) as (Hs1 & _ & Ht1).
  destruct (rows_by_label _ _ Hw Hs1) as [_ Hl1]. clear Hw.
  assert (Hrow : forall L, Forall2 (fun i row => bulk_analyze E digest files clock i = Ok row) (with_label in_label L inputs1) (with_label out_label L rows1)).
  { intro L. specialize (Hl1 L). rewrite (Ht1 L) in Hl1 by (intros []). remember (with_label out_label L rows1) as r eqn:Er. clear -Hl1.
    revert r Hl1. induction (with_label in_label L inputs1) as [|i l IH]; cbn; intros r H; inversion H; subst; constructor; auto. }
  do 2 f_equal. apply write_rows_ext. destruct (outputs_spec rows1) as [Hm Hin].
  destruct (tasklist_spec inputs2 (outputs_by_label rows1) Hm) as (Hs & Ht2 & Ht3). destruct (tasklist_spec inputs2 [] empty_map) as (Hs' & _ & Ht').
  apply (labels_align task_label task_label); auto. intro L. rewrite (Ht' L) by (intros []).
  destruct (bt_get L (outputs_by_label rows1)) as [o|] eqn:Eg.
  - apply bt_get_spec in Eg; [|apply sorted_keys_nodup, Hm]. rewrite (Ht2 L o Eg). apply Hin, latest_in in Eg. destruct Eg as [Ho Hol].
    assert (Hin1 : In o (with_label out_label L rows1)) by (apply with_label_in; auto).
    specialize (Hrow L). destruct (with_label in_label L inputs1) as [|i l] eqn:Ei; [inversion Hrow as [E0 E1|]; rewrite <- E1 in Hin1; contradiction|].
    assert (Hi1 : In i inputs1 /\ in_label i = L) by (apply with_label_in; rewrite Ei; left; auto). destruct Hi1 as [Hi1 Hil].
    rewrite (distinct_with_label in_label L inputs1 i Hd1 Hi1 Hil) in Ei. inversion Ei; subst l.
    rewrite (distinct_with_label in_label L inputs2 i Hd2 (Hi _ Hi1) Hil). cbn. inversion Hrow as [|? y ? r Ha Hb E2 E3]. inversion Hb; subst r. rewrite <- E3 in Hin1. destruct Hin1 as [->|[]]. constructor; [|constructor]. cbn. auto.
  - apply bt_get_none in Eg. rewrite (Ht3 L Eg). induction (map Analyze (with_label in_label L inputs2)); constructor; auto.
Qed.
Lemma write_rows_origin tasks rows c : write_rows E digest files clock tasks = (rows, c) -> forall row, In row rows -> exists t, In t tasks /\ run t = Ok row.
Proof.
  revert rows c. induction tasks as [|t tasks IH]; intros rows c; cbn [write_rows]; [intros [= <- _] row []|].
  destruct (run t) as [row'|] eqn:Er; [|intros [= <- _] row []]. destruct (write_rows E digest files clock tasks) as [rows' c'] eqn:Ew.
  intros [= <- _] row [<-|Hr]; [exists t; split; auto; left; auto|]. destruct (IH _ _ eq_refl row Hr) as (t' & Ht & Hrun). exists t'. split; auto. right; auto.
Qed.
Lemma complete_run paths ignored inputs out update rows complete : extract_inputs paths ignored = Ok (Some inputs) ->
  bulk_main E digest files clock paths ignored out update = Ok (Some (rows, complete)) ->
  (complete = true <-> forall i, In i inputs -> (forall o, found out update o -> out_label o <> in_label i) -> exists row, bulk_analyze E digest files clock i = Ok row) /\
  forall row, In row rows -> found out update row \/ exists i, In i inputs /\ bulk_analyze E digest files clock i = Ok row.
Proof.
  intros Hi Hr. unfold bulk_main in Hr. rewrite Hi in Hr. cbn [bind] in Hr.
  assert (Hex : exists existing, write_rows E digest files clock (make_sorted_tasklist inputs existing) = (rows, complete) /\ output_map existing /\
    (forall L o, In (L, o) existing -> found out update o) /\ (forall o, found out update o -> In (out_label o) (map fst existing))).
  { destruct update.
    - destruct out as [|[old|]]; cbn in Hr; [| |discriminate]; inversion Hr as [Hw]; clear Hr.
      + exists []. split; auto. split; [apply empty_map|]. split; [intros L o []|]. intros o (_ & old & H & _). discriminate.
      + destruct (outputs_spec old) as [Hm Hin]. exists (outputs_by_label old). split; auto. split; auto. split.
        * intros L o Ho. apply Hin, latest_in in Ho. split; auto. exists old. tauto.
        * intros o (_ & old' & [= <-] & Ho). clear -Hin Ho.
          assert (exists o', latest old (out_label o) o') as (o' & Hl).
          { clear Hin. revert o Ho. induction old as [|p old IH] using rev_ind; intros o Ho; [contradiction|].
            destruct (string_dec (out_label p) (out_label o)) as [E0|E0]; [exists p, old, []; repeat split; auto; intros ? []|].
            apply in_app_or in Ho. destruct Ho as [Ho|[->|[]]]; [|congruence]. destruct (IH o Ho) as (o' & pre & post & -> & Hl & Hp).
            exists o', pre, (post ++ [p]). split; [rewrite <- app_assoc; reflexivity|]. split; auto. intros q Hq. apply in_app_or in Hq.
            destruct Hq as [Hq|[<-|[]]]; auto. }
          apply in_map_iff. exists (out_label o, o'). split; auto. now apply Hin.
    - exists []. split; [destruct out as [|[old|]]; cbn in Hr; congruence|]. split; [apply empty_map|]. split; [intros L o []|]. intros o (H & _). discriminate. }
  destruct Hex as (existing & Hw & Hm & He1 & He2). destruct (tasklist_spec inputs existing Hm) as (Hs & Ht1 & Ht2).
  assert (Htask : forall t, In t (make_sorted_tasklist inputs existing) -> (exists o, t = Reuse o /\ found out update o) \/ (exists i, t = Analyze i /\ In i inputs /\ ~ In (in_label i) (map fst existing))).
  { intros t Ht. assert (Hin : In t (with_label task_label (task_label t) (make_sorted_tasklist inputs existing))) by (apply with_label_in; auto).
    destruct (bt_get (task_label t) existing) as [o|] eqn:Eg.
    - apply bt_get_spec in Eg; [|apply sorted_keys_nodup, Hm]. rewrite (Ht1 _ _ Eg) in Hin. destruct Hin as [<-|[]]. left. exists o. split; auto. apply (He1 _ _ Eg).
    - apply bt_get_none in Eg. rewrite (Ht2 _ Eg) in Hin. apply in_map_iff in Hin. destruct Hin as (i & <- & Hi'). apply with_label_in in Hi'.
      right. exists i. split; auto. split; [apply Hi'|]. cbn in Eg. exact Eg. }
  split.
  - split.
    + intros -> i Hin Hno. apply write_rows_complete in Hw.
      assert (Hn : ~ In (in_label i) (map fst existing)).
      { intro H. apply in_map_iff in H. destruct H as ([L o] & E0 & Ho). cbn in E0. apply (Hno o); [apply (He1 _ _ Ho)|]. rewrite (proj2 Hm _ _ Ho). auto. }
      assert (Ht : In (Analyze i) (make_sorted_tasklist inputs existing)).
      { apply (proj1 (with_label_in task_label (in_label i) _ (Analyze i))). rewrite (Ht2 _ Hn). apply in_map. apply with_label_in. auto. }
      clear -Hw Ht. induction Hw as [|t row ts rows H Hw IH]; [contradiction|]. destruct Ht as [->|Ht]; [cbn in H; eauto|auto].
    + intro H. destruct (write_rows_all (make_sorted_tasklist inputs existing)) as (rows' & Ew); [|congruence].
      intros t Ht. destruct (Htask t Ht) as [(o & -> & _)|(i & -> & Hin & Hn)]; [cbn; eauto|]. cbn. apply H; auto.
      intros o Ho E0. apply Hn. rewrite <- E0. now apply He2.
  - intros row Hrow. destruct (write_rows_origin _ _ _ Hw row Hrow) as (t & Ht & Hrun).
    destruct (Htask t Ht) as [(o & -> & Ho)|(i & -> & Hin & _)]; cbn in Hrun; [inversion Hrun; subst; auto|right; eauto].
Qed.
Lemma refused_run paths ignored : (forall rows, bulk_main E digest files clock paths ignored (File (Some rows)) false = Panic \/
    bulk_main E digest files clock paths ignored (File (Some rows)) false = Ok None) /\
  (bulk_main E digest files clock paths ignored (File None) true = Panic \/ bulk_main E digest files clock paths ignored (File None) true = Ok None).
Proof.
  unfold bulk_main. destruct (extract_inputs paths ignored) as [[inputs|]|]; cbn; split; intros; auto.
Qed.
End Runs.
