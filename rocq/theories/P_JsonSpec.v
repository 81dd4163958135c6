(** Reading JSON follows [Spec_Json.v]. *)
From Coq Require Import ZArith.
From Verif Require Export Spec_Json P_Json.
Local Open Scope string_scope.
Local Open Scope list_scope.

Definition reads {A} (g : json -> res A) (P : json -> A -> Prop) : Prop := forall j a, g j = Ok a <-> P j a.

Lemma text_reads : reads string_of_json means_text.
Proof. intros j a. unfold means_text. destruct j; cbn; split; intro H; try discriminate; inversion H; auto. Qed.
Lemma read_all_spec {A} (g : json -> res A) (P : json -> A -> Prop) l r : (forall j a, In j l -> (g j = Ok a <-> P j a)) -> (read_all g l = Ok r <-> Forall2 P l r).
Proof.
  revert r. induction l as [|j l IH]; intros r H; cbn [read_all].
  - split; [intros [= <-]; auto|intro HF; inversion HF; auto].
  - destruct (g j) as [a|] eqn:Ej; cbn [bind].
    + destruct (read_all g l) as [r'|] eqn:Er; cbn [bind].
      * split.
        -- intros [= <-]. constructor; [apply H; [left; auto|auto]|]. apply IH; [intros; apply H; right; auto|auto].
        -- intro HF. inversion HF as [|? b ? r'' Hb HF']; subst. apply H in Hb; [|left; auto]. apply IH in HF'; [|intros; apply H; right; auto]. congruence.
      * split; [discriminate|]. intro HF. inversion HF as [|? b ? r'' Hb HF']; subst. apply IH in HF'; [discriminate|intros; apply H; right; auto].
    + split; [discriminate|]. intro HF. inversion HF as [|? b ? r'' Hb HF']; subst. apply H in Hb; [congruence|left; auto].
Qed.
Lemma texts_reads : reads strings_of_json means_texts.
Proof.
  intros j r. unfold means_texts. destruct j; cbn [strings_of_json]; try (split; intro H; discriminate).
  rewrite (read_all_spec _ means_text); [|intros; apply text_reads]. unfold means_text. split.
  - intro H. f_equal. induction H; cbn; subst; auto.
  - intros [= ->]. induction r; cbn; constructor; auto.
Qed.
Lemma number_reads : reads u64_of_json means_number.
Proof.
  intros j n. unfold means_number. destruct j; cbn [u64_of_json]; try (split; [discriminate|intros [H _]; discriminate]).
  destruct ((0 <=? z) && (z <? 2 ^ 64))%Z eqn:E.
  - apply andb_true_iff in E. rewrite Z.leb_le, Z.ltb_lt in E. split.
    + intros [= <-]. rewrite Z2Nat.id by lia. split; [auto|lia].
    + intros [[= ->] _]. rewrite Nat2Z.id. auto.
  - split; [discriminate|]. intros [[= ->] H]. apply andb_false_iff in E. rewrite Z.leb_gt, Z.ltb_ge in E. lia.
Qed.
Lemma nullable_reads {A} (g : json -> res A) P : reads g P -> reads (option_of_json g) (nullable P).
Proof.
  intros H j o. unfold nullable. assert (D : j = JNull \/ j <> JNull) by (destruct j; auto; right; discriminate).
  destruct D as [->|Hj]; cbn [option_of_json].
  - destruct o; split; try discriminate; auto. intros [H1 _]. congruence.
  - assert (E : option_of_json g j = res_map Some (g j)) by (destruct j; auto; congruence). rewrite E. destruct (g j) as [a|] eqn:Eg; cbn.
    + destruct o as [b|]; split; try congruence.
      * intros [= <-]. split; auto. now apply H.
      * intros [_ Hb]. apply H in Hb. congruence.
    + destruct o as [b|]; split; try congruence. intros [_ Hb]. apply H in Hb. congruence.
Qed.

(** ** fields *)
Definition slot {A} (g : json -> res A) (k : string) (fields : list (string * json)) (old new : option A) : Prop :=
  (values_of k fields = [] /\ new = old) \/ (exists v a, old = None /\ values_of k fields = [v] /\ g v = Ok a /\ new = Some a).
Lemma slot_nil {A} (g : json -> res A) k old new : slot g k [] old new <-> new = old.
Proof. unfold slot. cbn. split; [intros [[_ H]|(v & a & _ & H & _)]; [auto|discriminate]|auto]. Qed.
Lemma slot_other {A} (g : json -> res A) k k' v fields old new : k' <> k -> (slot g k ((k', v) :: fields) old new <-> slot g k fields old new).
Proof. intro H. unfold slot, values_of. cbn [filter fst]. apply String.eqb_neq in H. rewrite H. tauto. Qed.
Lemma slot_same {A} (g : json -> res A) k v fields old new :
  slot g k ((k, v) :: fields) old new <-> exists x, set_field old (g v) = Ok x /\ slot g k fields x new.
Proof.
  unfold slot, values_of. cbn [filter fst]. rewrite String.eqb_refl. cbn [map snd]. split.
  - intros [[H _]|(v' & a & -> & H & Ha & ->)]; [discriminate|]. inversion H; subst. exists (Some a). cbn. rewrite Ha. cbn. split; auto.
  - intros (x & Hs & H). right. destruct old as [b|]; [discriminate|]. cbn in Hs. destruct (g v) as [a|] eqn:Eg; [|discriminate]. cbn in Hs. inversion Hs; subst x.
    destruct H as [[H ->]|(v' & a' & H & _)]; [|discriminate]. exists v, a. rewrite H. auto.
Qed.
Lemma slot_required {A} (g : json -> res A) P k fields a : reads g P -> (slot g k fields None (Some a) <-> required P k fields a).
Proof.
  intro H. unfold slot, required. split.
  - intros [[_ E]|(v & b & _ & Hv & Hg & [= <-])]; [discriminate|]. exists v. split; auto. now apply H.
  - intros (v & Hv & Hp). right. exists v, a. split; auto. split; auto. split; auto. now apply H.
Qed.
Lemma slot_optional {A} (g : json -> res A) P k fields default a : reads g P ->
  ((exists o, slot g k fields None o /\ a = match o with Some b => b | None => default end) <-> optional P default k fields a).
Proof.
  intro H. unfold optional. rewrite <- (slot_required g P k fields a H). split.
  - intros ([b|] & Hs & ->); [right; auto|]. left. destruct Hs as [[Hv _]|(v & b & _ & _ & _ & E)]; [auto|discriminate].
  - intros [[Hv ->]|Hs]; [exists None; split; auto; left; auto|exists (Some a); auto].
Qed.
Ltac fields_tac IH :=
  repeat match goal with |- context [String.eqb ?k ?s] => destruct (String.eqb_spec k s); [subst k|] end;
  repeat match goal with |- context [slot _ ?k ((?k, _) :: _) _ _] => rewrite slot_same | |- context [slot _ _ ((_, _) :: _) _ _] => rewrite slot_other by (assumption || discriminate) end.

(** *** quorum sets *)
Lemma qset_slots fields t vs is_ t' vs' is' : fold_fields qstep fields (t, vs, is_) = Ok (t', vs', is') <->
  slot u64_of_json "threshold" fields t t' /\ slot strings_of_json "validators" fields vs vs' /\ slot inner_of_json "innerQuorumSets" fields is_ is'.
Proof.
  revert t vs is_. induction fields as [|[k v] fields IH]; intros t vs is_; cbn [fold_fields bind].
  - rewrite !slot_nil. split; [intros [= -> -> ->]; auto|intros (-> & -> & ->); auto].
  - unfold qstep at 1. fields_tac IH.
    + destruct (set_field t (u64_of_json v)) as [x|]; cbn; [rewrite IH|].
      * split; [intros (H1 & H2 & H3); split; eauto|intros ((y & [= <-] & H1) & H2 & H3); auto].
      * split; [discriminate|intros ((y & H & _) & _); discriminate].
    + destruct (set_field vs (strings_of_json v)) as [x|]; cbn; [rewrite IH|].
      * split; [intros (H1 & H2 & H3); eauto 6|intros (H1 & (y & [= <-] & H2) & H3); auto].
      * split; [discriminate|intros (_ & (y & H & _) & _); discriminate].
    + destruct (set_field is_ (inner_of_json v)) as [x|]; cbn; [rewrite IH|].
      * split; [intros (H1 & H2 & H3); eauto 6|intros (H1 & H2 & (y & [= <-] & H3)); auto].
      * split; [discriminate|intros (_ & _ & (y & H & _)); discriminate].
    + cbn [bind]. apply IH.
Qed.
Lemma qset_reads' j : (forall q, raw_qset_of_json j = Ok q <-> means_qset j q) /\ (forall l, inner_of_json j = Ok l <-> exists js, j = JArr js /\ Forall2 means_qset js l).
Proof.
  induction j as [|b|z| |s|l IH|fields IH|] using json_ind'; (split; [intro q|intro r]);
    try (split; [discriminate|intro H; inversion H; fail]); try (split; [discriminate|intros (js & H & _); discriminate]).
  - assert (Hin : forall i r, In i l -> (inner_of_json i = Ok r <-> exists js, i = JArr js /\ Forall2 means_qset js r)) by (intros i r Hi; apply (IH i Hi)).
    destruct l as [|jt [|jvs [|ji [|x l]]]]; try (split; [discriminate|intro H; inversion H; fail]).
    + change (raw_qset_of_json (JArr [jt; jvs])) with (t' <- u64_of_json jt ;; vs' <- strings_of_json jvs ;; Ok (RQ t' vs' [])). split.
      * destruct (u64_of_json jt) as [t|] eqn:E1; [|discriminate]. destruct (strings_of_json jvs) as [vs|] eqn:E2; [|discriminate]. cbn.
        intros [= <-]. constructor; [now apply number_reads|now apply texts_reads].
      * intro H. inversion H as [| |? ? t vs Ht Hv|]; subst. apply number_reads in Ht. apply texts_reads in Hv. rewrite Ht, Hv. auto.
    + change (raw_qset_of_json (JArr [jt; jvs; ji])) with (t' <- u64_of_json jt ;; vs' <- strings_of_json jvs ;; is' <- inner_of_json ji ;; Ok (RQ t' vs' is')).
      specialize (Hin ji). split.
      * destruct (u64_of_json jt) as [t|] eqn:E1; [|discriminate]. destruct (strings_of_json jvs) as [vs|] eqn:E2; [|discriminate].
        destruct (inner_of_json ji) as [is_|] eqn:E3; [|discriminate]. cbn. intros [= <-].
        destruct (proj1 (Hin is_ (or_intror (or_intror (or_introl eq_refl)))) eq_refl) as (js & -> & HF).
        constructor; [now apply number_reads|now apply texts_reads|auto].
      * intro H. inversion H as [| | |? ? js t vs is_ Ht Hv HF]; subst. apply number_reads in Ht. apply texts_reads in Hv.
        rewrite Ht, Hv, (proj2 (Hin is_ (or_intror (or_intror (or_introl eq_refl))))); eauto.
  - cbn [inner_of_json]. rewrite (read_all_spec _ means_qset); [|intros i a Hi; apply (IH i Hi)]. split; [eauto|intros (js & [= ->] & H); auto].
  - rewrite raw_qset_of_json_obj, qset_fields_fold.
    assert (Hin : forall v r, In v (values_of "innerQuorumSets" fields) -> (inner_of_json v = Ok r <-> exists js, v = JArr js /\ Forall2 means_qset js r)).
    { intros v r Hv. unfold values_of in Hv. apply in_map_iff in Hv. destruct Hv as ([k v'] & E & Hv). cbn in E. subst v'. apply filter_In in Hv. destruct Hv as [Hv _].
      apply (proj2 (IH k v Hv)). }
    split.
    + destruct (fold_fields qstep fields (None, None, None)) as [[[t vs] is_]|] eqn:Ef; [|discriminate]. cbn [bind fst snd].
      destruct t as [t|]; [|discriminate]. destruct vs as [vs|]; [|discriminate]. cbn. intros [= <-]. apply qset_slots in Ef. destruct Ef as (H1 & H2 & H3).
      apply (slot_required _ means_number _ _ _ number_reads) in H1. apply (slot_required _ means_texts _ _ _ texts_reads) in H2.
      destruct H3 as [[Hv ->]|(v & a & _ & Hv & Hi & ->)]; [now apply means_leaf|].
      apply Hin in Hi; [|rewrite Hv; left; auto]. destruct Hi as (js & -> & HF). now apply (means_nested _ _ _ js).
    + intro H. inversion H as [? t vs H1 H2 H3|? t vs js is_ H1 H2 H3 HF| |]; subst;
        apply (slot_required _ means_number _ _ _ number_reads) in H1; apply (slot_required _ means_texts _ _ _ texts_reads) in H2.
      * rewrite (proj2 (qset_slots fields None None None (Some t) (Some vs) None)); [reflexivity|]. split; auto. split; auto. left. auto.
      * rewrite (proj2 (qset_slots fields None None None (Some t) (Some vs) (Some is_))); [reflexivity|]. split; auto. split; auto. right.
        exists (JArr js), is_. split; auto. split; auto. split; auto. apply Hin; [rewrite H3; left; auto|]. eauto.
Qed.
Lemma qset_reads : reads raw_qset_of_json means_qset.
Proof. intros j q. apply qset_reads'. Qed.

(** *** nodes *)
Lemma geo_slots fields c c' : fold_fields gstep fields c = Ok c' <-> slot (option_of_json string_of_json) "countryName" fields c c'.
Proof.
  revert c. induction fields as [|[k v] fields IH]; intro c; cbn [fold_fields bind].
  - rewrite slot_nil. split; congruence.
  - unfold gstep at 1. fields_tac IH; cbn [bind]; [|apply IH]. destruct (set_field c (option_of_json string_of_json v)) as [x|]; cbn [bind]; [rewrite IH|].
    + split; [eauto|intros (y & [= <-] & H); auto].
    + split; [discriminate|intros (y & H & _); discriminate].
Qed.
Lemma geo_reads : reads raw_geo_of_json means_geo.
Proof.
  assert (Hn := nullable_reads _ _ text_reads).
  intros j c. destruct j as [|b|z| |s|l|fields|]; try (split; [discriminate|intro H; inversion H; fail]).
  - destruct l as [|x [|y l]]; try (split; [discriminate|intro H; inversion H; fail]). cbn [raw_geo_of_json]. rewrite (Hn x c). split; [now constructor|intro H; inversion H; auto].
  - cbn [raw_geo_of_json]. rewrite geo_fields_fold. transitivity (optional (nullable means_text) None "countryName" fields c); [|split; [now constructor|intro H; inversion H; auto]].
    rewrite <- (slot_optional _ _ _ _ _ _ Hn). setoid_rewrite <- geo_slots. split.
    + destruct (fold_fields gstep fields None) as [o|]; [|discriminate]. cbn. intros [= <-]. eauto.
    + intros (o & -> & ->). reflexivity.
Qed.
Lemma node_slots fields pk q isp geo pk' q' isp' geo' : fold_fields nstep fields (pk, q, isp, geo) = Ok (pk', q', isp', geo') <->
  slot string_of_json "publicKey" fields pk pk' /\ slot raw_qset_of_json "quorumSet" fields q q' /\
  slot (option_of_json string_of_json) "isp" fields isp isp' /\ slot (option_of_json raw_geo_of_json) "geoData" fields geo geo'.
Proof.
  revert pk q isp geo. induction fields as [|[k v] fields IH]; intros pk q isp geo; cbn [fold_fields bind].
  - rewrite !slot_nil. split; [intros [= -> -> -> ->]; auto|intros (-> & -> & -> & ->); auto].
  - unfold nstep at 1. fields_tac IH.
    + destruct (set_field pk (string_of_json v)) as [x|]; cbn [res_map bind]; [rewrite IH|].
      * split; [intros (H1 & H2 & H3 & H4); eauto 8|intros ((y & [= <-] & H1) & H2 & H3 & H4); auto].
      * split; [discriminate|intros ((y & H & _) & _); discriminate].
    + destruct (set_field q (raw_qset_of_json v)) as [x|]; cbn [res_map bind]; [rewrite IH|].
      * split; [intros (H1 & H2 & H3 & H4); eauto 8|intros (H1 & (y & [= <-] & H2) & H3 & H4); auto].
      * split; [discriminate|intros (_ & (y & H & _) & _); discriminate].
    + destruct (set_field isp (option_of_json string_of_json v)) as [x|]; cbn [res_map bind]; [rewrite IH|].
      * split; [intros (H1 & H2 & H3 & H4); eauto 8|intros (H1 & H2 & (y & [= <-] & H3) & H4); auto].
      * split; [discriminate|intros (_ & _ & (y & H & _) & _); discriminate].
    + destruct (set_field geo (option_of_json raw_geo_of_json v)) as [x|]; cbn [res_map bind]; [rewrite IH|].
      * split; [intros (H1 & H2 & H3 & H4); eauto 8|intros (H1 & H2 & H3 & (y & [= <-] & H4)); auto].
      * split; [discriminate|intros (_ & _ & _ & (y & H & _)); discriminate].
    + cbn [bind]. apply IH.
Qed.
Lemma node_reads : reads raw_node_of_json means_node.
Proof.
  assert (Hn := nullable_reads _ _ text_reads). assert (Hg := nullable_reads _ _ geo_reads).
  intros j n. destruct j as [|b|z| |s|l|fields|]; try (split; [discriminate|intro H; inversion H; fail]).
  - destruct l as [|j1 [|j2 [|j3 [|j4 [|j5 l]]]]]; try (split; [discriminate|intro H; inversion H; fail]). cbn [raw_node_of_json]. split.
    + destruct (string_of_json j1) eqn:E1; [|discriminate]. destruct (raw_qset_of_json j2) eqn:E2; [|discriminate].
      destruct (option_of_json string_of_json j3) eqn:E3; [|discriminate]. destruct (option_of_json raw_geo_of_json j4) eqn:E4; [|discriminate]. cbn.
      intros [= <-]. constructor; [now apply text_reads|now apply qset_reads|now apply Hn|now apply Hg].
    + intro H. inversion H as [|? ? ? ? pk q isp geo H1 H2 H3 H4]; subst. apply text_reads in H1. apply qset_reads in H2. apply Hn in H3. apply Hg in H4.
      rewrite H1, H2, H3, H4. reflexivity.
  - cbn [raw_node_of_json]. rewrite node_fields_fold. split.
    + destruct (fold_fields nstep fields (None, None, None, None)) as [[[[pk q] isp] geo]|] eqn:Ef; [|discriminate]. cbn [bind nfinish].
      destruct pk as [pk|]; [|discriminate]. cbn. intros [= <-]. apply node_slots in Ef. destruct Ef as (H1 & H2 & H3 & H4). constructor.
      * now apply (slot_required _ _ _ _ _ text_reads).
      * apply (slot_optional _ _ _ _ _ _ qset_reads). eauto.
      * apply (slot_optional _ _ _ _ _ _ Hn). eauto.
      * apply (slot_optional _ _ _ _ _ _ Hg). eauto.
    + intro H. inversion H as [? pk q isp geo H1 H2 H3 H4|]; subst. apply (slot_required _ _ _ _ _ text_reads) in H1.
      apply (slot_optional _ _ _ _ _ _ qset_reads) in H2. apply (slot_optional _ _ _ _ _ _ Hn) in H3. apply (slot_optional _ _ _ _ _ _ Hg) in H4.
      destruct H2 as (oq & H2 & ->), H3 as (oi & H3 & ->), H4 as (og & H4 & ->).
      rewrite (proj2 (node_slots fields None None None None (Some pk) oq oi og)); [reflexivity|auto].
Qed.

(** *** groups *)
Lemma group_slots fields name vs name' vs' : fold_fields ostep fields (name, vs) = Ok (name', vs') <->
  slot string_of_json "name" fields name name' /\ slot strings_of_json "validators" fields vs vs'.
Proof.
  revert name vs. induction fields as [|[k v] fields IH]; intros name vs; cbn [fold_fields bind].
  - rewrite !slot_nil. split; [intros [= -> ->]; auto|intros (-> & ->); auto].
  - unfold ostep at 1. fields_tac IH.
    + destruct (set_field name (string_of_json v)) as [x|]; cbn [res_map bind]; [rewrite IH|].
      * split; [intros (H1 & H2); eauto 8|intros ((y & [= <-] & H1) & H2); auto].
      * split; [discriminate|intros ((y & H & _) & _); discriminate].
    + destruct (set_field vs (strings_of_json v)) as [x|]; cbn [res_map bind]; [rewrite IH|].
      * split; [intros (H1 & H2); eauto 8|intros (H1 & (y & [= <-] & H2)); auto].
      * split; [discriminate|intros (_ & (y & H & _)); discriminate].
    + cbn [bind]. apply IH.
Qed.
Lemma group_reads : reads raw_grouping_of_json means_group.
Proof.
  intros j n. destruct j as [|b|z| |s|l|fields|]; try (split; [discriminate|intro H; inversion H; fail]).
  - destruct l as [|j1 [|j2 [|j3 l]]]; try (split; [discriminate|intro H; inversion H; fail]). cbn [raw_grouping_of_json]. split.
    + destruct (string_of_json j1) eqn:E1; [|discriminate]. destruct (strings_of_json j2) eqn:E2; [|discriminate]. cbn.
      intros [= <-]. constructor; [now apply text_reads|now apply texts_reads].
    + intro H. inversion H as [|? ? name vs H1 H2]; subst. apply text_reads in H1. apply texts_reads in H2. rewrite H1, H2. reflexivity.
  - cbn [raw_grouping_of_json]. rewrite grouping_fields_fold. split.
    + destruct (fold_fields ostep fields (None, None)) as [[name vs]|] eqn:Ef; [|discriminate]. cbn [bind fst snd].
      destruct name as [name|]; [|discriminate]. destruct vs as [vs|]; [|discriminate]. cbn. intros [= <-]. apply group_slots in Ef. destruct Ef as (H1 & H2). constructor.
      * now apply (slot_required _ _ _ _ _ text_reads).
      * now apply (slot_required _ _ _ _ _ texts_reads).
    + intro H. inversion H as [? name vs H1 H2|]; subst. apply (slot_required _ _ _ _ _ text_reads) in H1. apply (slot_required _ _ _ _ _ texts_reads) in H2.
      rewrite (proj2 (group_slots fields None None (Some name) (Some vs))); [reflexivity|auto].
Qed.
Lemma all_reads {A} (g : json -> res A) P : reads g P -> forall j l, match j with JArr js => read_all g js | _ => Panic end = Ok l <-> means_all P j l.
Proof.
  intros H j l. unfold means_all. destruct j as [|b|z| |s|js|fields|]; try (split; [discriminate|intros (x & E & _); discriminate]).
  rewrite (read_all_spec g P); [|intros; apply H]. split; [eauto|intros (x & [= ->] & HF); auto].
Qed.
Lemma fbas_reads : reads raw_fbas_of_json (means_all means_node).
Proof. exact (all_reads _ _ node_reads). Qed.
Lemma groups_reads : reads raw_groupings_of_json (means_all means_group).
Proof. exact (all_reads _ _ group_reads). Qed.
Lemma fbas_json_reads j f : fbas_from_json j = Ok f <-> exists l, means_all means_node j l /\ f = fbas_from_raw l.
Proof.
  unfold fbas_from_json. split.
  - destruct (raw_fbas_of_json j) as [l|] eqn:E; [|discriminate]. cbn. intros [= <-]. exists l. split; auto. now apply fbas_reads.
  - intros (l & H & ->). apply fbas_reads in H. rewrite H. auto.
Qed.
