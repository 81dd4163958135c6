(** Lemmas about reading JSON trees. *)
From Coq Require Import Ascii ZArith.
From Verif Require Export P_IO.
Local Open Scope list_scope.

Lemma json_ind' (P : json -> Prop) :
  P JNull -> (forall b, P (JBool b)) -> (forall z, P (JInt z)) -> P JFloat -> (forall s, P (JStr s)) ->
  (forall l, (forall j, In j l -> P j) -> P (JArr l)) ->
  (forall fields, (forall k v, In (k, v) fields -> P v) -> P (JObj fields)) -> P JIgnorable -> forall j, P j.
Proof.
  intros H1 H2 H3 H4 H5 HA HO HI. fix IH 1. intros [|b|z| |s|l|fields|]; [exact H1|apply H2|apply H3|exact H4|apply H5| | |exact HI].
  - apply HA. revert l. fix IHl 1. intros [|a l] j Hj; [destruct Hj|]. destruct Hj as [<-|Hj]; [apply IH|]. eapply IHl; eauto.
  - apply HO. revert fields. fix IHl 1. intros [|[k0 v0] l] k v Hj; [destruct Hj|]. destruct Hj as [Hj|Hj].
    + assert (E : v0 = v) by congruence. rewrite <- E. apply IH.
    + eapply IHl; eauto.
Qed.

(** ** writing and reading *)
Lemma read_all_map {A B} (g : A -> res B) (h : B -> A) l : (forall b, In b l -> g (h b) = Ok b) -> read_all g (map h l) = Ok l.
Proof.
  induction l as [|b l IH]; intro H; simpl; auto. rewrite H by (left; auto). simpl. rewrite IH; auto. intros; apply H; right; auto.
Qed.
Lemma strings_read l : strings_of_json (JArr (map JStr l)) = Ok l.
Proof. apply read_all_map. auto. Qed.
Lemma u64_read t : (Z.of_nat t < 2 ^ 64)%Z -> u64_of_json (JInt (Z.of_nat t)) = Ok t.
Proof.
  intro H. unfold u64_of_json. rewrite (proj2 (Z.leb_le _ _)) by lia. rewrite (proj2 (Z.ltb_lt _ _)) by auto. cbn. rewrite Nat2Z.id. auto.
Qed.
Lemma qset_read q : small_raw q -> raw_qset_of_json (json_of_raw_qset q) = Ok q.
Proof.
  induction q as [t vs is_ IH] using raw_qset_ind'. intro H. inversion H as [? ? ? Ht Hi]; subst.
  assert (E : read_all raw_qset_of_json (map json_of_raw_qset is_) = Ok is_).
  { apply read_all_map. intros i Hin. apply IH; auto. rewrite Forall_forall in Hi. auto. }
  destruct is_ as [|i is_].
  - cbn -[u64_of_json strings_of_json]. rewrite u64_read by auto. cbn -[strings_of_json]. rewrite strings_read. auto.
  - cbn -[u64_of_json strings_of_json read_all map]. rewrite u64_read by auto. cbn -[strings_of_json read_all map]. rewrite strings_read.
    cbn -[read_all map]. rewrite E. auto.
Qed.
Lemma node_read n : small_raw (raw_quorum_set n) -> raw_node_of_json (json_of_raw_node n) = Ok n.
Proof.
  destruct n as [pk q [i|] [c|]]; intro H; simpl in H; cbn -[raw_qset_of_json json_of_raw_qset]; rewrite qset_read by auto; cbn; auto; destruct c; auto.
Qed.
Lemma raw_fbas_read l : small_raw_fbas l -> raw_fbas_of_json (json_of_raw_fbas l) = Ok l.
Proof. intro H. apply read_all_map. intros n Hn. apply node_read. auto. Qed.
Lemma raw_groupings_read l : raw_groupings_of_json (json_of_raw_groupings l) = Ok l.
Proof.
  apply read_all_map. intros [name vs] _. cbn -[strings_of_json]. rewrite strings_read. auto.
Qed.

(** ** what was read is small *)
Lemma read_all_inv {A B} (g : A -> res B) l r : read_all g l = Ok r -> Forall2 (fun a b => g a = Ok b) l r.
Proof.
  revert r. induction l as [|a l IH]; intros r H; simpl in H.
  - inversion H; constructor.
  - destruct (g a) as [b|] eqn:E; [|discriminate]. simpl in H. destruct (read_all g l) as [r'|] eqn:E'; [|discriminate]. inversion H. constructor; auto.
Qed.
Lemma u64_small j t : u64_of_json j = Ok t -> (Z.of_nat t < 2 ^ 64)%Z.
Proof.
  destruct j; try discriminate. unfold u64_of_json. destruct (0 <=? z)%Z eqn:E1; [|discriminate]. destruct (z <? 2 ^ 64)%Z eqn:E2; [|discriminate].
  apply Z.leb_le in E1. apply Z.ltb_lt in E2. cbn [andb]. intro H. inversion H. rewrite Z2Nat.id; auto.
Qed.

(** the field loop of [raw_qset_of_json] under a name *)
Definition inner_of_json (v : json) : res (list raw_qset) := match v with JArr l => read_all raw_qset_of_json l | _ => Panic end.
Fixpoint qset_fields (fields : list (string * json)) (t : option nat) (vs : option (list string)) (is_ : option (list raw_qset)) : res raw_qset :=
  match fields with
  | [] => t' <- unwrap t ;; vs' <- unwrap vs ;; Ok (RQ t' vs' (match is_ with Some is' => is' | None => [] end))
  | (k, v) :: fields' =>
      if String.eqb k "threshold" then t' <- set_field t (u64_of_json v) ;; qset_fields fields' t' vs is_
      else if String.eqb k "validators" then vs' <- set_field vs (strings_of_json v) ;; qset_fields fields' t vs' is_
      else if String.eqb k "innerQuorumSets" then is' <- set_field is_ (inner_of_json v) ;; qset_fields fields' t vs is'
      else qset_fields fields' t vs is_
  end.
Lemma raw_qset_of_json_obj fields : raw_qset_of_json (JObj fields) = qset_fields fields None None None.
Proof. reflexivity. Qed.

Lemma set_field_inv {A} (o : option A) r o' : set_field o r = Ok o' -> o = None /\ exists a, r = Ok a /\ o' = Some a.
Proof. destruct o; [discriminate|]. destruct r; [|discriminate]. cbn. intro H. inversion H. eauto. Qed.

Definition small_inner (is_ : option (list raw_qset)) := match is_ with Some l => Forall small_raw l | None => True end.
Definition small_t (t : option nat) := match t with Some n => (Z.of_nat n < 2 ^ 64)%Z | None => True end.

Lemma read_qset_small' j : (forall q, raw_qset_of_json j = Ok q -> small_raw q) /\ (forall is', inner_of_json j = Ok is' -> Forall small_raw is').
Proof.
  induction j as [|b|z| |s|l IH|fields IH|] using json_ind'; try (split; discriminate).
  - split.
    + intros q H. destruct l as [|t [|vs [|is_ [|? ?]]]]; try discriminate.
      * cbn -[u64_of_json strings_of_json] in H. destruct (u64_of_json t) as [t'|] eqn:Et; [|discriminate]. cbn -[strings_of_json] in H.
        destruct (strings_of_json vs) as [vs'|]; [|discriminate]. inversion H. constructor; [eapply u64_small; eauto|constructor].
      * cbn -[u64_of_json strings_of_json] in H. destruct (u64_of_json t) as [t'|] eqn:Et; [|discriminate]. cbn -[strings_of_json] in H.
        destruct (strings_of_json vs) as [vs'|]; [|discriminate]. cbn [bind] in H. fold (inner_of_json is_) in H.
        destruct (inner_of_json is_) as [is'|] eqn:Ei; [|discriminate]. inversion H. constructor; [eapply u64_small; eauto|].
        apply (IH is_); auto. right; right; left; auto.
    + intros is' H. cbn in H. apply read_all_inv in H. apply Forall_forall. intros q Hq.
      destruct (Forall2_in_r _ _ _ q H Hq) as (j & Hj & Ej). apply (proj1 (IH j Hj)). auto.
  - split; [|discriminate]. intros q. rewrite raw_qset_of_json_obj.
    assert (G : forall t vs is_, small_t t -> small_inner is_ -> qset_fields fields t vs is_ = Ok q -> small_raw q); [|apply G; constructor].
    induction fields as [|[k v] fields IHf]; intros t vs is_ Ht Hi; cbn [qset_fields].
    + destruct t; [|discriminate]. destruct vs; [|discriminate]. cbn. intro H. inversion H. constructor; auto. destruct is_; auto.
    + assert (IHf' : forall t vs is_, small_t t -> small_inner is_ -> qset_fields fields t vs is_ = Ok q -> small_raw q).
      { apply IHf. intros k' v' Hin. apply (IH k' v'). right; auto. }
      repeat match goal with |- context [if ?c then _ else _] => destruct c end; eauto.
      * destruct (set_field t (u64_of_json v)) as [t'|] eqn:E; [|discriminate]. apply set_field_inv in E. destruct E as (-> & a & E & ->).
        cbn. apply IHf'; auto. eapply u64_small; eauto.
      * destruct (set_field vs (strings_of_json v)) as [t'|] eqn:E; [|discriminate]. cbn. apply IHf'; auto.
      * destruct (set_field is_ (inner_of_json v)) as [t'|] eqn:E; [|discriminate]. apply set_field_inv in E. destruct E as (-> & a & E & ->).
        cbn. apply IHf'; auto. apply (proj2 (IH k v (or_introl eq_refl))). auto.
Qed.
Lemma read_qset_small j q : raw_qset_of_json j = Ok q -> small_raw q.
Proof. apply (proj1 (read_qset_small' j)). Qed.

Lemma node_fields_small fields : forall pk q isp geo n, (forall q', q = Some q' -> small_raw q') ->
  raw_node_fields fields pk q isp geo = Ok n -> small_raw (raw_quorum_set n).
Proof.
  induction fields as [|[k v] fields IH]; intros pk q isp geo n Hq; cbn [raw_node_fields].
  - destruct pk; [|discriminate]. cbn. intro H. inversion H; subst n. cbn. destruct q; auto. constructor; [cbn; lia|constructor].
  - repeat match goal with |- context [if ?c then _ else _] => destruct c end; eauto.
    + destruct (set_field pk (string_of_json v)) eqn:E; [|discriminate]. cbn. eauto.
    + destruct (set_field q (raw_qset_of_json v)) eqn:E; [|discriminate]. apply set_field_inv in E. destruct E as (-> & r & E & ->). cbn. apply IH.
      intros q' H. inversion H; subst. eapply read_qset_small; eauto.
    + destruct (set_field isp (option_of_json string_of_json v)) eqn:E; [|discriminate]. cbn. eauto.
    + destruct (set_field geo (option_of_json raw_geo_of_json v)) eqn:E; [|discriminate]. cbn. eauto.
Qed.
Lemma read_node_small j n : raw_node_of_json j = Ok n -> small_raw (raw_quorum_set n).
Proof.
  destruct j as [| | | | |l|fields|]; try discriminate.
  - destruct l as [|pk [|q [|i [|g [|? ?]]]]]; try discriminate. cbn [raw_node_of_json].
    destruct (string_of_json pk); [|discriminate]. cbn [bind]. destruct (raw_qset_of_json q) eqn:E; [|discriminate]. cbn [bind].
    destruct (option_of_json string_of_json i); [|discriminate]. cbn [bind]. destruct (option_of_json raw_geo_of_json g); [|discriminate]. cbn [bind].
    intro H. inversion H; cbn. eapply read_qset_small; eauto.
  - intro H. eapply (node_fields_small fields None None); eauto. discriminate.
Qed.
Lemma read_fbas_small j l : raw_fbas_of_json j = Ok l -> small_raw_fbas l.
Proof.
  destruct j as [| | | | |js| |]; try discriminate. intro H. apply read_all_inv in H. intros n Hn.
  destruct (Forall2_in_r _ _ _ n H Hn) as (j & Hj & Ej). eapply read_node_small; eauto.
Qed.

Lemma from_raw_small q m : small_raw q -> small_qset (qset_from_raw q m).
Proof.
  induction q as [t vs is_ IH] using raw_qset_ind'. intro H. inversion H as [? ? ? Ht Hi]; subst. cbn. constructor; auto.
  rewrite Forall_forall in *. intros i Hin. apply sort_by_in, in_map_iff in Hin. destruct Hin as (j & <- & Hj). auto.
Qed.
Lemma to_raw_small q f : small_qset q -> small_raw (qset_to_raw q f).
Proof.
  induction q as [t vs is_ IH] using qset_ind'. intro H. inversion H as [? ? ? Ht Hi]; subst. cbn. constructor; auto.
  rewrite Forall_forall in *. intros i Hin. apply in_map_iff in Hin. destruct Hin as (j & <- & Hj). auto.
Qed.
Lemma fbas_from_raw_small l : small_raw_fbas l -> small_fbas (fbas_from_raw l).
Proof.
  intros H x q (n & Hn & <-). cbn in Hn. fold (key_map l) in Hn. apply nth_error_In, in_map_iff in Hn. destruct Hn as (r & <- & Hr).
  apply from_raw_small. auto.
Qed.
Lemma fbas_to_raw_small f : small_fbas f -> small_raw_fbas (fbas_to_raw f).
Proof.
  intros H n Hn. apply in_map_iff in Hn. destruct Hn as (r & <- & Hr). apply to_raw_small. apply In_nth_error in Hr. destruct Hr as (x & Hx).
  apply (H x). exists r; auto.
Qed.
Lemma fbas_written f : small_fbas f -> fbas_from_json (fbas_to_json f) = Ok (fbas_from_raw (fbas_to_raw f)).
Proof. intro H. unfold fbas_from_json, fbas_to_json. rewrite raw_fbas_read by (apply fbas_to_raw_small; auto). auto. Qed.
Lemma fbas_from_json_inv j f : fbas_from_json j = Ok f -> exists l, raw_fbas_of_json j = Ok l /\ f = fbas_from_raw l.
Proof. unfold fbas_from_json. destruct (raw_fbas_of_json j); [|discriminate]. cbn. intro H. inversion H. eauto. Qed.
Lemma json_round_trip j f : fbas_from_json j = Ok f -> fbas_from_json (fbas_to_json f) = Ok f.
Proof.
  intro H. apply fbas_from_json_inv in H. destruct H as (l & Hl & ->). rewrite fbas_written.
  - rewrite round_trip. auto.
  - apply fbas_from_raw_small. eapply read_fbas_small; eauto.
Qed.

(** ** similar trees *)
Definition unknown (extra : list (string * json)) := forall k v, In (k, v) extra -> ~ In k known_fields.

Ltac unknown_key H :=
  repeat match goal with
  | |- context [String.eqb ?k ?s] => let E := fresh in destruct (String.eqb k s) eqn:E; [apply string_eqb_eq in E; subst k; exfalso; apply H; cbn; tauto|]
  end.
Ltac step1 := match goal with |- context [bind ?e _] => destruct e eqn:?; cbn [bind]; auto end.

(** any reader that folds over the fields *)
Section Fields.
Context {A : Type} (step : string -> json -> A -> res A).
Hypothesis Hcomm : forall k v k' v' a, bind (step k v a) (step k' v') = bind (step k' v' a) (step k v).
Hypothesis Hunknown : forall k v a, ~ In k known_fields -> step k v a = Ok a.
Fixpoint fold_fields (fields : list (string * json)) (a : A) : res A :=
  match fields with [] => Ok a | (k, v) :: fields' => a' <- step k v a ;; fold_fields fields' a' end.
Lemma fold_perm l l' : Permutation l l' -> forall a, fold_fields l a = fold_fields l' a.
Proof.
  induction 1 as [|[k v] l l' H IH|[k v] [k' v'] l|l1 l2 l3 H1 IH1 H2 IH2]; intro a; cbn [fold_fields]; auto.
  - destruct (step k v a); cbn; auto.
  - specialize (Hcomm k v k' v' a). destruct (step k v a) as [b|]; destruct (step k' v' a) as [c|]; cbn [bind] in *.
    + rewrite <- Hcomm. auto.
    + rewrite Hcomm. auto.
    + rewrite <- Hcomm. auto.
    + auto.
  - rewrite IH1. auto.
Qed.
Lemma fold_extra l extra : unknown extra -> forall a, fold_fields (l ++ extra) a = fold_fields l a.
Proof.
  intro H. induction l as [|[k v] l IH]; intro a; cbn [fold_fields app].
  - induction extra as [|[k v] extra IHe]; cbn [fold_fields]; auto. rewrite Hunknown by (apply (H k v); left; auto). cbn [bind]. apply IHe. intros k' v' Hin. apply (H k' v'). right; auto.
  - destruct (step k v a); cbn [bind]; auto.
Qed.
Lemma fold_similar l l1 : Forall2 (fun a b => fst a = fst b /\ json_similar (snd a) (snd b)) l l1 ->
  (forall k v, In (k, v) l -> forall v', json_similar v v' -> forall a, step k v a = step k v' a) -> forall a, fold_fields l a = fold_fields l1 a.
Proof.
  induction 1 as [|[k v] [k' v'] l l1 [Hk Hv] HF IH]; intros Hs a; cbn [fold_fields]; auto. cbn in Hk, Hv. subst k'.
  rewrite (Hs k v (or_introl eq_refl) v' Hv). destruct (step k v' a); cbn [bind]; auto. apply IH. intros k0 v0 Hin. apply Hs. right; auto.
Qed.
Lemma fold_similar_obj l l1 extra l' :
  Forall2 (fun a b => fst a = fst b /\ json_similar (snd a) (snd b)) l l1 -> unknown extra -> Permutation (l1 ++ extra) l' ->
  (forall k v, In (k, v) l -> forall v', json_similar v v' -> forall a, step k v a = step k v' a) -> forall a, fold_fields l a = fold_fields l' a.
Proof. intros HF Hx Hp Hs a. rewrite <- (fold_perm _ _ Hp). rewrite fold_extra by auto. apply fold_similar; auto. Qed.
End Fields.

Lemma similar_string j j' : json_similar j j' -> string_of_json j = string_of_json j'.
Proof. intro H. inversion H; subst; auto. Qed.
Lemma similar_u64 j j' : json_similar j j' -> u64_of_json j = u64_of_json j'.
Proof. intro H. inversion H; subst; auto. Qed.
Lemma read_all_ext {A B} (g : A -> res B) l l' (R : A -> A -> Prop) : Forall2 R l l' -> (forall a b, In a l -> R a b -> g a = g b) -> read_all g l = read_all g l'.
Proof.
  induction 1 as [|a b l l' Hab HF IH]; intro H; simpl; auto. rewrite (H a b) by (auto; left; auto). destruct (g b); cbn [bind]; auto.
  rewrite IH; auto. intros; apply H; auto. right; auto.
Qed.
Lemma similar_strings j j' : json_similar j j' -> strings_of_json j = strings_of_json j'.
Proof.
  intro H. inversion H as [|l l' HF|]; subst; auto. unfold strings_of_json. eapply read_all_ext; [exact HF|]. intros. apply similar_string; auto.
Qed.
Lemma similar_option {A} (g : json -> res A) j j' : json_similar j j' -> g j = g j' -> option_of_json g j = option_of_json g j'.
Proof. intros H E. inversion H; subst; auto; unfold option_of_json; rewrite E; auto. Qed.

Ltac keys H :=
  repeat match goal with
  | |- context [String.eqb ?k ?s] => let E := fresh in destruct (String.eqb k s) eqn:E; [try (apply string_eqb_eq in E; subst k; exfalso; apply H; cbn; tauto)|]
  end.
Ltac settle := cbn [bind res_map set_field] in *; auto.
Ltac comm :=
  intros;
  repeat match goal with |- context [String.eqb ?k ?s] => destruct (String.eqb k s) end;
  unfold set_field, res_map;
  repeat match goal with
  | |- context [match ?o with Some _ => _ | None => _ end] => is_var o; destruct o; cbn [bind]; cbv beta iota
  | |- context [u64_of_json ?v] => destruct (u64_of_json v); cbn [bind]; cbv beta iota
  | |- context [strings_of_json ?v] => destruct (strings_of_json v); cbn [bind]; cbv beta iota
  | |- context [inner_of_json ?v] => destruct (inner_of_json v); cbn [bind]; cbv beta iota
  | |- context [option_of_json ?g ?v] => destruct (option_of_json g v); cbn [bind]; cbv beta iota
  | |- context [string_of_json ?v] => destruct (string_of_json v); cbn [bind]; cbv beta iota
  | |- context [raw_qset_of_json ?v] => destruct (raw_qset_of_json v); cbn [bind]; cbv beta iota
  end; try reflexivity.

(** *** quorum sets *)
Definition qstep (k : string) (v : json) (a : option nat * option (list string) * option (list raw_qset)) :=
  let '(t, vs, is_) := a in
  if String.eqb k "threshold" then res_map (fun t' => (t', vs, is_)) (set_field t (u64_of_json v))
  else if String.eqb k "validators" then res_map (fun vs' => (t, vs', is_)) (set_field vs (strings_of_json v))
  else if String.eqb k "innerQuorumSets" then res_map (fun is' => (t, vs, is')) (set_field is_ (inner_of_json v))
  else Ok a.
Lemma qset_fields_fold fields : forall t vs is_, qset_fields fields t vs is_ =
  a <- fold_fields qstep fields (t, vs, is_) ;; t' <- unwrap (fst (fst a)) ;; vs' <- unwrap (snd (fst a)) ;;
  Ok (RQ t' vs' (match snd a with Some is' => is' | None => [] end)).
Proof.
  induction fields as [|[k v] fields IH]; intros t vs is_; cbn [qset_fields fold_fields qstep bind fst snd]; auto.
  repeat match goal with |- context [String.eqb ?k ?s] => destruct (String.eqb k s) end; cbn [bind]; auto.
  - destruct (set_field t (u64_of_json v)); cbn; auto.
  - destruct (set_field vs (strings_of_json v)); cbn; auto.
  - destruct (set_field is_ (inner_of_json v)); cbn; auto.
Qed.
Lemma qstep_comm k v k' v' a : bind (qstep k v a) (qstep k' v') = bind (qstep k' v' a) (qstep k v).
Proof. destruct a as [[t vs] is_]. unfold qstep. comm. Qed.
Lemma qstep_unknown k v a : ~ In k known_fields -> qstep k v a = Ok a.
Proof. intro H. destruct a as [[t vs] is_]. unfold qstep. keys H. auto. Qed.

Lemma similar_qset' j : forall j', json_similar j j' -> raw_qset_of_json j = raw_qset_of_json j' /\ inner_of_json j = inner_of_json j'.
Proof.
  induction j as [|b|z| |s|l IH|fields IH|] using json_ind'; intros j' H; inversion H as [|? l' HF|? fields1 extra fields' HF Hx Hp]; subst; auto.
  - split.
    + inversion HF as [|t t' ? ? Ht HF1]; subst; auto. inversion HF1 as [|vs vs' ? ? Hvs HF2]; subst; auto. inversion HF2 as [|is_ is' ? ? Hi HF3]; subst; auto.
      * cbn -[u64_of_json strings_of_json]. rewrite (similar_u64 _ _ Ht), (similar_strings _ _ Hvs). auto.
      * inversion HF3; subst; auto. cbn -[u64_of_json strings_of_json]. rewrite (similar_u64 _ _ Ht), (similar_strings _ _ Hvs).
        fold (inner_of_json is_) (inner_of_json is'). rewrite (proj2 (IH is_ (or_intror (or_intror (or_introl eq_refl))) is' Hi)). auto.
    + cbn. eapply read_all_ext; [exact HF|]. intros a b Ha Hab. apply (proj1 (IH a Ha b Hab)).
  - split; auto. rewrite !raw_qset_of_json_obj, !qset_fields_fold.
    rewrite (fold_similar_obj qstep qstep_comm qstep_unknown fields fields1 extra fields'); auto.
    intros k v Hin v' Hv [[t vs] is_]. unfold qstep. rewrite (similar_u64 _ _ Hv), (similar_strings _ _ Hv), (proj2 (IH k v Hin v' Hv)). auto.
Qed.
Lemma similar_qset j j' : json_similar j j' -> raw_qset_of_json j = raw_qset_of_json j'.
Proof. intro H. apply (similar_qset' j j' H). Qed.

(** *** geo data *)
Definition gstep (k : string) (v : json) (c : option (option string)) :=
  if String.eqb k "countryName" then set_field c (option_of_json string_of_json v) else Ok c.
Lemma geo_fields_fold fields : forall c, raw_geo_fields fields c =
  c' <- fold_fields gstep fields c ;; Ok (match c' with Some x => x | None => None end).
Proof.
  induction fields as [|[k v] fields IH]; intro c; cbn [raw_geo_fields fold_fields bind]; auto. unfold gstep at 1.
  destruct (String.eqb k "countryName"); cbn [bind]; auto. destruct (set_field c (option_of_json string_of_json v)); cbn; auto.
Qed.
Lemma gstep_comm k v k' v' a : bind (gstep k v a) (gstep k' v') = bind (gstep k' v' a) (gstep k v).
Proof. unfold gstep. comm. Qed.
Lemma gstep_unknown k v a : ~ In k known_fields -> gstep k v a = Ok a.
Proof. intro H. unfold gstep. keys H. auto. Qed.
Lemma similar_geo j j' : json_similar j j' -> raw_geo_of_json j = raw_geo_of_json j'.
Proof.
  intro H. inversion H as [|l l' HF|fields fields1 extra fields' HF Hx Hp]; subst; auto.
  - inversion HF as [|a b ? ? Ha HF1]; subst; auto. inversion HF1; subst; auto. cbn. apply similar_option; auto. apply similar_string; auto.
  - cbn. rewrite !geo_fields_fold. rewrite (fold_similar_obj gstep gstep_comm gstep_unknown fields fields1 extra fields'); auto.
    intros k v Hin v' Hv a. unfold gstep. rewrite (similar_option _ _ _ Hv (similar_string _ _ Hv)). auto.
Qed.

(** *** nodes *)
Definition nstate : Type := option string * option raw_qset * option (option string) * option (option (option string)).
Definition nstep (k : string) (v : json) (a : nstate) : res nstate :=
  let '(pk, q, isp, geo) := a in
  if String.eqb k "publicKey" then res_map (fun x => (x, q, isp, geo)) (set_field pk (string_of_json v))
  else if String.eqb k "quorumSet" then res_map (fun x => (pk, x, isp, geo)) (set_field q (raw_qset_of_json v))
  else if String.eqb k "isp" then res_map (fun x => (pk, q, x, geo)) (set_field isp (option_of_json string_of_json v))
  else if String.eqb k "geoData" then res_map (fun x => (pk, q, isp, x)) (set_field geo (option_of_json raw_geo_of_json v))
  else Ok a.
Definition nfinish (a : nstate) : res raw_node :=
  let '(pk, q, isp, geo) := a in
  pk' <- unwrap pk ;;
  Ok (mk_raw_node pk' (match q with Some q' => q' | None => raw_qset_default end)
        (match isp with Some i => i | None => None end) (match geo with Some g => g | None => None end)).
Lemma node_fields_fold fields : forall pk q isp geo, raw_node_fields fields pk q isp geo = a <- fold_fields nstep fields (pk, q, isp, geo) ;; nfinish a.
Proof.
  induction fields as [|[k v] fields IH]; intros pk q isp geo; cbn [raw_node_fields fold_fields nstep bind]; auto.
  repeat match goal with |- context [String.eqb ?k ?s] => destruct (String.eqb k s) end; cbn [bind]; auto.
  - destruct (set_field pk (string_of_json v)); cbn; auto.
  - destruct (set_field q (raw_qset_of_json v)); cbn; auto.
  - destruct (set_field isp (option_of_json string_of_json v)); cbn; auto.
  - destruct (set_field geo (option_of_json raw_geo_of_json v)); cbn; auto.
Qed.
Lemma nstep_comm k v k' v' a : bind (nstep k v a) (nstep k' v') = bind (nstep k' v' a) (nstep k v).
Proof. destruct a as [[[pk q] isp] geo]. unfold nstep. comm. Qed.
Lemma nstep_unknown k v a : ~ In k known_fields -> nstep k v a = Ok a.
Proof. intro H. destruct a as [[[pk q] isp] geo]. unfold nstep. keys H. auto. Qed.
Lemma similar_node j j' : json_similar j j' -> raw_node_of_json j = raw_node_of_json j'.
Proof.
  intro H. inversion H as [|l l' HF|fields fields1 extra fields' HF Hx Hp]; subst; auto.
  - inversion HF as [|pk pk' ? ? Hpk HF1]; subst; auto. inversion HF1 as [|q q' ? ? Hq HF2]; subst; auto.
    inversion HF2 as [|i i' ? ? Hi HF3]; subst; auto. inversion HF3 as [|g g' ? ? Hg HF4]; subst; auto. inversion HF4; subst; auto.
    cbn [raw_node_of_json]. rewrite (similar_string _ _ Hpk), (similar_qset _ _ Hq), (similar_option _ _ _ Hi (similar_string _ _ Hi)),
      (similar_option _ _ _ Hg (similar_geo _ _ Hg)). auto.
  - cbn [raw_node_of_json]. rewrite !node_fields_fold. rewrite (fold_similar_obj nstep nstep_comm nstep_unknown fields fields1 extra fields'); auto.
    intros k v Hin v' Hv [[[pk q] isp] geo]. unfold nstep.
    rewrite (similar_string _ _ Hv), (similar_qset _ _ Hv), (similar_option _ _ _ Hv (similar_string _ _ Hv)), (similar_option _ _ _ Hv (similar_geo _ _ Hv)). auto.
Qed.
Lemma similar_fbas j j' : json_similar j j' -> raw_fbas_of_json j = raw_fbas_of_json j'.
Proof.
  intro H. inversion H as [|l l' HF|]; subst; auto. cbn. eapply read_all_ext; [exact HF|]. intros. apply similar_node; auto.
Qed.

(** *** groups *)
Definition ostep (k : string) (v : json) (a : option string * option (list string)) :=
  let '(name, vs) := a in
  if String.eqb k "name" then res_map (fun x => (x, vs)) (set_field name (string_of_json v))
  else if String.eqb k "validators" then res_map (fun x => (name, x)) (set_field vs (strings_of_json v))
  else Ok a.
Lemma grouping_fields_fold fields : forall name vs, raw_grouping_fields fields name vs =
  a <- fold_fields ostep fields (name, vs) ;; name' <- unwrap (fst a) ;; vs' <- unwrap (snd a) ;; Ok (mk_raw_grouping name' vs').
Proof.
  induction fields as [|[k v] fields IH]; intros name vs; cbn [raw_grouping_fields fold_fields ostep bind fst snd]; auto.
  repeat match goal with |- context [String.eqb ?k ?s] => destruct (String.eqb k s) end; cbn [bind]; auto.
  - destruct (set_field name (string_of_json v)); cbn; auto.
  - destruct (set_field vs (strings_of_json v)); cbn; auto.
Qed.
Lemma ostep_comm k v k' v' a : bind (ostep k v a) (ostep k' v') = bind (ostep k' v' a) (ostep k v).
Proof. destruct a as [name vs]. unfold ostep. comm. Qed.
Lemma ostep_unknown k v a : ~ In k known_fields -> ostep k v a = Ok a.
Proof. intro H. destruct a as [name vs]. unfold ostep. keys H. auto. Qed.
Lemma similar_grouping j j' : json_similar j j' -> raw_grouping_of_json j = raw_grouping_of_json j'.
Proof.
  intro H. inversion H as [|l l' HF|fields fields1 extra fields' HF Hx Hp]; subst; auto.
  - inversion HF as [|n n' ? ? Hn HF1]; subst; auto. inversion HF1 as [|vs vs' ? ? Hvs HF2]; subst; auto. inversion HF2; subst; auto.
    cbn [raw_grouping_of_json]. rewrite (similar_string _ _ Hn), (similar_strings _ _ Hvs). auto.
  - cbn [raw_grouping_of_json]. rewrite !grouping_fields_fold. rewrite (fold_similar_obj ostep ostep_comm ostep_unknown fields fields1 extra fields'); auto.
    intros k v Hin v' Hv [name vs]. unfold ostep. rewrite (similar_string _ _ Hv), (similar_strings _ _ Hv). auto.
Qed.
Lemma similar_groupings j j' : json_similar j j' -> raw_groupings_of_json j = raw_groupings_of_json j'.
Proof.
  intro H. inversion H as [|l l' HF|]; subst; auto. cbn. eapply read_all_ext; [exact HF|]. intros. apply similar_grouping; auto.
Qed.

Lemma json_order_fbas j j' : json_similar j j' -> fbas_from_json j = fbas_from_json j'.
Proof. intro H. unfold fbas_from_json. rewrite (similar_fbas _ _ H). auto. Qed.
Lemma json_order_groupings j j' f : json_similar j j' ->
  groupings_from_json j f = groupings_from_json j' f /\ isps_from_json j f = isps_from_json j' f /\ countries_from_json j f = countries_from_json j' f.
Proof. intro H. unfold groupings_from_json, isps_from_json, countries_from_json. rewrite (similar_fbas _ _ H), (similar_groupings _ _ H). auto. Qed.

(** ** repeated fields *)
Lemma fold_panic {A} (step : string -> json -> A -> res A) (Hcomm : forall k v k' v' a, bind (step k v a) (step k' v') = bind (step k' v' a) (step k v)) names fields :
  (forall k v v' a, In k names -> bind (step k v a) (step k v') = Panic) -> repeated_field names fields -> forall a, fold_fields step fields a = Panic.
Proof.
  intros Hr (k & l1 & l2 & l3 & v & v' & Hk & ->) a.
  rewrite (fold_perm step Hcomm _ ((k, v) :: (k, v') :: l1 ++ l2 ++ l3)).
  - cbn [fold_fields]. specialize (Hr k v v' a Hk). destruct (step k v a) as [b|]; cbn [bind] in *; auto. rewrite Hr. auto.
  - rewrite <- Permutation_middle. constructor. rewrite app_assoc. rewrite <- Permutation_middle. constructor. rewrite app_assoc. auto.
Qed.
Ltac rep := intros; repeat match goal with H : In _ (_ :: _) |- _ => destruct H as [<-|H] end; try (match goal with H : In _ [] |- _ => destruct H end); cbn -[u64_of_json strings_of_json inner_of_json option_of_json string_of_json raw_qset_of_json];
  unfold set_field, res_map;
  repeat match goal with
  | |- context [match ?o with Some _ => _ | None => _ end] => is_var o; destruct o; cbn [bind]; cbv beta iota
  | |- context [u64_of_json ?v] => destruct (u64_of_json v); cbn [bind]; cbv beta iota
  | |- context [strings_of_json ?v] => destruct (strings_of_json v); cbn [bind]; cbv beta iota
  | |- context [inner_of_json ?v] => destruct (inner_of_json v); cbn [bind]; cbv beta iota
  | |- context [option_of_json ?g ?v] => destruct (option_of_json g v); cbn [bind]; cbv beta iota
  | |- context [string_of_json ?v] => destruct (string_of_json v); cbn [bind]; cbv beta iota
  | |- context [raw_qset_of_json ?v] => destruct (raw_qset_of_json v); cbn [bind]; cbv beta iota
  end; try reflexivity.
Lemma repeated_node fields : repeated_field ["publicKey"; "quorumSet"; "isp"; "geoData"]%string fields -> raw_node_of_json (JObj fields) = Panic.
Proof.
  intro H. cbn [raw_node_of_json]. rewrite node_fields_fold. rewrite (fold_panic nstep nstep_comm _ _) with (2 := H); auto.
  intros k v v' [[[pk q] isp] geo] Hk. unfold nstep. rep.
Qed.
Lemma repeated_qset fields : repeated_field ["threshold"; "validators"; "innerQuorumSets"]%string fields -> raw_qset_of_json (JObj fields) = Panic.
Proof.
  intro H. rewrite raw_qset_of_json_obj, qset_fields_fold. rewrite (fold_panic qstep qstep_comm _ _) with (2 := H); auto.
  intros k v v' [[t vs] is_] Hk. unfold qstep. rep.
Qed.
