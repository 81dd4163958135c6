(** The texts that [fbas_analyzer] reads and prints. *)
From Coq Require Import ZArith Ascii.
From Flocq Require Import IEEE754.BinarySingleNaN.
From Verif Require Export P_JsonPrint P_ThCli Spec_CliText.
Local Open Scope string_scope.
Local Open Scope list_scope.
Local Open Scope nat_scope.

(** ** trees *)
Section PrettyInd.
Variable P : pretty_qset -> Prop.
Hypothesis H : forall t vs is_, (forall i, In i is_ -> P i) -> P (PQS t vs is_).
Fixpoint pretty_qset_ind' (q : pretty_qset) : P q :=
  match q with
  | PQS t vs is_ =>
      H t vs is_ ((fix go (l : list pretty_qset) : forall i, In i l -> P i :=
        match l with
        | [] => fun _ F => False_ind _ F
        | a :: l' => fun i Hi => match Hi with or_introl E => match E in _ = i return P i with eq_refl => pretty_qset_ind' a end | or_intror Hi' => go l' i Hi' end
        end) is_)
  end.
End PrettyInd.

Lemma numbers_list l : is_list is_number (json_of_nats l) l.
Proof. exists (map json_of_nat l). split; [reflexivity|]. induction l; cbn [map]; constructor; auto. reflexivity. Qed.
Lemma names_list l : is_list is_name (json_of_names l) l.
Proof. exists (map JStr l). split; [reflexivity|]. induction l; cbn [map]; constructor; auto. reflexivity. Qed.
Lemma map_list {A} (P : json -> A -> Prop) g l : (forall a, In a l -> P (g a) a) -> is_list P (JArr (map g l)) l.
Proof.
  intro H. exists (map g l). split; [reflexivity|]. induction l as [|a l IH]; cbn [map]; constructor.
  - apply H. left; auto.
  - apply IH. intros; apply H; right; auto.
Qed.
Lemma qset_tree q : is_qset (json_of_qset q) q.
Proof.
  induction q as [t vs is_ IH] using qset_ind'. cbn [json_of_qset].
  apply (is_qset_intro (json_of_nat t) t vs is_ (map json_of_qset is_) (unless_empty "validators" vs (json_of_nats vs))
           (unless_empty "innerQuorumSets" is_ (JArr (map json_of_qset is_)))).
  - reflexivity.
  - destruct vs as [|v vs]; [left; auto|]. right. split; [discriminate|]. exists (json_of_nats (v :: vs)). split; [apply numbers_list|reflexivity].
  - destruct (map_list is_qset json_of_qset is_ IH) as (js & E & F). injection E as <-. exact F.
  - destruct is_ as [|i is_]; [left; auto|]. right. split; [discriminate|reflexivity].
Qed.
Fixpoint raw_of_pretty (q : pretty_qset) : raw_qset := let 'PQS t vs is_ := q in RQ t vs (map raw_of_pretty is_).
Lemma raw_of_pretty_names q : names_qset q (raw_of_pretty q).
Proof.
  induction q as [t vs is_ IH] using pretty_qset_ind'. cbn [raw_of_pretty]. constructor. induction is_ as [|i is_ IHi]; cbn [map]; constructor.
  - apply IH. left; auto.
  - apply IHi. intros; apply IH; right; auto.
Qed.
Lemma pretty_as_raw q : json_of_pretty_qset q = json_of_raw_qset (raw_of_pretty q).
Proof.
  induction q as [t vs is_ IH] using pretty_qset_ind'. cbn [raw_of_pretty json_of_pretty_qset json_of_raw_qset]. do 2 f_equal.
  destruct is_ as [|i is_]; [reflexivity|]. set (L := i :: is_) in *.
  assert (E : map json_of_pretty_qset L = map json_of_raw_qset (map raw_of_pretty L)) by (rewrite map_map; apply map_ext_in; auto).
  change (unless_empty "innerQuorumSets" L (JArr (map json_of_pretty_qset L))) with [("innerQuorumSets", JArr (map json_of_pretty_qset L))].
  rewrite E. reflexivity.
Qed.
Lemma pretty_tree q : is_pretty_qset (json_of_pretty_qset q) q.
Proof.
  exists (raw_of_pretty q). split; [apply raw_of_pretty_names|]. intro H. rewrite pretty_as_raw. apply qset_reads. apply qset_read. exact H.
Qed.

Lemma nats_printable l : printable (json_of_nats l).
Proof. constructor. intros j Hj. apply in_map_iff in Hj. destruct Hj as (n & <- & _). constructor. Qed.
Lemma names_printable l : printable (json_of_names l).
Proof. constructor. intros j Hj. apply in_map_iff in Hj. destruct Hj as (n & <- & _). constructor. Qed.
Lemma array_printable {A} (g : A -> json) l : (forall a, In a l -> printable (g a)) -> printable (JArr (map g l)).
Proof. intro H. constructor. intros j Hj. apply in_map_iff in Hj. destruct Hj as (n & <- & Hn). auto. Qed.
Lemma qset_printable q : printable (json_of_qset q).
Proof.
  induction q as [t vs is_ IH] using qset_ind'. cbn [json_of_qset]. constructor. intros k j Hj. apply in_app_iff in Hj.
  destruct Hj as [Hj|Hj]; [|apply in_app_iff in Hj; destruct Hj as [Hj|Hj]].
  - destruct Hj as [Hj|[]]. injection Hj as <- <-. constructor.
  - destruct vs as [|v vs]; [destruct Hj|]. destruct Hj as [Hj|[]]. injection Hj as <- <-. apply (nats_printable (v :: vs)).
  - destruct is_ as [|i is_]; [destruct Hj|]. destruct Hj as [Hj|[]]. injection Hj as <- <-. apply (array_printable json_of_qset (i :: is_)). auto.
Qed.
Lemma pretty_qset_printable q : printable (json_of_pretty_qset q).
Proof. rewrite pretty_as_raw. apply raw_qset_printable. Qed.

(** ** texts of arrays *)
Lemma array_text_value mz js ts : Forall2 (Spec_JsonText.value mz) js ts -> Spec_JsonText.value mz (JArr js) (array_text ts).
Proof.
  intro H. unfold array_text. destruct H as [|j t js ts H0 H]; [apply (value_empty_array mz []), blank_nil|].
  apply (value_array mz (j :: js) (join (bytes ",") (t :: ts))). revert j t H0. induction H as [|j' t' js ts H1 H IH]; intros j t H0.
  - cbn [join]. rewrite <- (app_nil_r t). apply (elements_one mz j [] t []); auto using blank_nil.
  - apply (elements_more mz j [] t [] (j' :: js) (join (bytes ",") (t' :: ts))); auto using blank_nil.
Qed.
Lemma nat_text_decimal n : decimal (nat_text n) n.
Proof. apply print_N_spec. Qed.
Lemma nat_text_value mz n : Spec_JsonText.value mz (JInt (Z.of_nat n)) (nat_text n).
Proof. apply value_number. rewrite <- nat_N_Z. apply number_natural. apply print_N_spec. Qed.
Lemma join_separated l : separated l (join (bytes ",") l).
Proof. induction l as [|t l IH]; [constructor|]. destruct l as [|t' l]; [constructor|]. cbn [join]. constructor. exact IH. Qed.
Lemma nats_texts l : Forall2 decimal (map nat_text l) l.
Proof. induction l; cbn [map]; constructor; auto. apply nat_text_decimal. Qed.
Lemma nats_values mz l : Forall2 (Spec_JsonText.value mz) (map json_of_nat l) (map nat_text l).
Proof. induction l; cbn [map]; constructor; auto. apply nat_text_value. Qed.
Lemma float_value mz ft x : float_format mz ft -> exists j, Spec_JsonText.value mz j (ft x).
Proof.
  intros [H1 H2]. destruct (is_finite x) eqn:E.
  - exists JFloat. apply value_number. auto.
  - exists JNull. rewrite H2 by auto. apply value_null.
Qed.

Lemma value_says mz ft v : float_format mz ft -> says mz ft v (value_text ft v).
Proof.
  intro Hf. destruct v as [b|n|l|l|l|l|l|l|number distinct [[mn mx] mean] h]; cbn [value_text].
  - exists (JBool b). split; [|reflexivity]. apply value_document. destruct b; [apply value_true|apply value_false].
  - exists (JInt (Z.of_nat n)). split; [|reflexivity]. apply value_document, nat_text_value.
  - eexists. split; [apply printed_document, nats_printable|]. apply numbers_list.
  - eexists. split; [apply printed_document, names_printable|]. apply names_list.
  - eexists. split; [apply printed_document, array_printable; intros; apply nats_printable|]. apply map_list. intros; apply numbers_list.
  - eexists. split; [apply printed_document, array_printable; intros; apply names_printable|]. apply map_list. intros; apply names_list.
  - eexists. split; [apply printed_document, array_printable; intros; apply qset_printable|]. apply map_list. intros; apply qset_tree.
  - eexists. split; [apply printed_document, array_printable; intros; apply pretty_qset_printable|]. apply map_list. intros; apply pretty_tree.
  - destruct (float_value mz ft mean Hf) as (jm & Hm).
    exists (JArr [JInt (Z.of_nat number); JInt (Z.of_nat distinct); JArr [JInt (Z.of_nat mn); JInt (Z.of_nat mx); jm]; JArr (map json_of_nat h)]).
    split; [|split].
    + apply value_document, array_text_value. constructor; [apply nat_text_value|]. constructor; [apply nat_text_value|].
      constructor; [apply array_text_value; constructor; [apply nat_text_value|constructor; [apply nat_text_value|constructor; [auto|constructor]]]|].
      constructor; [|constructor]. apply array_text_value, nats_values.
    + exists jm, (map json_of_nat h). split; [reflexivity|]. destruct (numbers_list h) as (js & E & F). injection E as <-. exact F.
    + exists (nat_text number), (nat_text distinct), (nat_text mn), (nat_text mx), (map nat_text h), (join (bytes ",") (map nat_text h)).
      split; [apply nat_text_decimal|]. split; [apply nat_text_decimal|]. split; [apply nat_text_decimal|]. split; [apply nat_text_decimal|].
      split; [apply nats_texts|]. split; [apply join_separated|].
      unfold array_text. cbn [join]. set (a := nat_text number). set (b := nat_text distinct). set (c := nat_text mn). set (d := nat_text mx).
      set (e := ft mean). set (g := join (bytes ",") (map nat_text h)). change (bytes ",[") with (bytes "," ++ bytes "["). change (bytes "],[") with (bytes "]" ++ bytes "," ++ bytes "[").
      change (bytes "]]") with (bytes "]" ++ bytes "]"). rewrite <- !app_assoc. reflexivity.
Qed.

(** ** items *)
Lemma item_printed mz ft dt i : float_format mz ft -> printed_item mz ft dt i (item_text ft dt i).
Proof.
  intro Hf. destruct i as [parts|name v|name]; cbn [item_text printed_item].
  - exists (map (fun t : string + nat => match t with inl s => bytes s | inr n => nat_text n end) parts). split.
    + rewrite <- flat_map_concat_map. reflexivity.
    + induction parts as [|[s|n] parts IH]; cbn [map]; constructor; auto. apply nat_text_decimal.
  - exists (value_text ft v). split; [reflexivity|]. apply value_says. auto.
  - reflexivity.
Qed.
Lemma items_printed mz ft dt items : float_format mz ft -> prints mz ft dt items (output_text ft dt items).
Proof.
  intro Hf. exists (map (item_text ft dt) items). split; [apply flat_map_concat_map|].
  induction items as [|i items IH]; cbn [map]; constructor; auto. apply item_printed. auto.
Qed.

(** ** lines *)
Lemma escape_no_newline c : ~ In end_of_line (escape c).
Proof.
  destruct c as [b0 b1 b2 b3 b4 b5 b6 b7]. destruct b0, b1, b2, b3, b4, b5, b6, b7; vm_compute; intro H; repeat (destruct H as [H|H]; [discriminate H|]); exact H.
Qed.
Lemma print_string_no_newline s : ~ In end_of_line (print_string s).
Proof.
  unfold print_string. intros [H|H]; [discriminate H|]. apply in_app_iff in H. destruct H as [H|[H|[]]]; [|discriminate H].
  apply in_flat_map in H. destruct H as (c & _ & H). apply (escape_no_newline c H).
Qed.
Lemma digits_no_newline t v : digits_of t v -> ~ In end_of_line t.
Proof.
  assert (G : forall c d, digit_of c d -> c <> end_of_line).
  { intros c d H ->. unfold digit_of in H. apply nth_error_In in H. vm_compute in H. repeat (destruct H as [H|H]; [discriminate H|]). exact H. }
  induction 1 as [c d H|t v c d H IH Hc].
  - intros [X|[]]. apply (G c d H). auto.
  - intro X. apply in_app_iff in X. destruct X as [X|[X|[]]]; [auto|]. apply (G c d Hc). auto.
Qed.
Lemma print_N_no_newline n : ~ In end_of_line (print_N n).
Proof. apply (digits_no_newline _ n), print_N_spec. Qed.
Lemma join_no_newline l : (forall t, In t l -> ~ In end_of_line t) -> ~ In end_of_line (join (bytes ",") l).
Proof.
  induction l as [|t l IH]; intro H; [intros []|]. destruct l as [|t' l]; [cbn [join]; apply H; left; auto|].
  cbn [join]. intro X. apply in_app_iff in X. destruct X as [X|X]; [apply (H t); [left; auto|auto]|].
  apply in_app_iff in X. destruct X as [[X|[]]|X]; [discriminate X|]. apply IH in X; auto. intros u Hu. apply H. right; auto.
Qed.
Lemma print_json_no_newline j : ~ In end_of_line (print_json j).
Proof.
  induction j as [|b|z| |s|l IH|fs IH|] using json_ind'; cbn [print_json].
  - intro H. repeat (destruct H as [H|H]; [discriminate H|]). exact H.
  - destruct b; intro H; repeat (destruct H as [H|H]; [discriminate H|]); exact H.
  - unfold print_Z. destruct (z <? 0)%Z; [intros [H|H]; [discriminate H|]|intro H]; apply (print_N_no_newline _ H).
  - intros [].
  - apply print_string_no_newline.
  - intros [H|H]; [discriminate H|]. apply in_app_iff in H. destruct H as [H|[H|[]]]; [|discriminate H].
    revert H. apply join_no_newline. intros t Ht. apply in_map_iff in Ht. destruct Ht as (j & <- & Hj). auto.
  - intros [H|H]; [discriminate H|]. apply in_app_iff in H. destruct H as [H|[H|[]]]; [|discriminate H].
    revert H. apply join_no_newline. intros t Ht. apply in_map_iff in Ht. destruct Ht as ([k j] & <- & Hj). cbn [fst snd].
    intro X. apply in_app_iff in X. destruct X as [X|[X|X]]; [apply (print_string_no_newline _ X)|discriminate X|apply (IH k j Hj X)].
  - intros [].
Qed.
Lemma array_no_newline l : (forall t, In t l -> ~ In end_of_line t) -> ~ In end_of_line (array_text l).
Proof.
  intros H X. unfold array_text in X. apply in_app_iff in X. destruct X as [[X|[]]|X]; [discriminate X|].
  apply in_app_iff in X. destruct X as [X|[X|[]]]; [|discriminate X]. revert X. apply join_no_newline. auto.
Qed.
Definition clusters_with_names (v : M_Cli.value) : Prop := exists l, v = VPrettyQsets l /\ l <> [].
Lemma value_no_newline ft v : (forall x, ~ In end_of_line (ft x)) -> ~ clusters_with_names v -> ~ In end_of_line (value_text ft v).
Proof.
  intros Hf Hc. destruct v as [b|n|l|l|l|l|l|l|number distinct [[mn mx] mean] h]; cbn [value_text]; try apply print_json_no_newline.
  - destruct b; intro H; repeat (destruct H as [H|H]; [discriminate H|]); exact H.
  - apply print_N_no_newline.
  - destruct l as [|q l]; [|exfalso; apply Hc; eexists; split; [reflexivity|discriminate]].
    intro H. repeat (destruct H as [H|H]; [discriminate H|]). exact H.
  - assert (Hn : forall n, ~ In end_of_line (nat_text n)) by (intro; apply print_N_no_newline).
    apply array_no_newline. intros t [<-|[<-|[<-|[<-|[]]]]]; auto; apply array_no_newline.
    + intros t [<-|[<-|[<-|[]]]]; auto.
    + intros t Ht. apply in_map_iff in Ht. destruct Ht as (n & <- & _). auto.
Qed.
Lemma result_one_line ft dt i : (forall x, ~ In end_of_line (ft x)) -> (forall name, ~ In end_of_line (dt name)) ->
  (forall name v, i = Line name v -> ~ In end_of_line (bytes name) /\ ~ clusters_with_names v) -> (forall name, i = Duration name -> ~ In end_of_line (bytes name)) ->
  is_result i = true -> one_line (item_text ft dt i).
Proof.
  intros Hf Hd Hl Hn Hr. destruct i as [parts|name v|name]; [discriminate| |].
  - destruct (Hl name v eq_refl) as [H1 H2]. exists (bytes name ++ bytes ": " ++ value_text ft v). cbn [item_text]. split; [rewrite <- !app_assoc; reflexivity|].
    intro X. apply in_app_iff in X. destruct X as [X|X]; [auto|]. apply in_app_iff in X. destruct X as [[X|[X|[]]]|X]; try discriminate X. revert X. apply value_no_newline; auto.
  - exists (bytes name ++ bytes "_analysis_duration: " ++ dt name ++ bytes "s"). cbn [item_text]. split; [rewrite <- !app_assoc; reflexivity|].
    intro X. apply in_app_iff in X. destruct X as [X|X]; [apply (Hn name eq_refl X)|]. apply in_app_iff in X. destruct X as [X|X].
    + vm_compute in X. repeat (destruct X as [X|X]; [discriminate X|]). exact X.
    + apply in_app_iff in X. destruct X as [X|[X|[]]]; [apply (Hd name X)|discriminate X].
Qed.

(** ** different values, different texts *)
Lemma map_inj {A B} (g : A -> B) : (forall a b, g a = g b -> a = b) -> forall l l', map g l = map g l' -> l = l'.
Proof. intros H. induction l as [|a l IH]; intros [|b l'] E; try discriminate; auto. injection E as E1 E2. f_equal; auto. Qed.
Lemma printed_inj j j' : printable j -> printable j' -> print_json j = print_json j' \/ print_pretty 0 j = print_pretty 0 j' -> j = j'.
Proof.
  intros H H' E. destruct (printed_document true j H) as [D1 D2]. destruct (printed_document true j' H') as [D1' D2']. destruct E as [E|E].
  - rewrite E in D1. apply (document_unique true _ _ _ D1 D1').
  - rewrite E in D2. apply (document_unique true _ _ _ D2 D2').
Qed.
Lemma json_of_nats_inj l l' : json_of_nats l = json_of_nats l' -> l = l'.
Proof. intro E. injection E as E. revert E. apply map_inj. intros a b E. injection E as E. lia. Qed.
Lemma json_of_names_inj l l' : json_of_names l = json_of_names l' -> l = l'.
Proof. intro E. injection E as E. revert E. apply map_inj. intros a b E. injection E as E. auto. Qed.
Lemma map_inj_in {A B} (g : A -> B) l : (forall a, In a l -> forall b, g a = g b -> a = b) -> forall l', map g l = map g l' -> l = l'.
Proof.
  induction l as [|a l IH]; intros H [|b l'] E; try discriminate; auto. injection E as E1 E2. f_equal; [apply H; [left; auto|auto]|].
  apply IH; auto. intros; apply H; auto. right; auto.
Qed.
Lemma json_of_qset_inj q : forall q', json_of_qset q = json_of_qset q' -> q = q'.
Proof.
  induction q as [t vs is_ IH] using qset_ind'. intros [t' vs' is_'] E. cbn [json_of_qset] in E. injection E as Et E. assert (t = t') by lia. subst t'.
  assert (X : vs = vs' /\ is_ = is_'); [|destruct X; subst; auto].
  destruct vs as [|v vs], vs' as [|v' vs'], is_ as [|i is_], is_' as [|i' is_']; cbn [unless_empty app] in E; try discriminate E; split; auto.
  all: first [ apply json_of_nats_inj; injection E; intros; congruence | apply (map_inj_in json_of_qset); [exact IH|injection E; intros; cbn [map]; congruence] ].
Qed.
Lemma raw_of_pretty_inj q : forall q', raw_of_pretty q = raw_of_pretty q' -> q = q'.
Proof.
  induction q as [t vs is_ IH] using pretty_qset_ind'. intros [t' vs' is_'] E. cbn [raw_of_pretty] in E. injection E as -> -> E. f_equal. revert E. apply map_inj_in. auto.
Qed.
Lemma raw_tree_inj q : forall q', json_of_raw_qset q = json_of_raw_qset q' -> q = q'.
Proof.
  induction q as [t vs is_ IH] using raw_qset_ind'. intros [t' vs' is_'] E. cbn [json_of_raw_qset] in E. injection E as Et Ev E. assert (t = t') by lia. subst t'.
  assert (vs = vs') by (revert Ev; apply map_inj; intros a b X; injection X; auto). subst vs'. f_equal.
  destruct is_ as [|i is_], is_' as [|i' is_']; try discriminate E; auto. apply (map_inj_in json_of_raw_qset); [exact IH|injection E; intros; cbn [map]; congruence].
Qed.
Lemma json_of_pretty_inj q q' : json_of_pretty_qset q = json_of_pretty_qset q' -> q = q'.
Proof. rewrite !pretty_as_raw. intro E. apply raw_of_pretty_inj, raw_tree_inj. auto. Qed.

Lemma value_text_inj mz ft v v' : float_format mz ft -> faithful_format ft -> same_kind v v' -> value_text ft v = value_text ft v' -> v = v'.
Proof.
  intros Hf Hff. destruct v as [b|n|l|l|l|l|l|l|n d [[mn mx] m] h], v' as [b'|n'|l'|l'|l'|l'|l'|l'|n' d' [[mn' mx'] m'] h']; cbn [same_kind]; try tauto.
  - destruct b, b'; intros _ E; auto; discriminate E.
  - intros _ E. cbn [value_text] in E. f_equal. assert (D := value_document mz _ _ (nat_text_value mz n)). assert (D' := value_document mz _ _ (nat_text_value mz n')).
    rewrite E in D. assert (X := document_unique mz _ _ _ D D'). injection X. lia.
  - intros _ E. f_equal. apply json_of_nats_inj, printed_inj; auto using nats_printable.
  - intros _ E. f_equal. apply json_of_names_inj, printed_inj; auto using names_printable.
  - intros _ E. f_equal. cbn [value_text] in E. apply (map_inj json_of_nats json_of_nats_inj).
    assert (X : JArr (map json_of_nats l) = JArr (map json_of_nats l')); [|injection X; auto].
    apply printed_inj; auto; apply array_printable; intros; apply nats_printable.
  - intros _ E. f_equal. cbn [value_text] in E. apply (map_inj json_of_names json_of_names_inj).
    assert (X : JArr (map json_of_names l) = JArr (map json_of_names l')); [|injection X; auto].
    apply printed_inj; auto; apply array_printable; intros; apply names_printable.
  - intros _ E. f_equal. cbn [value_text] in E. apply (map_inj json_of_qset (fun a b => json_of_qset_inj a b)).
    assert (X : JArr (map json_of_qset l) = JArr (map json_of_qset l')); [|injection X; auto].
    apply printed_inj; auto; apply array_printable; intros; apply qset_printable.
  - intros _ E. f_equal. cbn [value_text] in E. apply (map_inj json_of_pretty_qset json_of_pretty_inj).
    assert (X : JArr (map json_of_pretty_qset l) = JArr (map json_of_pretty_qset l')); [|injection X; auto].
    apply printed_inj; auto; apply array_printable; intros; apply pretty_qset_printable.
  - intros [Hm Hm'] E.
    assert (T : forall n d mn mx (m : f64) h, is_finite m = true ->
      document mz (JArr [JInt (Z.of_nat n); JInt (Z.of_nat d); JArr [JInt (Z.of_nat mn); JInt (Z.of_nat mx); JFloat]; JArr (map json_of_nat h)]) (value_text ft (VStatistics n d (mn, mx, m) h))).
    { intros. apply value_document, array_text_value. constructor; [apply nat_text_value|]. constructor; [apply nat_text_value|].
      constructor; [apply array_text_value; constructor; [apply nat_text_value|constructor; [apply nat_text_value|constructor; [apply value_number, Hf; auto|constructor]]]|].
      constructor; [|constructor]. apply array_text_value, nats_values. }
    assert (T1 := T n d mn mx m h Hm). rewrite E in T1. assert (X := document_unique mz _ _ _ T1 (T n' d' mn' mx' m' h' Hm')). injection X as X1 X2 X3 X4 X5.
    assert (n = n') by lia. assert (d = d') by lia. assert (mn = mn') by lia. assert (mx = mx') by lia. subst n' d' mn' mx'.
    assert (h = h') by (revert X5; apply map_inj; intros a b Y; injection Y; lia). subst h'.
    cbn [value_text] in E. unfold array_text in E. cbn [join] in E. rewrite <- !app_assoc in E.
    repeat (apply app_inv_head in E). assert (Y : ft m = ft m') by (apply app_inv_tail in E; exact E).
    f_equal. f_equal. apply Hff; auto.
Qed.

(** ** the items of a run *)
Definition fine (pretty : bool) (i : item) : Prop :=
  match i with
  | Message _ => True
  | Duration n => ~ In end_of_line (bytes n)
  | Line n v => ~ In end_of_line (bytes n) /\ (clusters_with_names v -> pretty = true /\ n = "symmetric_clusters")
  end.
Lemma id_no_clusters r v : into_id r = Ok v -> ~ clusters_with_names v.
Proof.
  destruct r as [b|n|l|s|r]; cbn [into_id]; intros E (l' & -> & _); try discriminate E. destruct (vr_into_vec_vec r); discriminate E.
Qed.
Lemma describe_no_clusters r v : into_describe r = Ok v -> ~ clusters_with_names v.
Proof.
  destruct r as [b|n|l|s|r]; cbn [into_describe into_id]; intros E (l' & -> & _); try discriminate E.
  destruct (vr_describe r) as [[[[a b] c] d]|]; discriminate E.
Qed.
Lemma pretty_clusters r f g v : into_pretty r f g = Ok v -> clusters_with_names v -> exists l, r = RQsets l.
Proof.
  destruct r as [b|n|l|s|r]; cbn [into_pretty into_id]; intros E (l' & -> & _); try discriminate E.
  - eauto.
  - destruct (sr_into_pretty_vec s f g); discriminate E.
  - destruct (vr_into_pretty_vec_vec r f g); discriminate E.
Qed.
Lemma uncondensed_fine o name r l : ~ In end_of_line (bytes name) -> (forall l, r = RQsets l -> name = "symmetric_clusters") ->
  out_result_uncondensed o name r = Ok l -> Forall (fine (o_pretty o)) l.
Proof.
  intros Hn Hc E. unfold out_result_uncondensed in E. destruct (o_pretty o) eqn:Ep.
  - destruct (into_pretty r (o_fbas o) (o_groupings o)) as [v|] eqn:Ev; [|discriminate E]. injection E as <-. constructor; [|constructor].
    split; [auto|]. intro C. destruct (pretty_clusters _ _ _ _ Ev C) as (l & ->). eauto.
  - destruct (into_id r) as [v|] eqn:Ev; [|discriminate E]. injection E as <-. constructor; [|constructor].
    split; [auto|]. intro C. destruct (id_no_clusters _ _ Ev C).
Qed.
Lemma result_fine o name r l : ~ In end_of_line (bytes name) -> (forall l, r = RQsets l -> name = "symmetric_clusters") ->
  out_result o name r = Ok l -> Forall (fine (o_pretty o)) l.
Proof.
  intros Hn Hc E. unfold out_result in E. destruct (o_describe o); [|apply (uncondensed_fine o name r l); auto].
  destruct (into_describe r) as [v|] eqn:Ev; [|discriminate E]. injection E as <-. constructor; [|constructor].
  split; [auto|]. intro C. destruct (describe_no_clusters _ _ Ev C).
Qed.
Lemma timed_fine o name r l : ~ In end_of_line (bytes name) -> (forall l, r = RQsets l -> name = "symmetric_clusters") ->
  out_timed_result o name r = Ok l -> Forall (fine (o_pretty o)) l.
Proof.
  intros Hn Hc E. unfold out_timed_result in E. destruct (out_result o name r) as [l'|] eqn:El; [|discriminate E]. injection E as <-.
  apply Forall_app. split; [apply (result_fine o name r); auto|]. constructor; [exact Hn|constructor].
Qed.
Lemma comment_fine p o t : Forall (fine p) (out_comment o t).
Proof. unfold out_comment. destruct (o_results_only o); constructor; [exact I|constructor]. Qed.

Ltac no_newline := let H := fresh in intro H; vm_compute in H; repeat (destruct H as [H|H]; [discriminate H|]); exact H.
Ltac next E := match type of E with bind ?e _ = Ok _ => let r := fresh "r" in let Er := fresh "Er" in destruct e as [r|] eqn:Er; [|discriminate E]; cbn [bind] in E end.
Lemma overview_fine E g o a l a' : report_overview E g o a = Ok (l, a') -> Forall (fine (o_pretty o)) l.
Proof.
  unfold report_overview. intro H. next H. destruct r as [s a1]. next H. next H. injection H as <- <-. apply Forall_app. split.
  - eapply result_fine; [| |eassumption]; [no_newline|discriminate].
  - destruct g as [G|]; [|injection Er1 as <-; constructor]. next Er1. next Er1. injection Er1 as <-. apply Forall_app. split; [|apply comment_fine].
    eapply result_fine; [| |eassumption]; [no_newline|discriminate].
Qed.
Lemma clusters_fine E g o a l a' : report_symmetric_clusters E g o a = Ok (l, a') -> Forall (fine (o_pretty o)) l.
Proof.
  unfold report_symmetric_clusters. intro H. next H. destruct r as [ans a1]. cbn [fst snd] in H. destruct ans as [| | | | |q]; try discriminate H. next H. next H. injection H as <- <-.
  apply Forall_app. split; [|apply comment_fine]. refine (timed_fine (mk_out (o_results_only o) (o_pretty o) false (o_fbas o) (o_groupings o)) "symmetric_clusters" _ _ _ _ _); [no_newline|reflexivity|eassumption].
Qed.
Lemma sets_fine E c name t1 t2 g o a l a' : ~ In end_of_line (bytes name) -> report_sets E c name t1 t2 g o a = Ok (l, a') -> Forall (fine (o_pretty o)) l.
Proof.
  intros Hn H. unfold report_sets in H. next H. destruct r as [s a1]. next H. next H. next H. destruct r1 as [s' a2]. injection H as <- <-.
  apply Forall_app. split; [|apply comment_fine]. eapply timed_fine; [exact Hn| |eassumption]. discriminate.
Qed.
Lemma intersection_fine E alt o a l a' : report_quorum_intersection E alt o a = Ok (l, a') -> Forall (fine (o_pretty o)) l.
Proof.
  unfold report_quorum_intersection. intro H. next H. destruct r as [[b l1] a1]. injection H as <- <-. apply Forall_app. split; [|apply comment_fine].
  destruct alt.
  - next Er. destruct r as [ans a2]. cbn [fst snd] in Er. destruct ans as [| | | | |]; try discriminate Er. next Er. next Er. injection Er as <- <- <-.
    apply Forall_app. split; [apply comment_fine|]. apply Forall_app. split.
    + eapply timed_fine; [| |eassumption]; [no_newline|discriminate].
    + match goal with H : match ?x with Some _ => _ | None => _ end = Ok _ |- _ => destruct x as [q|]; [|injection H as <-; constructor] end. eapply result_fine; [| |eassumption]; [no_newline|discriminate].
  - next Er. destruct r as [b1 a2]. next Er. next Er. destruct r0 as [b2 a3]. injection Er as <- <- <-.
    eapply timed_fine; [| |eassumption]; [no_newline|discriminate].
Qed.
Lemma top_tier_fine E g o a l a' : report_top_tier E g o a = Ok (l, a') -> Forall (fine (o_pretty o)) l.
Proof.
  unfold report_top_tier. intro H. next H. destruct r as [s a1]. next H. next H. injection H as <- <-. apply Forall_app. split; [|apply comment_fine].
  eapply uncondensed_fine; [| |eassumption]; [no_newline|discriminate].
Qed.
Lemma when_fine p b run a l a' : (forall a l a', run a = Ok (l, a') -> Forall (fine p) l) -> when b run a = Ok (l, a') -> Forall (fine p) l.
Proof. intros H E. destruct b; cbn [when] in E; [eauto|]. injection E as <- <-. constructor. Qed.
Lemma run_fine E files stdin args items : cli_main E files stdin args = Ok items -> Forall (fine (cli_pretty args)) items.
Proof.
  unfold cli_main, cli_report. intro H. next H. next H. next H. destruct (extract_main_todos args) as [[q b] s]. unfold out_init in H.
  set (o := mk_out _ _ _ _ _) in *. change (cli_pretty args) with (o_pretty o).
  next H. destruct r2 as [l1 a1]. next H. destruct r2 as [l2 a2]. next H. destruct r2 as [l3 a3]. next H. destruct r2 as [l4 a4].
  next H. destruct r2 as [l5 a5]. next H. destruct r2 as [l6 a6]. next H. destruct r2 as [l7 a7]. injection H as <-.
  apply Forall_app. split; [|apply Forall_app; split; [|apply Forall_app; split; [apply comment_fine|apply Forall_app; split; [|apply Forall_app; split; [|apply Forall_app; split; [|apply Forall_app; split; [|apply Forall_app; split]]]]]]].
  - destruct (cli_results_only args); [constructor|]. apply Forall_app. split; [destruct (cli_pretty args)|destruct (cli_describe args)]; repeat constructor.
  - eapply overview_fine; eauto.
  - eapply clusters_fine; eauto.
  - eapply when_fine; [|eassumption]. intros. eapply sets_fine; [|eauto]. no_newline.
  - eapply when_fine; [|eassumption]. intros. eapply intersection_fine; eauto.
  - eapply when_fine; [|eassumption]. intros. eapply sets_fine; [|eauto]. no_newline.
  - eapply when_fine; [|eassumption]. intros. eapply sets_fine; [|eauto]. no_newline.
  - eapply when_fine; [|eassumption]. intros. eapply top_tier_fine; eauto.
Qed.

(** ** runs with texts *)
Definition no_breaks (float_text : f64 -> list ascii) (duration_text : string -> list ascii) : Prop :=
  (forall x, ~ In end_of_line (float_text x)) /\ forall name, ~ In end_of_line (duration_text name).
Lemma output_printed ft dt E mz files stdin args out : float_format mz ft -> (forall name, ~ In end_of_line (dt name)) ->
  cli_output ft dt E mz files stdin args = Ok out ->
  exists items texts, cli_main E (fun p => tree_of mz (files p)) (tree_of mz stdin) args = Ok items /\ out = concat texts /\
    Forall2 (fun i t => printed_item mz ft dt i t /\ (is_result i = true -> cli_pretty args = false \/ (forall v, i <> Line "symmetric_clusters" v) -> one_line t)) items texts.
Proof.
  intros Hf Hd H. unfold cli_output in H. next H. next H. next H. injection H as <-. exists r1, (map (item_text ft dt) r1). split; [auto|].
  split; [apply flat_map_concat_map|]. apply run_fine in Er1.
  assert (Hl : forall x, ~ In end_of_line (ft x)).
  { intros x X. destruct (is_finite x) eqn:Ex.
    - apply (proj1 Hf) in Ex. inversion Ex as [t v Hi Ej Et|t v Hi Hv Ej Et|Ej Et|sign t v fr ex Hs Hi Hfr Hex Hne Ej Et].
      + destruct mz; try discriminate. rewrite <- Et in X. cbn in X. repeat (destruct X as [X|X]; [discriminate X|]). exact X.
      + rewrite <- Et in X. apply in_app_iff in X. destruct X as [X|X].
        * destruct Hs as [<-|[<-|[]]]; cbn in X; repeat (destruct X as [X|X]; [discriminate X|]); exact X.
        * apply in_app_iff in X. destruct X as [X|X]; [apply (digits_no_newline t v (proj1 Hi) X)|].
          apply in_app_iff in X. destruct X as [X|X].
          -- destruct Hfr as [->|(ds & w & -> & Hds)]; [destruct X|]. destruct X as [X|X]; [discriminate X|]. apply (digits_no_newline ds w Hds X).
          -- destruct Hex as [->|(e & sg & ds & w & -> & He & Hsg & Hds)]; [destruct X|]. destruct X as [X|X]; [destruct He as [<-|[<-|[]]]; discriminate X|].
             apply in_app_iff in X. destruct X as [X|X]; [|apply (digits_no_newline ds w Hds X)].
             destruct Hsg as [<-|[<-|[<-|[]]]]; cbn in X; repeat (destruct X as [X|X]; [discriminate X|]); exact X.
    - rewrite (proj2 Hf x Ex) in X. revert X. no_newline. }
  induction Er1 as [|i items Hi Hitems IH]; cbn [map]; constructor; [|apply IH].
  split; [apply item_printed; auto|]. intros Hr Hc. apply result_one_line; auto.
  - intros name v ->. destruct Hi as [Hn Hcl]. split; [auto|]. intro C. destruct (Hcl C) as [Hp ->]. destruct Hc as [Hc|Hc]; [congruence|]. apply (Hc v eq_refl).
  - intros name ->. exact Hi.
Qed.

Lemma raw_from_text mz s l : raw_nodes_from_text mz s = Ok l -> exists j, read_json mz s = Ok j /\ raw_fbas_of_json j = Ok l.
Proof.
  unfold raw_nodes_from_text. intro H. next H. next H. exists r. split; auto. unfold assert in H. destruct (fbas_within recursion_limit r0); [congruence|discriminate].
Qed.
Lemma printed_report ft dt E mz files stdin args s f o : ext_ok E -> float_format mz ft ->
  nodes_text args files stdin s -> fbas_from_text mz s = Ok f ->
  text_groups_to_merge mz args files f o -> (forall G, o = Some G -> disjoint_groups (g_groupings G)) ->
  (uses_alternative args -> has_a_quorum f) -> (wants_blocking args -> has_a_quorum f /\ sane_clusters f) ->
  (wants_splitting args -> has_a_quorum f /\ splittable_clusters f) ->
  exists out items, cli_output ft dt E mz files stdin args = Ok out /\ prints mz ft dt items out /\ report args f o (results items).
Proof.
  intros HE Hf Hs Hr Hg Hd H1 H2 H3. unfold fbas_from_text in Hr. destruct (raw_nodes_from_text mz s) as [l|] eqn:El; [|discriminate Hr]. injection Hr as <-.
  destruct (raw_from_text _ _ _ El) as (j & Ej & Ejl).
  assert (Hn : nodes_document args (fun p => tree_of mz (files p)) (tree_of mz stdin) j).
  { unfold nodes_document, nodes_text in *. destruct (cli_nodes_path args); rewrite Hs; cbn [tree_of]; rewrite Ej; auto. }
  assert (Hfj : fbas_from_json j = Ok (fbas_from_raw l)) by (unfold fbas_from_json; rewrite Ejl; auto).
  assert (Hgr : groups_to_merge args (fun p => tree_of mz (files p)) (fbas_from_raw l) o).
  { unfold text_groups_to_merge, groups_to_merge in *. destruct (cli_ctry_merge args).
    - destruct (cli_nodes_path args) as [p|]; [|exact Hg]. destruct Hg as (s' & G & Es & EG & ->). unfold countries_from_text in EG. next EG. next EG.
      destruct (raw_from_text _ _ _ Er) as (j' & Ej' & Ejl'). exists j', G. rewrite Es. cbn [tree_of]. rewrite Ej'. split; [auto|]. split; [|auto].
      unfold countries_from_json. rewrite Ejl'. cbn [bind]. rewrite Er0. auto.
    - destruct (cli_isp_merge args).
      + destruct (cli_nodes_path args) as [p|]; [|exact Hg]. destruct Hg as (s' & G & Es & EG & ->). unfold isps_from_text in EG. next EG. next EG.
        destruct (raw_from_text _ _ _ Er) as (j' & Ej' & Ejl'). exists j', G. rewrite Es. cbn [tree_of]. rewrite Ej'. split; [auto|]. split; [|auto].
        unfold isps_from_json. rewrite Ejl'. cbn [bind]. rewrite Er0. auto.
      + destruct (cli_organizations_path args) as [p|]; [|exact Hg]. destruct Hg as (s' & G & Es & EG & ->). unfold groupings_from_text in EG. next EG.
        exists r, G. rewrite Es. cbn [tree_of]. rewrite Er. auto. }
  destruct (full_report E _ _ args j l _ o HE Hn Ejl Hfj Hgr Hd H1 H2 H3) as (items & Ei & Hrep).
  exists (output_text ft dt items), items. split; [|split; [apply items_printed; auto|auto]].
  assert (En : unwrap (match cli_nodes_path args with Some p => files p | None => stdin end) = Ok s).
  { unfold nodes_text in Hs. destruct (cli_nodes_path args); rewrite Hs; auto. }
  unfold cli_output. rewrite En. cbn [bind]. rewrite El. cbn [bind]. rewrite Ei. reflexivity.
Qed.

(** examples *)
Definition some_format (x : f64) : list ascii := if is_finite x then bytes "0.5" else bytes "null".
Lemma some_format_ok mz : float_format mz some_format.
Proof.
  split; intros x H; unfold some_format; rewrite H; [|reflexivity].
  apply (number_float mz [] (bytes "0") 0%N (bytes ".5") []).
  - left; auto.
  - split; [|left; reflexivity]. apply (digits_one "0"%char 0). reflexivity.
  - right. exists (bytes "5"), 5%N. split; [reflexivity|]. apply (digits_one "5"%char 5). reflexivity.
  - auto.
  - discriminate.
Qed.
Definition text_files (p : path) : option (list ascii) :=
  if String.eqb p "data/x_nodes.json" then Some (fbas_to_text_pretty three)
  else if String.eqb p "data/x_organizations.json" then Some (bytes "[{""name"":""Org\n"",""validators"":[""b"",""c""]}]")
  else None.
Definition some_duration (name : string) : list ascii := bytes "0.25".
Lemma several_lines : exists v, (exists l, v = VPrettyQsets l) /\
  forall float_text duration_text, ~ one_line (item_text float_text duration_text (Line "symmetric_clusters" v)).
Proof.
  exists (VPrettyQsets [PQS 1 ["a"] []]). split; [eauto|]. intros ft dt (l & E & H). vm_compute in E.
  apply H. assert (X : removelast (l ++ [end_of_line]) = l) by apply removelast_last. vm_compute in X. rewrite <- X, <- E. cbn. tauto.
Qed.
Lemma text_orgs : exists G, text_groups_to_merge true with_orgs text_files three (Some G) /\ disjoint_groups (g_groupings G).
Proof.
  eexists. split.
  - cbn [text_groups_to_merge with_orgs options cli_ctry_merge cli_isp_merge cli_organizations_path]. eexists. eexists. split; [reflexivity|]. split; [vm_compute; reflexivity|reflexivity].
  - cbn [g_groupings]. intros i j gi gj x Hi Hj _ _. destruct i as [|i]; [|destruct i; discriminate Hi]. destruct j as [|j]; [auto|destruct j; discriminate Hj].
Qed.

(** a format as required *)
Definition plain_format (x : f64) : list ascii :=
  match x with
  | B754_zero s => (if s then bytes "-" else []) ++ bytes "0.0"
  | B754_finite s m e _ => (if s then bytes "-" else []) ++ print_N (Npos m) ++ bytes "e" ++ print_Z e
  | _ => bytes "null"
  end.
Lemma print_Z_exponent e : exponent (bytes "e" ++ print_Z e).
Proof.
  unfold print_Z. destruct (e <? 0)%Z.
  - exists "e"%char, (bytes "-"), (print_N (Z.abs_N e)), (Z.abs_N e). split; [reflexivity|]. split; [left; auto|]. split; [right; right; left; auto|apply print_N_spec].
  - exists "e"%char, [], (print_N (Z.to_N e)), (Z.to_N e). split; [reflexivity|]. split; [left; auto|]. split; [left; auto|apply print_N_spec].
Qed.
Lemma plain_format_ok mz : float_format mz plain_format.
Proof.
  split; intros x H; destruct x as [s|s| |s m e Hb]; try discriminate H; cbn [plain_format]; try reflexivity.
  - apply (number_float mz (if s then bytes "-" else []) (bytes "0") 0%N (bytes ".0") []).
    + destruct s; [right; left|left]; auto.
    + split; [apply (digits_one "0"%char 0); reflexivity|left; reflexivity].
    + right. exists (bytes "0"), 0%N. split; [reflexivity|]. apply (digits_one "0"%char 0). reflexivity.
    + auto.
    + discriminate.
  - apply (number_float mz (if s then bytes "-" else []) (print_N (Npos m)) (Npos m) [] (bytes "e" ++ print_Z e)).
    + destruct s; [right; left|left]; auto.
    + apply print_N_spec.
    + auto.
    + right. apply print_Z_exponent.
    + discriminate.
Qed.
Lemma digits_only t v c : digits_of t v -> In c t -> In c decimal_digits.
Proof.
  assert (G : forall c d, digit_of c d -> In c decimal_digits) by (intros x d H; eapply nth_error_In; exact H).
  induction 1 as [d k H|t v d k H IH Hd]; intro X.
  - destruct X as [<-|[]]. eauto.
  - apply in_app_iff in X. destruct X as [X|[<-|[]]]; eauto.
Qed.
Lemma split_at_char c (a b a' b' : list ascii) : ~ In c a -> ~ In c a' -> a ++ c :: b = a' ++ c :: b' -> a = a' /\ b = b'.
Proof.
  revert a'. induction a as [|x a IH]; intros [|x' a'] H H' E; cbn [app] in E.
  - injection E as <-. auto.
  - injection E as <- _. exfalso. apply H'. left; auto.
  - injection E as -> _. exfalso. apply H. left; auto.
  - injection E as <- E. destruct (IH a') as [-> ->]; auto; intro X; [apply H|apply H']; right; auto.
Qed.
Lemma print_N_digits n c : In c (print_N n) -> In c decimal_digits.
Proof. apply (digits_only _ n). apply print_N_spec. Qed.
Lemma print_N_inj n n' : print_N n = print_N n' -> n = n'.
Proof.
  intro E. assert (D : document true (JInt (Z.of_N n)) (print_N n)) by (apply value_document, value_number, number_natural, print_N_spec).
  assert (D' : document true (JInt (Z.of_N n')) (print_N n')) by (apply value_document, value_number, number_natural, print_N_spec).
  rewrite E in D. assert (X := document_unique true _ _ _ D D'). injection X. lia.
Qed.
Lemma print_Z_inj z z' : print_Z z = print_Z z' -> z = z'.
Proof.
  intro E. assert (D := value_document true _ _ (value_number true _ _ (print_Z_number true z))). assert (D' := value_document true _ _ (value_number true _ _ (print_Z_number true z'))).
  rewrite E in D. assert (X := document_unique true _ _ _ D D'). injection X. auto.
Qed.
Lemma signs_inj (s s' : bool) t t' c c' : In c decimal_digits -> In c' decimal_digits ->
  (if s then bytes "-" else []) ++ c :: t = (if s' then bytes "-" else []) ++ c' :: t' -> s = s' /\ c :: t = c' :: t'.
Proof.
  intros H H' E. destruct s, s'; cbn [bytes list_ascii_of_string app] in E; auto.
  - injection E as -> ->. auto.
  - injection E as <- _. exfalso. cbn in H'. repeat (destruct H' as [H'|H']; [discriminate H'|]). exact H'.
  - injection E as -> _. exfalso. cbn in H. repeat (destruct H as [H|H]; [discriminate H|]). exact H.
Qed.
Lemma print_N_head n : exists c t, print_N n = c :: t /\ In c decimal_digits.
Proof.
  destruct (print_N n) as [|c t] eqn:E.
  - assert (X := print_N_spec n). rewrite E in X. destruct X as [X _]. exfalso. remember [] as l eqn:El. destruct X; [discriminate|]. destruct t; discriminate.
  - exists c, t. split; auto. apply (print_N_digits n). rewrite E. left; auto.
Qed.
Lemma plain_format_faithful : faithful_format plain_format.
Proof.
  assert (Hdot : ~ In "e"%char decimal_digits) by (cbn; intro X; repeat (destruct X as [X|X]; [discriminate X|]); exact X).
  assert (Hz : forall n t, print_N n ++ "e"%char :: t <> bytes "0.0").
  { intros n t E. assert (In "e"%char (bytes "0.0")) by (rewrite <- E; apply in_app_iff; right; left; auto).
    cbn in H. repeat (destruct H as [H|H]; [discriminate H|]). exact H. }
  intros x y Hx Hy E. destruct x as [s|s| |s m e Hb]; try discriminate Hx; destruct y as [s'|s'| |s' m' e' Hb']; try discriminate Hy; cbn [plain_format] in E.
  - destruct s, s'; auto; discriminate E.
  - destruct (print_N_head (Npos m')) as (c & t & Ec & Hc). exfalso. rewrite Ec in E. apply (signs_inj s s' (bytes ".0") (t ++ bytes "e" ++ print_Z e') "0"%char c) in E; [|left; auto|auto].
    destruct E as [_ E]. apply (Hz (Npos m') (print_Z e')). rewrite Ec. symmetry. exact E.
  - destruct (print_N_head (Npos m)) as (c & t & Ec & Hc). exfalso. rewrite Ec in E. apply (signs_inj s s' (t ++ bytes "e" ++ print_Z e) (bytes ".0") c "0"%char) in E; [|auto|left; auto].
    destruct E as [_ E]. apply (Hz (Npos m) (print_Z e)). rewrite Ec. exact E.
  - destruct (print_N_head (Npos m)) as (c & t & Ec & Hc). destruct (print_N_head (Npos m')) as (c' & t' & Ec' & Hc').
    assert (X : s = s' /\ print_N (Npos m) ++ "e"%char :: print_Z e = print_N (Npos m') ++ "e"%char :: print_Z e').
    { rewrite Ec, Ec' in *. apply (signs_inj s s' (t ++ bytes "e" ++ print_Z e) (t' ++ bytes "e" ++ print_Z e') c c') in E; auto. }
    destruct X as [-> X]. apply split_at_char in X; [|intro Y; apply Hdot, (print_N_digits (Npos m)); auto|intro Y; apply Hdot, (print_N_digits (Npos m')); auto].
    destruct X as [X1 X2]. apply print_N_inj in X1. injection X1 as ->. apply print_Z_inj in X2. subst e'. f_equal. apply Eqdep_dec.UIP_dec. decide equality.
Qed.
