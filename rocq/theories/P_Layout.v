(** [to_json_string_pretty] lays out what [to_json_string] writes. *)
From Coq Require Import ZArith Ascii.
From Verif Require Export P_JsonPrint P_Shortest P_CliText Spec_Layout.
Local Open Scope char_scope.
Local Open Scope list_scope.

Lemma indent_new_line level : indent level = new_line level.
Proof. unfold indent, new_line. do 2 f_equal. lia. Qed.

(** strings *)
Lemma escape_inside c level rest : laid_out level Inside (escape c ++ rest) = escape c ++ laid_out level Inside rest.
Proof. all_bytes c; reflexivity. Qed.
Lemma escapes_inside s level rest : laid_out level Inside (flat_map escape s ++ rest) = flat_map escape s ++ laid_out level Inside rest.
Proof. induction s as [|c s IH]; auto. cbn [flat_map]. rewrite <- !app_assoc, escape_inside, IH. auto. Qed.
Lemma string_outside s level rest : laid_out level Outside (print_string s ++ rest) = print_string s ++ laid_out level Outside rest.
Proof.
  unfold print_string. cbn [app]. rewrite <- !app_assoc.
  change (quote :: laid_out level Inside (flat_map escape (list_ascii_of_string s) ++ [quote] ++ rest) =
    quote :: flat_map escape (list_ascii_of_string s) ++ [quote] ++ laid_out level Outside rest).
  rewrite escapes_inside. reflexivity.
Qed.

(** numbers and words *)
Definition plain (c : ascii) : bool :=
  negb (opening c || closing c || Ascii.eqb c "," || Ascii.eqb c ":" || Ascii.eqb c "034").
Lemma plain_outside s level rest : forallb plain s = true -> laid_out level Outside (s ++ rest) = s ++ laid_out level Outside rest.
Proof.
  induction s as [|c s IH]; auto. cbn [forallb]. rewrite andb_true_iff. intros [Hc Hs]. cbn [app laid_out].
  unfold plain in Hc. apply negb_true_iff in Hc. apply orb_false_iff in Hc. destruct Hc as [Hc H5]. apply orb_false_iff in Hc. destruct Hc as [Hc H4].
  apply orb_false_iff in Hc. destruct Hc as [Hc H3]. apply orb_false_iff in Hc. destruct Hc as [H1 H2]. rewrite H1, H2, H3, H4, H5, IH; auto.
Qed.
Lemma digit_plain n : (n < 10)%N -> plain (ascii_of_N (48 + n)) = true.
Proof.
  intro H. assert (X : exists k, k < 10 /\ n = N.of_nat k) by (exists (N.to_nat n); lia). destruct X as (k & Hk & ->).
  do 10 (destruct k as [|k]; [reflexivity|]). lia.
Qed.
Lemma digits_plain fuel : forall n acc, forallb plain acc = true -> forallb plain (print_digits fuel n acc) = true.
Proof.
  induction fuel as [|fuel IH]; intros n acc H; auto. cbn [print_digits].
  assert (Hd : forallb plain (ascii_of_N (48 + n mod 10) :: acc) = true) by (cbn [forallb]; rewrite digit_plain, H; auto; apply N.mod_lt; lia).
  destruct (n <? 10)%N; auto.
Qed.
Lemma print_digits_nonempty fuel : forall n acc, acc <> [] -> print_digits fuel n acc <> [].
Proof. induction fuel as [|fuel IH]; intros n acc H; auto. cbn [print_digits]. destruct (n <? 10)%N; [discriminate|apply IH; discriminate]. Qed.
Lemma print_N_plain n : forallb plain (print_N n) = true /\ print_N n <> [].
Proof.
  split; [apply digits_plain; auto|]. unfold print_N. cbn [print_digits]. destruct (n <? 10)%N; [discriminate|apply print_digits_nonempty; discriminate].
Qed.
Lemma print_Z_plain z : forallb plain (print_Z z) = true /\ print_Z z <> [].
Proof.
  unfold print_Z. destruct (z <? 0)%Z; [|apply print_N_plain]. split; [|discriminate]. cbn [forallb]. rewrite (proj1 (print_N_plain _)). auto.
Qed.

(** no value starts with a closing bracket *)
Lemma starts_open j : printable j -> exists c s, print_json j = c :: s /\ closing c = false.
Proof.
  intro H. destruct H as [|b|z|s|l _|fs _]; cbn [print_json]; try (eexists; eexists; split; reflexivity).
  - destruct b; eexists; eexists; split; reflexivity.
  - destruct (print_Z_plain z) as [H1 H2]. destruct (print_Z z) as [|c s]; [congruence|]. exists c, s. split; auto.
    cbn [forallb] in H1. apply andb_true_iff in H1. destruct H1 as [H1 _]. unfold plain in H1. apply negb_true_iff in H1.
    rewrite !orb_false_iff in H1. tauto.
Qed.
Lemma open_step c level (s : list ascii) d t rest : opening c = true -> s ++ rest = d :: t -> closing d = false ->
  laid_out level Outside (c :: s ++ rest) = c :: indent (S level) ++ laid_out (S level) Outside (s ++ rest).
Proof. intros Hc E Hd. cbn [laid_out]. rewrite Hc, E, Hd. auto. Qed.
Lemma close_step c level rest : closing c = true -> laid_out (S level) Outside (c :: rest) = indent level ++ c :: laid_out level Outside rest.
Proof.
  intro H. assert (E : opening c = false).
  { unfold closing, opening in *. apply orb_true_iff in H. destruct H as [H|H]; apply Ascii.eqb_eq in H; subst c; reflexivity. }
  cbn [laid_out]. rewrite E, H. auto.
Qed.
Lemma comma_step level rest : laid_out level Outside ("," :: rest) = "," :: indent level ++ laid_out level Outside rest.
Proof. reflexivity. Qed.

Lemma joined_out {A} level (pr pp : A -> list ascii) (l : list A) rest : l <> [] ->
  (forall a rest, In a l -> laid_out level Outside (pr a ++ rest) = pp a ++ laid_out level Outside rest) ->
  indent level ++ laid_out level Outside (join [","] (map pr l) ++ rest) =
  join [","] (map (fun a => indent level ++ pp a) l) ++ laid_out level Outside rest.
Proof.
  intros Hn H. induction l as [|a l IH]; [congruence|]. destruct l as [|b l].
  - cbn [map join]. rewrite H by (left; auto). rewrite app_assoc. auto.
  - assert (E : forall (g : A -> list ascii), join [","] (map g (a :: b :: l)) = g a ++ "," :: join [","] (map g (b :: l))) by reflexivity.
    rewrite !E, <- !app_assoc. rewrite H by (left; auto). cbn [app]. rewrite comma_step, IH; [auto|discriminate|].
    intros x r Hx. apply H. right; auto.
Qed.
Lemma join_first {A} (pr : A -> list ascii) a l rest c s : pr a = c :: s -> exists t, join [","] (map pr (a :: l)) ++ rest = c :: t.
Proof. intro E. destruct l as [|b l]; cbn [map join]; rewrite E; cbn [app]; eauto. Qed.

Lemma value_out j : forall level rest, printable j -> laid_out level Outside (print_json j ++ rest) = print_pretty level j ++ laid_out level Outside rest.
Proof.
  induction j as [|b|z| |s|l IH|fs IH|] using json_ind'; intros level rest H; inversion H as [| | | |? Hl|? Hf]; subst; cbn [print_json].
  - reflexivity.
  - destruct b; reflexivity.
  - apply plain_outside, print_Z_plain.
  - apply string_outside.
  - destruct l as [|j l]; [reflexivity|]. set (L := j :: l) in *.
    change (print_pretty level (JArr L)) with ("[" :: join [","] (map (fun x => new_line (S level) ++ print_pretty (S level) x) L) ++ new_line level ++ ["]"]).
    cbn [app]. rewrite <- !app_assoc. destruct (starts_open j (Hl j (or_introl eq_refl))) as (c & s & Ec & Hc).
    destruct (join_first print_json j l (["]"] ++ rest) c s Ec) as (t & Et).
    rewrite (open_step "[" level (join [","] (map print_json L)) c t (["]"] ++ rest) eq_refl Et Hc).
    rewrite (joined_out (S level) print_json (print_pretty (S level)) L); [|discriminate|intros a r Ha; apply IH; auto].
    rewrite <- !indent_new_line. cbn [app]. rewrite close_step by reflexivity. reflexivity.
  - destruct fs as [|e fs]; [reflexivity|]. set (L := e :: fs) in *.
    change (print_pretty level (JObj L)) with
      ("{" :: join [","] (map (fun e => new_line (S level) ++ print_string (fst e) ++ ":" :: " " :: print_pretty (S level) (snd e)) L) ++ new_line level ++ ["}"]).
    cbn [app]. rewrite <- !app_assoc. set (pr := fun e : string * json => print_string (fst e) ++ ":" :: print_json (snd e)).
    assert (Ec : exists s, pr e = quote :: s) by (eexists; unfold pr, print_string; cbn [app]; reflexivity). destruct Ec as (s & Ec).
    destruct (join_first pr e fs (["}"] ++ rest) quote s Ec) as (t & Et).
    rewrite (open_step "{" level (join [","] (map pr L)) quote t (["}"] ++ rest) eq_refl Et eq_refl).
    rewrite (joined_out (S level) pr (fun e => print_string (fst e) ++ ":" :: " " :: print_pretty (S level) (snd e)) L); [|discriminate|].
    + rewrite <- !indent_new_line. cbn [app]. rewrite close_step by reflexivity. reflexivity.
    + intros (k, j) r Hj. unfold pr. cbn [fst snd]. rewrite <- !app_assoc, string_outside. f_equal. cbn [app].
      change (":" :: " " :: laid_out (S level) Outside (print_json j ++ r) = ":" :: " " :: print_pretty (S level) j ++ laid_out (S level) Outside r).
      do 2 f_equal. apply (IH k j Hj). eauto.
Qed.
Lemma pretty_laid_out j : printable j -> print_pretty 0 j = laid_out 0 Outside (print_json j).
Proof. intro H. assert (E := value_out j 0 [] H). rewrite !app_nil_r in E. auto. Qed.
Lemma fbas_pretty f : fbas_to_text_pretty f = laid_out 0 Outside (fbas_to_text f).
Proof. apply pretty_laid_out, fbas_printable. Qed.

(** ** results *)
Lemma clusters_laid_out mz ft l : exists j t, is_list is_pretty_qset j l /\ document mz j t /\ (forall t', document mz j t' -> length t <= length t') /\
  value_text ft (VPrettyQsets l) = laid_out 0 Outside t.
Proof.
  assert (H : printable (JArr (map json_of_pretty_qset l))) by (apply array_printable; intros; apply pretty_qset_printable).
  exists (JArr (map json_of_pretty_qset l)), (print_json (JArr (map json_of_pretty_qset l))).
  split; [apply map_list; intros; apply pretty_tree|]. split; [apply printed_document; auto|]. split; [intros t' Ht; apply (shortest mz); auto|].
  apply pretty_laid_out. exact H.
Qed.
Lemma results_shortest mz ft v t j : (forall l, v <> VPrettyQsets l) -> (forall a b c d, v <> VStatistics a b c d) ->
  document mz j (value_text ft v) -> document mz j t -> length (value_text ft v) <= length t.
Proof.
  intros Hp Hs Hv Ht.
  assert (G : forall k, printable k -> value_text ft v = print_json k -> length (value_text ft v) <= length t).
  { intros k Hk E. rewrite E in *. assert (X : j = k); [|subst; apply (shortest mz); auto].
    assert (Hk' := proj1 (printed_document mz k Hk)). apply read_json_spec in Hv, Hk'. rewrite Hk' in Hv. injection Hv as ->. reflexivity. }
  destruct v as [b|n|l|l|l|l|l|l|number distinct [[mn mx] mean] h].
  - apply (G (JBool b)); [constructor|]. destruct b; reflexivity.
  - apply (G (JInt (Z.of_nat n))); [constructor|]. cbn [value_text print_json]. unfold nat_text, print_Z. destruct (Z.ltb_spec (Z.of_nat n) 0); [lia|]. f_equal. lia.
  - apply (G (json_of_nats l)); [apply nats_printable|reflexivity].
  - apply (G (json_of_names l)); [apply names_printable|reflexivity].
  - apply (G (JArr (map json_of_nats l))); [apply array_printable; intros; apply nats_printable|reflexivity].
  - apply (G (JArr (map json_of_names l))); [apply array_printable; intros; apply names_printable|reflexivity].
  - apply (G (JArr (map json_of_qset l))); [apply array_printable; intros; apply qset_printable|reflexivity].
  - exfalso. apply (Hp l). reflexivity.
  - exfalso. eapply Hs. reflexivity.
Qed.
