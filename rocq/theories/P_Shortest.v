(** No text of a value is shorter than the one that is written. *)
From Coq Require Import ZArith Ascii.
From Verif Require Export P_JsonPrint.
Local Open Scope char_scope.
Local Open Scope list_scope.

(** ** strings *)
Lemma escape_plain c : plain c -> length (escape c) = 1.
Proof.
  intros (H1 & H2 & H3). unfold escape. apply Ascii.eqb_neq in H1, H2. rewrite H1, H2.
  repeat match goal with |- context [Ascii.eqb c ?b] => let E := fresh in destruct (Ascii.eqb c b) eqn:E; [apply Ascii.eqb_eq in E; subst c; vm_compute in H3; congruence|] end.
  destruct (N_of_ascii c <? 32)%N eqn:E; [apply N.ltb_lt in E; lia|reflexivity].
Qed.
Lemma escape_short e c : In (e, c) short_escapes -> length (escape c) <= 2.
Proof. unfold short_escapes. intro H. cbn [In] in H. repeat destruct H as [H|H]; try (injection H as <- <-; vm_compute; lia). destruct H. Qed.
Lemma escape_bound c : length (escape c) <= 6.
Proof. unfold escape. repeat match goal with |- context [if ?b then _ else _] => destruct b; [cbn [length]; lia|] end. cbn [length]. lia. Qed.
Lemma escape_high n : (128 <= n)%N -> (n < 256)%N -> length (escape (ascii_of_N n)) = 1.
Proof.
  intros H1 H2. apply escape_plain. assert (X : N_of_ascii (ascii_of_N n) = n) by (apply N_ascii_embedding; auto).
  repeat split; [intro Y; rewrite Y in X; vm_compute in X; lia|intro Y; rewrite Y in X; vm_compute in X; lia|lia].
Qed.
Lemma escape_char n bs : char_bytes n bs -> length (flat_map escape bs) <= 6.
Proof.
  intros (l & -> & H). destruct H as [(_ & ->)|[(x & y & _ & Hx & Hy & _ & ->)|[(x & y & z & _ & Hx & Hy & Hz & _ & ->)|(w & x & y & z & _ & Hw & Hx & Hy & Hz & _ & ->)]]];
    cbn [map flat_map]; rewrite ?app_nil_r, ?app_length; rewrite ?escape_high by lia; try lia. apply escape_bound.
Qed.
Lemma denotes_length t b : denotes t b -> length (flat_map escape b) <= length t.
Proof.
  induction 1 as [|c t b Hc H IH|e c t b Hc H IH|h n bs t b Hh _ _ Hb H IH|h n h' n' bs t b Hh Hh' _ _ Hb H IH]; cbn [flat_map length]; rewrite ?flat_map_app, ?app_length.
  - lia.
  - rewrite (escape_plain c Hc). lia.
  - assert (X := escape_short e c Hc). lia.
  - assert (X := escape_char _ _ Hb). destruct Hh as (a & b' & c & d & w & x & y & z & -> & _). cbn [length]. lia.
  - assert (X := escape_char _ _ Hb). destruct Hh as (a & b' & c & d & w & x & y & z & -> & _). repeat (rewrite ?app_length; cbn [length app]). lia.
Qed.
Lemma print_string_length s t : denotes t (list_ascii_of_string s) -> length (print_string s) <= S (S (length t)).
Proof. intro H. apply denotes_length in H. unfold print_string. cbn [length]. rewrite app_length. cbn [length]. lia. Qed.

(** ** numbers *)
Lemma digit_bound c d : digit_of c d -> d < 10.
Proof. unfold digit_of. intro H. assert (X : nth_error decimal_digits d <> None) by congruence. apply nth_error_Some in X. exact X. Qed.
Lemma digits_upper t v : digits_of t v -> (v < 10 ^ N.of_nat (length t))%N.
Proof.
  induction 1 as [c d H|t v c d H IH Hd].
  - apply digit_bound in H. cbn. lia.
  - apply digit_bound in Hd. rewrite app_length. cbn [length]. replace (N.of_nat (length t + 1)) with (N.succ (N.of_nat (length t))) by lia. rewrite N.pow_succ_r'. lia.
Qed.
Lemma digits_lower t v : digits_of t v -> ~ (exists r, t = "0" :: r) -> (10 ^ N.of_nat (length t) <= 10 * v)%N.
Proof.
  induction 1 as [c d H|t v c d H IH Hd]; intro Hz.
  - destruct d as [|d]; [exfalso; apply Hz; unfold digit_of in H; cbn in H; injection H as <-; eauto|]. cbn. lia.
  - rewrite app_length. cbn [length]. replace (N.of_nat (length t + 1)) with (N.succ (N.of_nat (length t))) by lia. rewrite N.pow_succ_r'.
    assert (X : ~ (exists r, t = "0" :: r)) by (intros (r & ->); apply Hz; cbn [app]; eauto). specialize (IH X). lia.
Qed.
Lemma digits_nonempty t v : digits_of t v -> 1 <= length t.
Proof. induction 1; rewrite ?app_length; cbn [length]; lia. Qed.
Lemma integer_length t t' v : integer_of t v -> digits_of t' v -> length t <= length t'.
Proof.
  intros (H & Hz) H'. destruct Hz as [->|Hz]; [apply digits_nonempty in H'; cbn [length]; lia|].
  assert (A := digits_lower t v H Hz). assert (B := digits_upper t' v H'). destruct (Nat.le_gt_cases (length t) (length t')) as [L|L]; auto.
  assert (X : (10 ^ N.succ (N.of_nat (length t')) <= 10 ^ N.of_nat (length t))%N) by (apply N.pow_le_mono_r; lia). rewrite N.pow_succ_r' in X. lia.
Qed.
Lemma print_Z_length mz z t : number mz (JInt z) t -> length (print_Z z) <= length t.
Proof.
  intro H. inversion H as [t' v Hv E|t' v Hv Hn E|E|]; subst; unfold print_Z.
  - replace (Z.of_N v <? 0)%Z with false by (symmetry; apply Z.ltb_ge; lia). rewrite N2Z.id. apply (integer_length _ _ v); [apply print_N_spec|apply Hv].
  - replace (- Z.of_N v <? 0)%Z with true by (symmetry; apply Z.ltb_lt; lia). replace (Z.abs_N (- Z.of_N v)) with v by lia. cbn [length].
    apply le_n_S, (integer_length _ _ v); [apply print_N_spec|apply Hv].
  - destruct mz; [|discriminate]. injection E as <-. cbn. lia.
Qed.

(** ** values *)
Scheme value_rec := Induction for value Sort Prop with items_rec := Induction for array_items Sort Prop with members_rec := Induction for members Sort Prop.
Combined Scheme texts_rec from value_rec, items_rec, members_rec.
Definition member_text (e : string * json) : text := print_string (fst e) ++ ":" :: print_json (snd e).

Lemma join_more (a b : text) l : join [","] (a :: b :: l) = a ++ "," :: join [","] (b :: l).
Proof. reflexivity. Qed.

Lemma value_lengths mz :
  (forall j t, value mz j t -> printable j -> length (print_json j) <= length t) /\
  (forall l t, array_items mz l t -> (forall j, In j l -> printable j) -> length (join [","] (map print_json l)) <= length t) /\
  (forall l t, members mz l t -> forall fs, l = map (fun e => (Some (list_ascii_of_string (fst e)), snd e)) fs ->
     (forall k j, In (k, j) fs -> printable j) -> length (join [","] (map member_text fs)) <= length t).
Proof.
  apply (texts_rec mz (fun j t _ => printable j -> length (print_json j) <= length t)
    (fun l t _ => (forall j, In j l -> printable j) -> length (join [","] (map print_json l)) <= length t)
    (fun l t _ => forall fs, l = map (fun e => (Some (list_ascii_of_string (fst e)), snd e)) fs ->
     (forall k j, In (k, j) fs -> printable j) -> length (join [","] (map member_text fs)) <= length t)).
  - intros _. cbn. lia.
  - intros _. cbn. lia.
  - intros _. cbn. lia.
  - intros j t H Hp. destruct Hp as [|b|z|s|l Hl|fs Hl]; try solve [inversion H; match goal with X : (if ?m then _ else _) = _ |- _ => destruct m; discriminate end].
    exact (print_Z_length mz z t H).
  - intros t s H _. cbn [string_text] in H. apply print_string_length in H. cbn [print_json length]. rewrite app_length. cbn [length]. lia.
  - intros t H Hp. inversion Hp.
  - intros w _ _. cbn [print_json map join length app]. rewrite app_length. cbn [length]. lia.
  - intros l t _ IH Hp. inversion Hp as [| | | |l' Hl|]; subst. cbn [print_json length]. rewrite !app_length. specialize (IH Hl). lia.
  - intros w _ _. cbn [print_json map join length app]. rewrite app_length. cbn [length]. lia.
  - intros l t j _ IH Ho Hp. destruct Ho as [(fs & -> & ->)|(_ & ->)]; [|inversion Hp]. inversion Hp as [| | | | |fs' Hl]; subst.
    specialize (IH fs eq_refl Hl). cbn [print_json length]. rewrite !app_length. unfold member_text in IH. lia.
  - intros j w t w' _ _ IH _ Hl. cbn [map join]. rewrite !app_length. specialize (IH (Hl j (or_introl eq_refl))). lia.
  - intros j w t w' l u _ _ IH _ _ IH' Hl. specialize (IH (Hl j (or_introl eq_refl))). specialize (IH' (fun x Hx => Hl x (or_intror Hx))).
    rewrite !app_length. cbn [length map]. destruct l as [|j' l]; cbn [map] in *; [cbn [join]; lia|]. rewrite join_more, app_length. cbn [length]. lia.
  - intros k j w kt w1 w2 t w' _ Hk _ _ _ IH _ fs E Hl. destruct fs as [|(k', j') [|]]; try discriminate. cbn [map fst snd] in E. injection E as -> ->.
    specialize (IH (Hl k' j' (or_introl eq_refl))). apply print_string_length in Hk. cbn [map join]. unfold member_text. cbn [fst snd].
    repeat (rewrite !app_length; cbn [length]). lia.
  - intros k j w kt w1 w2 t w' l u _ Hk _ _ _ IH _ _ IH' fs E Hl. destruct fs as [|(k', j') fs]; [discriminate|]. cbn [map fst snd] in E. injection E as -> -> ->.
    specialize (IH (Hl k' j' (or_introl eq_refl))). apply print_string_length in Hk. specialize (IH' fs eq_refl (fun a b X => Hl a b (or_intror X))).
    assert (X : length (member_text (k', j')) <= S (S (length kt)) + S (length t)) by (unfold member_text; cbn [fst snd]; repeat (rewrite !app_length; cbn [length]); lia).
    repeat (rewrite !app_length; cbn [length]). cbn [map]. destruct fs as [|e fs]; cbn [map] in *; [cbn [join]; lia|]. rewrite join_more, app_length. cbn [length]. lia.
Qed.
Lemma shortest mz j t : printable j -> document mz j t -> length (print_json j) <= length t.
Proof. intros Hp (w & u & w' & _ & Hv & _ & ->). apply (proj1 (value_lengths mz) j u Hv) in Hp. rewrite !app_length. lia. Qed.

Lemma fbas_shortest mz f t : document mz (fbas_to_json f) t -> length (fbas_to_text f) <= length t.
Proof. exact (shortest mz _ t (fbas_printable f)). Qed.
