(** Reading and writing JSON texts follows the grammar. *)
From Coq Require Import ZArith Ascii.
From Verif Require Export Spec_JsonText P_JsonSpec.
Local Open Scope char_scope.
Local Open Scope list_scope.

Ltac all_bytes c := destruct c as [[|] [|] [|] [|] [|] [|] [|] [|]].

Lemma eqb_true a b : Ascii.eqb a b = true -> a = b. Proof. apply Ascii.eqb_eq. Qed.
Lemma eqb_false a b : a <> b -> Ascii.eqb a b = false. Proof. apply Ascii.eqb_neq. Qed.

Lemma some_eq {A} (a b : A) : Some a = Some b -> a = b. Proof. congruence. Qed.

(** ** whitespace *)
Lemma is_whitespace_spec c : is_whitespace c = true <-> In c [" "; "009"; "010"; "013"].
Proof. unfold is_whitespace. rewrite existsb_exists. split.
  - intros (x & Hx & E). apply eqb_true in E. subst x. cbn in *. tauto.
  - intro H. exists c. split; [cbn in *; tauto|apply Ascii.eqb_refl].
Qed.
Lemma skip_ws_blank w s : blank w -> skip_ws (w ++ s) = skip_ws s.
Proof. induction 1 as [|c w Hc Hw IH]; cbn [skip_ws app]; auto. rewrite (proj2 (is_whitespace_spec c) Hc). auto. Qed.
Lemma skip_ws_split s : exists w, blank w /\ s = w ++ skip_ws s.
Proof.
  induction s as [|c s (w & Hw & E)]; [exists []; split; [constructor|auto]|]. cbn [skip_ws]. destruct (is_whitespace c) eqn:Ec.
  - exists (c :: w). split; [constructor; auto; apply is_whitespace_spec; auto|]. cbn. congruence.
  - exists []. split; [constructor|auto].
Qed.
Definition dark (s : text) : Prop := match s with c :: _ => is_whitespace c = false | [] => True end.
Lemma skip_ws_dark s : dark s -> skip_ws s = s.
Proof. destruct s as [|c s]; cbn; auto. intros ->. auto. Qed.
Lemma dark_skip s : dark (skip_ws s).
Proof. induction s as [|c s IH]; cbn [skip_ws dark]; auto. destruct (is_whitespace c) eqn:E; auto. Qed.

(** ** strings *)
Inductive parts_of : text -> list part -> Prop :=
| parts_nil : parts_of [] []
| parts_plain c t ps : plain c -> parts_of t ps -> parts_of (c :: t) (Byte c :: ps)
| parts_short e c t ps : In (e, c) short_escapes -> parts_of t ps -> parts_of (backslash :: e :: t) (Byte c :: ps)
| parts_unicode a b c d n t ps : hex4 a b c d = Some n -> parts_of t ps -> parts_of (backslash :: "u" :: a :: b :: c :: d :: t) (Unit n :: ps).

Lemma short_escape_spec e c : short_escape e = Some c <-> In (e, c) short_escapes.
Proof. unfold short_escapes. split.
  - unfold short_escape. repeat match goal with |- context [Ascii.eqb ?a ?b] => let E := fresh in destruct (Ascii.eqb a b) eqn:E; [apply eqb_true in E; subst; intro X; injection X as <-; cbn; tauto|] end. discriminate.
  - cbn [In]. intros H. repeat (destruct H as [H|H]; [injection H as <- <-; reflexivity|]). destruct H.
Qed.
Lemma short_not_u c : ~ In ("u", c) short_escapes.
Proof. rewrite <- short_escape_spec. cbn. discriminate. Qed.

Lemma read_parts_complete t ps r : parts_of t ps -> read_parts (t ++ quote :: r) = Some (ps, r).
Proof.
  induction 1 as [|c t ps (H1 & H2 & H3) Ht IH|e c t ps He Ht IH|a b c d n t ps Hn Ht IH]; cbn [app read_parts].
  - reflexivity.
  - rewrite (eqb_false c quote H1), (eqb_false c backslash H2), (proj2 (N.ltb_ge _ _) H3), IH. reflexivity.
  - change (Ascii.eqb backslash quote) with false. change (Ascii.eqb backslash backslash) with true. cbv iota.
    destruct (Ascii.eqb e "u") eqn:E; [apply eqb_true in E; subst e; destruct (short_not_u _ He)|].
    rewrite (proj2 (short_escape_spec e c) He), IH. reflexivity.
  - change (Ascii.eqb backslash quote) with false. change (Ascii.eqb backslash backslash) with true. change (Ascii.eqb "u" "u") with true. cbv iota.
    rewrite Hn, IH. reflexivity.
Qed.
Lemma read_parts_sound n : forall s ps r, List.length s <= n -> read_parts s = Some (ps, r) -> exists t, parts_of t ps /\ s = t ++ quote :: r.
Proof.
  induction n as [|n IH]; intros s ps r Hn H; (destruct s as [|c s]; [discriminate|]); cbn [List.length] in Hn; [lia|].
  cbn [read_parts] in H. destruct (Ascii.eqb c quote) eqn:Eq.
  { apply eqb_true in Eq. injection H as <- <-. subst c. exists []. split; [constructor|auto]. }
  destruct (Ascii.eqb c backslash) eqn:Eb.
  - apply eqb_true in Eb. subst c. destruct s as [|e s]; [discriminate|]. destruct (Ascii.eqb e "u") eqn:Eu.
    + apply eqb_true in Eu. subst e. destruct s as [|w [|x [|y [|z s]]]]; try discriminate. destruct (hex4 w x y z) as [v|] eqn:Eh; [|discriminate].
      destruct (read_parts s) as [[ps' r']|] eqn:E; [|discriminate]. injection H as <- <-.
      apply IH in E; [|cbn in Hn; lia]. destruct E as (t & Ht & ->). eexists. split; [eapply parts_unicode; eauto|auto].
    + destruct (short_escape e) as [b|] eqn:Ee; [|discriminate]. apply short_escape_spec in Ee.
      destruct (read_parts s) as [[ps' r']|] eqn:E; [|discriminate]. injection H as <- <-.
      apply IH in E; [|cbn in Hn; lia]. destruct E as (t & Ht & ->). eexists. split; [eapply parts_short; eauto|auto].
  - destruct (N_of_ascii c <? 32)%N eqn:El; [discriminate|]. destruct (read_parts s) as [[ps' r']|] eqn:E; [|discriminate]. injection H as <- <-.
    apply IH in E; [|lia]. destruct E as (t & Ht & ->). exists (c :: t). split; [|auto]. constructor; auto.
    split; [apply Ascii.eqb_neq; auto|]. split; [apply Ascii.eqb_neq; auto|]. apply N.ltb_ge in El. auto.
Qed.
Lemma parts_unique t ps ps' : parts_of t ps -> parts_of t ps' -> ps = ps'.
Proof.
  intros H H'. apply (read_parts_complete t ps []) in H. apply (read_parts_complete t ps' []) in H'. congruence.
Qed.

Lemma hex_of_value c d : hex_of c d <-> hex_value c = Some (N.of_nat d).
Proof.
  unfold hex_of. split.
  - intros [H|H]; do 16 (destruct d as [|d]; [cbn in H; injection H as <-; reflexivity|]); destruct d; discriminate.
  - intro H. assert (X : exists k, hex_value c = Some (N.of_nat k) /\ (nth_error hex_digits_lower k = Some c \/ nth_error hex_digits_upper k = Some c)).
    { destruct (hex_value c) as [v|] eqn:E; [|discriminate]. clear H.
      assert (Y : hex_value c = None \/ exists k, hex_value c = Some (N.of_nat k) /\ (nth_error hex_digits_lower k = Some c \/ nth_error hex_digits_upper k = Some c)).
      { clear. all_bytes c; try (left; reflexivity); right;
          first [exists 0; now (split; [reflexivity|auto])|exists 1; now (split; [reflexivity|auto])|exists 2; now (split; [reflexivity|auto])
            |exists 3; now (split; [reflexivity|auto])|exists 4; now (split; [reflexivity|auto])|exists 5; now (split; [reflexivity|auto])
            |exists 6; now (split; [reflexivity|auto])|exists 7; now (split; [reflexivity|auto])|exists 8; now (split; [reflexivity|auto])
            |exists 9; now (split; [reflexivity|auto])|exists 10; now (split; [reflexivity|auto])|exists 11; now (split; [reflexivity|auto])
            |exists 12; now (split; [reflexivity|auto])|exists 13; now (split; [reflexivity|auto])|exists 14; now (split; [reflexivity|auto])
            |exists 15; now (split; [reflexivity|auto])]. }
      rewrite E in Y. destruct Y as [Y|Y]; [discriminate|exact Y]. }
    destruct X as (k & Ek & Hk). rewrite Ek in H. injection H as H. apply Nat2N.inj in H. subst k. exact Hk.
Qed.
Lemma hex4_spec t n : hex4_of t n <-> exists a b c d, t = [a; b; c; d] /\ hex4 a b c d = Some n.
Proof.
  unfold hex4_of, hex4. split.
  - intros (a & b & c & d & w & x & y & z & -> & Ha & Hb & Hc & Hd & ->). exists a, b, c, d. split; auto.
    apply hex_of_value in Ha, Hb, Hc, Hd. rewrite Ha, Hb, Hc, Hd. f_equal. lia.
  - intros (a & b & c & d & -> & H). exists a, b, c, d.
    destruct (hex_value a) as [w|] eqn:Ea; [|discriminate]. destruct (hex_value b) as [x|] eqn:Eb; [|discriminate].
    destruct (hex_value c) as [y|] eqn:Ec; [|discriminate]. destruct (hex_value d) as [z|] eqn:Ed; [|discriminate].
    exists (N.to_nat w), (N.to_nat x), (N.to_nat y), (N.to_nat z). rewrite !hex_of_value, !N2Nat.id. injection H as <-. intuition auto; lia.
Qed.

Lemma is_high_spec n : is_high n = true <-> high_surrogate n.
Proof. unfold is_high, high_surrogate. rewrite andb_true_iff, N.leb_le, N.ltb_lt. lia. Qed.
Lemma is_low_spec n : is_low n = true <-> low_surrogate n.
Proof. unfold is_low, low_surrogate. rewrite andb_true_iff, N.leb_le, N.ltb_lt. lia. Qed.
Lemma high_not_low n : high_surrogate n -> low_surrogate n -> False.
Proof. unfold high_surrogate, low_surrogate. lia. Qed.

Lemma hex4_bound a b c d n : hex4 a b c d = Some n -> (n < 65536)%N.
Proof.
  assert (Hb : forall x v, hex_value x = Some v -> (v < 16)%N).
  { intros x v. unfold hex_value, is_digit, byte_range, digit_value. generalize (N_of_ascii x). intro k.
    repeat match goal with |- context [if ?b then _ else _] => destruct b eqn:? end; intro X; try discriminate; injection X as <-;
    repeat match goal with H : (_ && _)%bool = true |- _ => apply andb_true_iff in H; rewrite !N.leb_le in H end; cbn in *; lia. }
  unfold hex4. destruct (hex_value a) as [w|] eqn:Ea; [|discriminate]. destruct (hex_value b) as [x|] eqn:Eb; [|discriminate].
  destruct (hex_value c) as [y|] eqn:Ec; [|discriminate]. destruct (hex_value d) as [z|] eqn:Ed; [|discriminate].
  intro H. injection H as <-. apply Hb in Ea, Eb, Ec, Ed. lia.
Qed.

Lemma utf8_spec n bs : (n < 1114112)%N -> (char_bytes n bs <-> bs = utf8 n).
Proof.
  intro Hn. unfold utf8, char_bytes. split.
  - intros (l & -> & H). f_equal.
    destruct H as [(H & ->)|[(x & y & H1 & Hx & Hy & -> & ->)|[(x & y & z & H1 & Hx & Hy & Hz & -> & ->)|(w & x & y & z & H1 & Hw & Hx & Hy & Hz & -> & ->)]]].
    + rewrite (proj2 (N.ltb_lt _ _) H). auto.
    + rewrite (proj2 (N.ltb_ge _ _)) by lia. rewrite (proj2 (N.ltb_lt _ _)) by lia.
      rewrite N.div_add_l, N.div_small, (N.add_comm (x * 64)), N.mod_add, N.mod_small by lia. f_equal. lia.
    + rewrite (proj2 (N.ltb_ge _ _)) by lia. rewrite (proj2 (N.ltb_ge _ _)) by lia. rewrite (proj2 (N.ltb_lt _ _)) by lia.
      assert (E : forall u v, (v < 64 -> (u * 64 + v) / 64 = u)%N) by (intros u v Hv; rewrite N.div_add_l, N.div_small by lia; lia).
      assert (M : forall u v, (v < 64 -> (u * 64 + v) mod 64 = v)%N) by (intros u v Hv; rewrite (N.add_comm (u * 64)), N.mod_add, N.mod_small by lia; lia).
      replace 4096%N with (64 * 64)%N by lia. rewrite <- N.div_div by lia. rewrite !E, !M by lia. auto.
    + rewrite (proj2 (N.ltb_ge _ _)) by lia. rewrite (proj2 (N.ltb_ge _ _)) by lia. rewrite (proj2 (N.ltb_ge _ _)) by lia.
      assert (E : forall u v, (v < 64 -> (u * 64 + v) / 64 = u)%N) by (intros u v Hv; rewrite N.div_add_l, N.div_small by lia; lia).
      assert (M : forall u v, (v < 64 -> (u * 64 + v) mod 64 = v)%N) by (intros u v Hv; rewrite (N.add_comm (u * 64)), N.mod_add, N.mod_small by lia; lia).
      replace 262144%N with (64 * 64 * 64)%N by lia. replace 4096%N with (64 * 64)%N by lia. rewrite <- !N.div_div by lia. rewrite !E, !M by lia. auto.
  - intros ->. eexists. split; [reflexivity|].
    assert (Hm : forall v, (v mod 64 < 64)%N) by (intro v; apply N.mod_lt; lia).
    assert (Hd : forall v, v = (v / 64 * 64 + v mod 64)%N) by (intro v; rewrite (N.div_mod v 64) at 1; lia).
    destruct (n <? 128)%N eqn:E1; [apply N.ltb_lt in E1; left; auto|]. apply N.ltb_ge in E1. right.
    destruct (n <? 2048)%N eqn:E2; [apply N.ltb_lt in E2; left|apply N.ltb_ge in E2; right].
    { exists (n / 64)%N, (n mod 64)%N. split; [auto|]. split; [apply N.div_lt_upper_bound; lia|]. split; [auto|]. split; auto. }
    destruct (n <? 65536)%N eqn:E3; [apply N.ltb_lt in E3; left|apply N.ltb_ge in E3; right].
    { exists (n / 4096)%N, (n / 64 mod 64)%N, (n mod 64)%N. split; [auto|]. split; [apply N.div_lt_upper_bound; lia|]. split; [auto|]. split; [auto|]. split; [|auto].
      replace 4096%N with (64 * 64)%N by lia. rewrite <- N.div_div by lia. rewrite <- (Hd (n / 64)%N). auto. }
    exists (n / 262144)%N, (n / 4096 mod 64)%N, (n / 64 mod 64)%N, (n mod 64)%N. split; [auto|]. split; [apply N.div_lt_upper_bound; lia|].
    split; [auto|]. split; [auto|]. split; [auto|]. split; [|auto].
    replace 262144%N with (64 * 64 * 64)%N by lia. replace 4096%N with (64 * 64)%N by lia. rewrite <- !N.div_div by lia.
    rewrite <- (Hd (n / 64 / 64)%N), <- (Hd (n / 64)%N). auto.
Qed.

Lemma syntax_parts t : string_syntax t <-> exists ps, parts_of t ps.
Proof.
  split.
  - induction 1 as [|c t Hc Ht (ps & IH)|e c t He Ht (ps & IH)|h n t Hh Ht (ps & IH)]; [exists []; constructor| | |].
    + eexists. eapply parts_plain; eauto.
    + eexists. eapply parts_short; eauto.
    + apply hex4_spec in Hh. destruct Hh as (a & b & c & d & -> & Hn). eexists. eapply parts_unicode; eauto.
  - intros (ps & H). induction H as [|c t ps Hc Ht IH|e c t ps He Ht IH|a b c d n t ps Hn Ht IH]; [apply syntax_nil|apply syntax_plain; auto|eapply syntax_short; eauto|].
    apply (syntax_unicode [a; b; c; d] n t); auto. apply hex4_spec. eauto 10.
Qed.
Lemma denotes_parts t b : denotes t b <-> exists ps, parts_of t ps /\ decode ps = Some b.
Proof.
  split.
  - induction 1 as [|c t b Hc Ht (ps & Hp & Hd)|e c t b He Ht (ps & Hp & Hd)|h n bs t b Hh Nh Nl Hb Ht (ps & Hp & Hd)|h n h' n' bs t b Hh Hh' Hi Lo Hb Ht (ps & Hp & Hd)].
    + exists []. split; [constructor|auto].
    + exists (Byte c :: ps). split; [constructor; auto|]. cbn. rewrite Hd. auto.
    + exists (Byte c :: ps). split; [eapply parts_short; eauto|]. cbn. rewrite Hd. auto.
    + apply hex4_spec in Hh. destruct Hh as (x & y & z & w & -> & Hn). exists (Unit n :: ps). split; [apply parts_unicode; auto|].
      cbn [decode]. rewrite <- is_high_spec in Nh. rewrite <- is_low_spec in Nl. destruct (is_high n); [congruence|]. destruct (is_low n); [congruence|].
      rewrite Hd. cbn. f_equal. f_equal. apply utf8_spec in Hb; auto. apply hex4_bound in Hn. lia.
    + apply hex4_spec in Hh, Hh'. destruct Hh as (x & y & z & w & -> & Hn). destruct Hh' as (x' & y' & z' & w' & -> & Hn').
      exists (Unit n :: Unit n' :: ps). split; [apply parts_unicode; auto; apply parts_unicode; auto|].
      cbn [decode]. rewrite (proj2 (is_high_spec n) Hi), (proj2 (is_low_spec n') Lo), Hd. cbn [option_map]. f_equal. f_equal.
      unfold high_surrogate, low_surrogate in *. symmetry. replace (65536 + (n - 55296) * 1024 + (n' - 56320))%N with ((n - 55296) * 1024 + (n' - 56320) + 65536)%N by lia.
      apply utf8_spec; [lia|exact Hb].
  - intros (ps & Hp & Hd).
    enough (G : forall k t ps b, List.length ps <= k -> parts_of t ps -> decode ps = Some b -> denotes t b) by exact (G (List.length ps) t ps b ltac:(lia) Hp Hd).
    clear. induction k as [|k IH]; intros t ps b Hk Hp Hd.
    + destruct ps; [|cbn in Hk; lia]. inversion Hp; subst. injection Hd as <-. constructor.
    + revert Hk Hd. destruct Hp as [|c t ps Hc Ht|e c t ps He Ht|x y z w n t ps Hn Ht]; cbn [List.length]; intros Hk Hd.
      * injection Hd as <-. constructor.
      * cbn in Hd. destruct (decode ps) as [b'|] eqn:E; [|discriminate]. injection Hd as <-. apply denotes_plain; auto. apply (IH t ps); auto; lia.
      * cbn in Hd. destruct (decode ps) as [b'|] eqn:E; [|discriminate]. injection Hd as <-. eapply denotes_short; eauto. apply (IH t ps); auto; lia.
      * assert (Hb := hex4_bound _ _ _ _ _ Hn). cbn [decode] in Hd. destruct (is_high n) eqn:Eh.
        -- revert Hk Hd. destruct Ht as [|c' t ps|e c' t ps|x' y' z' w' m t ps Hm Ht]; intros Hk Hd; try discriminate. destruct (is_low m) eqn:El; [|discriminate].
           destruct (decode ps) as [b'|] eqn:E; [|discriminate]. apply some_eq in Hd. subst b. apply is_high_spec in Eh. apply is_low_spec in El.
           apply (denotes_pair [x; y; z; w] n [x'; y'; z'; w'] m); auto; try (apply hex4_spec; eauto 10).
           ++ unfold high_surrogate, low_surrogate in *.
              apply utf8_spec; [lia|]. f_equal. lia.
           ++ apply (IH t ps); auto. cbn in Hk. lia.
        -- destruct (is_low n) eqn:El; [discriminate|]. destruct (decode ps) as [b'|] eqn:E; [|discriminate]. injection Hd as <-.
           apply (denotes_unicode [x; y; z; w] n); auto; try (apply hex4_spec; eauto 10).
           ++ rewrite <- is_high_spec. congruence.
           ++ rewrite <- is_low_spec. congruence.
           ++ apply utf8_spec; [lia|auto].
           ++ apply (IH t ps); auto. lia.
Qed.
Lemma string_text_parts t o : string_text t o <-> exists ps, parts_of t ps /\ decode ps = o.
Proof.
  destruct o as [b|]; cbn [string_text]; [apply denotes_parts|]. rewrite syntax_parts. split.
  - intros ((ps & Hp) & Hn). exists ps. split; auto. destruct (decode ps) eqn:E; auto. exfalso. apply Hn. eexists. apply denotes_parts. eauto.
  - intros (ps & Hp & Hd). split; [eauto|]. intros (b & Hb). apply denotes_parts in Hb. destruct Hb as (ps' & Hp' & Hd').
    rewrite (parts_unique t ps ps' Hp Hp') in Hd. congruence.
Qed.
