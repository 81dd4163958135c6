(** Written JSON texts follow the grammar; FBASs survive writing and reading. *)
From Coq Require Import ZArith Ascii.
From Verif Require Export P_JsonValue.
Local Open Scope char_scope.
Local Open Scope list_scope.

(** ** strings *)
Lemma escape_parts c : exists p, (forall t ps, parts_of t ps -> parts_of (escape c ++ t) (p :: ps)) /\ (forall l, decode (p :: l) = option_map (cons c) (decode l)).
Proof.
  all_bytes c;
    match goal with |- exists p, (forall t ps, _ -> parts_of (escape ?c ++ t) _) /\ _ =>
      let e := eval vm_compute in (escape c) in
      lazymatch e with
      | [_] => exists (Byte c); split; [intros t ps H; apply (parts_plain c t ps); [split; [discriminate|split; [discriminate|vm_compute; discriminate]]|exact H]|reflexivity]
      | [_; ?x] => exists (Byte c); split; [intros t ps H; apply (parts_short x c t ps); [apply short_escape_spec; reflexivity|exact H]|reflexivity]
      | [_; _; ?w; ?x; ?y; ?z] => exists (Unit (N_of_ascii c)); split; [intros t ps H; apply (parts_unicode w x y z (N_of_ascii c) t ps); [reflexivity|exact H]|reflexivity]
      end
    end.
Qed.
Lemma escaped_denotes s : denotes (flat_map escape s) s.
Proof.
  apply denotes_parts. induction s as [|c s (ps & Hp & Hd)]; [exists []; split; [constructor|auto]|].
  destruct (escape_parts c) as (p & H1 & H2). exists (p :: ps). split; [apply H1; auto|]. rewrite H2, Hd. auto.
Qed.
Lemma print_string_text s : exists t, print_string s = quote :: t ++ [quote] /\ denotes t (list_ascii_of_string s).
Proof. eexists. split; [reflexivity|]. apply escaped_denotes. Qed.

(** ** numbers *)
Lemma small_digit n : (n < 10)%N -> digit_of (ascii_of_N (48 + n)) (N.to_nat n).
Proof.
  intro H. assert (X : exists k, k < 10 /\ n = N.of_nat k) by (exists (N.to_nat n); lia). destruct X as (k & Hk & ->). rewrite Nat2N.id.
  do 10 (destruct k as [|k]; [reflexivity|]). lia.
Qed.
Lemma print_digits_spec fuel : forall n acc, (n < 2 ^ N.of_nat fuel)%N -> fuel <> 0 -> exists ds, print_digits fuel n acc = ds ++ acc /\ integer_of ds n.
Proof.
  induction fuel as [|fuel IH]; intros n acc Hn Hf; [congruence|]. cbn [print_digits]. destruct (n <? 10)%N eqn:E.
  - apply N.ltb_lt in E. exists [ascii_of_N (48 + n mod 10)]. split; auto. rewrite N.mod_small by auto. assert (Hd := small_digit n E).
    revert Hd. generalize (ascii_of_N (48 + n)). intros ch Hd.
    split; [rewrite <- (N2Nat.id n); apply digits_one; auto|]. destruct (N.eq_dec n 0) as [->|Hz]; [left; cbn in Hd; injection Hd as <-; reflexivity|]. right.
    intros (r & X). injection X as -> _. assert (Y : N.to_nat n = 0); [|lia].
    apply digit_of_value in Hd. destruct Hd as [_ Hd]. change (digit_value "0") with 0%N in Hd. lia.
  - apply N.ltb_ge in E. assert (Hq : (0 < n / 10)%N) by (apply N.div_str_pos; lia).
    assert (Hl : (n / 10 < 2 ^ N.of_nat fuel)%N).
    { apply N.div_lt_upper_bound; [lia|]. replace (N.of_nat (S fuel)) with (N.succ (N.of_nat fuel)) in Hn by lia. rewrite N.pow_succ_r' in Hn. lia. }
    destruct fuel as [|fuel'].
    { cbn in Hl. assert (n / 10 = 0)%N by lia. lia. }
    destruct (IH (n / 10)%N (ascii_of_N (48 + n mod 10) :: acc) Hl ltac:(discriminate)) as (ds & Ed & Hds). exists (ds ++ [ascii_of_N (48 + n mod 10)]).
    rewrite <- app_assoc. split; [exact Ed|]. assert (Hm : (n mod 10 < 10)%N) by (apply N.mod_lt; lia).
    destruct Hds as (Hv & Hz). split.
    + replace n with (10 * (n / 10) + N.of_nat (N.to_nat (n mod 10)))%N at 2 by (rewrite N2Nat.id; symmetry; apply N.div_mod; lia).
      apply digits_more; auto. apply small_digit; auto.
    + right. intros (r & X). destruct ds as [|d ds]; [apply digits_of_spec in Hv; tauto|]. injection X as -> _. destruct Hz as [Hz|Hz].
      * injection Hz as ->. apply digits_of_spec in Hv. destruct Hv as (_ & _ & Hv). cbn in Hv. lia.
      * apply Hz. eauto.
Qed.
Lemma print_N_spec n : integer_of (print_N n) n.
Proof.
  unfold print_N. destruct (print_digits_spec (S (N.size_nat n)) n []) as (ds & E & H); [|discriminate|].
  - replace (N.of_nat (S (N.size_nat n))) with (N.succ (N.of_nat (N.size_nat n))) by lia. rewrite N.pow_succ_r'.
    assert (X := N.size_gt n). assert (Y : N.of_nat (N.size_nat n) = N.size n) by (destruct n as [|p]; auto; cbn; clear; induction p; cbn [Pos.size_nat Pos.size]; lia).
    rewrite Y. lia.
  - rewrite app_nil_r in E. rewrite E. auto.
Qed.
Lemma print_Z_number mz z : number mz (JInt z) (print_Z z).
Proof.
  unfold print_Z. destruct (z <? 0)%Z eqn:E.
  - apply Z.ltb_lt in E. replace z with (- Z.of_N (Z.abs_N z))%Z at 1 by lia. apply number_negative; [apply print_N_spec|lia].
  - apply Z.ltb_ge in E. replace z with (Z.of_N (Z.to_N z)) at 1 by lia. apply number_natural. apply print_N_spec.
Qed.

(** ** values *)
Inductive printable : json -> Prop :=
| printable_null : printable JNull
| printable_bool b : printable (JBool b)
| printable_int z : printable (JInt z)
| printable_str s : printable (JStr s)
| printable_arr l : (forall j, In j l -> printable j) -> printable (JArr l)
| printable_obj fs : (forall k j, In (k, j) fs -> printable j) -> printable (JObj fs).

Lemma items_join mz (pr : json -> text) w w' l : blank w -> blank w' -> l <> [] -> (forall j, In j l -> value mz j (pr j)) ->
  array_items mz l (join [","] (map (fun x => w ++ pr x) l) ++ w').
Proof.
  intros Hw Hw' Hn H. induction l as [|j l IH]; [congruence|]. destruct l as [|j' l].
  - cbn [map join]. rewrite <- app_assoc. apply elements_one; auto. apply H. left; auto.
  - assert (IH' := IH ltac:(discriminate) (fun x Hx => H x (or_intror Hx))). set (rest := j' :: l) in *.
    assert (E : join [","] (map (fun x => w ++ pr x) (j :: rest)) ++ w' = w ++ pr j ++ [] ++ "," :: join [","] (map (fun x => w ++ pr x) rest) ++ w').
    { cbn [map join]. unfold rest at 1. cbn [map]. rewrite <- !app_assoc. reflexivity. }
    rewrite E. apply elements_more; auto; [apply H; left; auto|apply blank_nil].
Qed.
Lemma members_join mz (pr : json -> text) w w2 w' (fs : list (string * json)) : blank w -> blank w2 -> blank w' -> fs <> [] ->
  (forall k j, In (k, j) fs -> value mz j (pr j)) ->
  members mz (map (fun e => (Some (list_ascii_of_string (fst e)), snd e)) fs) (join [","] (map (fun e => w ++ print_string (fst e) ++ ":" :: w2 ++ pr (snd e)) fs) ++ w').
Proof.
  intros Hw Hw2 Hw' Hn H. induction fs as [|[k j] fs IH]; [congruence|]. destruct (print_string_text k) as (kt & Ek & Hk). destruct fs as [|[k' j'] fs].
  - cbn [map join fst snd]. rewrite Ek. assert (Hv : value mz j (pr j)) by (apply (H k); left; auto).
    replace ((w ++ (quote :: kt ++ [quote]) ++ ":" :: w2 ++ pr j) ++ w') with (w ++ quote :: kt ++ quote :: [] ++ ":" :: w2 ++ pr j ++ w')
      by (cbn [app]; repeat (rewrite <- app_assoc; cbn [app]); auto).
    apply members_one; auto. apply blank_nil.
  - assert (IH' := IH ltac:(discriminate) (fun x y Hx => H x y (or_intror Hx))). set (rest := (k', j') :: fs) in *.
    assert (Hv : value mz j (pr j)) by (apply (H k); left; auto).
    assert (E : join [","] (map (fun e => w ++ print_string (fst e) ++ ":" :: w2 ++ pr (snd e)) ((k, j) :: rest)) ++ w' =
      w ++ quote :: kt ++ quote :: [] ++ ":" :: w2 ++ pr j ++ [] ++ "," :: join [","] (map (fun e => w ++ print_string (fst e) ++ ":" :: w2 ++ pr (snd e)) rest) ++ w').
    { cbn [map join fst snd]. rewrite Ek. unfold rest at 1. cbn [map app]. repeat (rewrite <- app_assoc; cbn [app]). reflexivity. }
    rewrite E. cbn [map fst snd]. apply members_more; auto; apply blank_nil.
Qed.

Lemma object_fields fs : object_is (map (fun e : string * json => (Some (list_ascii_of_string (fst e)), snd e)) fs) (JObj fs).
Proof. left. eauto. Qed.

Lemma printed_value mz j : printable j -> value mz j (print_json j).
Proof.
  induction j as [|b|z| |s|l IH|fs IH|] using json_ind'; intro H; inversion H; subst; cbn [print_json].
  - apply value_null.
  - destruct b; [apply value_true|apply value_false].
  - apply value_number, print_Z_number.
  - destruct (print_string_text s) as (t & -> & Ht). apply value_string. exact Ht.
  - destruct l as [|j l]; [apply (value_empty_array mz []), blank_nil|]. apply value_array.
    rewrite <- (app_nil_r (join [","] (map print_json (j :: l)))).
    apply (items_join mz print_json [] []); auto using blank_nil; discriminate.
  - destruct fs as [|e fs]; [apply (value_empty_object mz []), blank_nil|].
    apply (value_object mz (map (fun e => (Some (list_ascii_of_string (fst e)), snd e)) (e :: fs))); [|apply object_fields].
    rewrite <- (app_nil_r (join [","] _)).
    apply (members_join mz print_json [] [] []); auto using blank_nil; [discriminate|]. intros k j Hj. eauto.
Qed.
Lemma blank_new_line level : blank (new_line level).
Proof.
  unfold new_line, blank. constructor; [cbn; auto|]. apply Forall_forall. intros c Hc. apply repeat_spec in Hc. subst c. cbn; auto.
Qed.
Lemma pretty_value mz j : forall level, printable j -> value mz j (print_pretty level j).
Proof.
  induction j as [|b|z| |s|l IH|fs IH|] using json_ind'; intros level H; try exact (printed_value mz _ H); inversion H; subst.
  - destruct l as [|j l]; [apply (value_empty_array mz []), blank_nil|]. set (L := j :: l) in *.
    change (print_pretty level (JArr L)) with ("[" :: join [","] (map (fun x => new_line (S level) ++ print_pretty (S level) x) L) ++ new_line level ++ ["]"]).
    rewrite app_assoc. apply value_array. apply items_join; auto using blank_new_line. unfold L; discriminate.
  - destruct fs as [|e fs]; [apply (value_empty_object mz []), blank_nil|]. set (L := e :: fs) in *.
    change (print_pretty level (JObj L)) with
      ("{" :: join [","] (map (fun e => new_line (S level) ++ print_string (fst e) ++ ":" :: [" "] ++ print_pretty (S level) (snd e)) L) ++ new_line level ++ ["}"]).
    rewrite app_assoc. apply (value_object mz (map (fun e => (Some (list_ascii_of_string (fst e)), snd e)) L)); [|apply object_fields].
    apply members_join; auto using blank_new_line.
    + constructor; [cbn; auto|constructor].
    + unfold L; discriminate.
    + intros k j Hj. apply (IH k j Hj). eauto.
Qed.
Lemma value_document mz j t : value mz j t -> document mz j t.
Proof. intro H. exists [], t, []. rewrite app_nil_r. auto using blank_nil. Qed.
Lemma printed_document mz j : printable j -> document mz j (print_json j) /\ document mz j (print_pretty 0 j).
Proof. intro H. split; apply value_document; [apply printed_value|apply pretty_value]; auto. Qed.

(** ** FBASs *)
Lemma raw_qset_printable q : printable (json_of_raw_qset q).
Proof.
  induction q as [t vs is_ IH] using raw_qset_ind'. cbn [json_of_raw_qset]. constructor. intros k j Hj. apply in_app_iff in Hj. cbn [In] in Hj.
  destruct Hj as [[Hj|[Hj|[]]]|Hj].
  - injection Hj as <- <-. constructor.
  - injection Hj as <- <-. constructor. intros j Hj. apply in_map_iff in Hj. destruct Hj as (s & <- & _). constructor.
  - destruct is_ as [|i is_]; [destruct Hj|]. destruct Hj as [Hj|[]]. injection Hj as <- <-. constructor. intros j Hj. change (In j (map json_of_raw_qset (i :: is_))) in Hj. apply in_map_iff in Hj.
    destruct Hj as (s & <- & Hs). auto.
Qed.
Lemma raw_node_printable n : printable (json_of_raw_node n).
Proof.
  constructor. intros k j Hj. rewrite !in_app_iff in Hj. cbn [In] in Hj. destruct Hj as [[Hj|[Hj|[]]]|[Hj|Hj]].
  - injection Hj as <- <-. constructor.
  - injection Hj as <- <-. apply raw_qset_printable.
  - destruct (raw_isp n) as [s|]; [|destruct Hj]. destruct Hj as [Hj|[]]. injection Hj as <- <-. constructor.
  - destruct (raw_geo_data n) as [c|]; [|destruct Hj]. destruct Hj as [Hj|[]]. injection Hj as <- <-. constructor. intros k j [Hj|[]]. injection Hj as <- <-.
    destruct c; constructor.
Qed.
Lemma fbas_printable f : printable (fbas_to_json f).
Proof. constructor. intros j Hj. apply in_map_iff in Hj. destruct Hj as (n & <- & _). apply raw_node_printable. Qed.
Lemma groupings_printable l : printable (json_of_raw_groupings l).
Proof.
  constructor. intros j Hj. apply in_map_iff in Hj. destruct Hj as (n & <- & _). constructor. intros k j [Hj|[Hj|[]]]; injection Hj as <- <-; constructor.
  intros j Hj. apply in_map_iff in Hj. destruct Hj as (s & <- & _). constructor.
Qed.

Lemma nesting_within k : forall q, qset_within (2 * k + 2) q = true <-> nesting_at_most k q.
Proof.
  induction k as [|k IH]; intros [t vs is_].
  - split; [discriminate|]. intro H. inversion H.
  - replace (2 * S k + 2) with (S (S (2 * k + 2))) by lia. cbn [qset_within enter]. replace (2 * k + 2) with (S (S (2 * k))) by lia. cbv iota.
    replace (S (S (2 * k))) with (2 * k + 2) by lia. rewrite forallb_forall. split.
    + intro H. constructor. apply Forall_forall. intros i Hi. apply IH. auto.
    + intro H. inversion H as [? ? ? ? Hi]; subst. rewrite Forall_forall in Hi. intros i Hin. apply IH. auto.
Qed.
Lemma fbas_within_spec l : fbas_within recursion_limit l = true <-> forall n, In n l -> nesting_at_most 62 (raw_quorum_set n).
Proof.
  unfold fbas_within, recursion_limit, node_within. cbn [enter]. rewrite forallb_forall. split; intros H n Hn; apply (nesting_within 62); exact (H n Hn).
Qed.

Lemma nodes_text_spec mz s l : raw_nodes_from_text mz s = Ok l <->
  exists j, document mz j s /\ means_all means_node j l /\ forall n, In n l -> nesting_at_most 62 (raw_quorum_set n).
Proof.
  unfold raw_nodes_from_text. split.
  - destruct (read_json mz s) as [j|] eqn:E; [|discriminate]. cbn [bind]. destruct (raw_fbas_of_json j) as [l'|] eqn:El; [|discriminate]. cbn [bind].
    destruct (fbas_within recursion_limit l') eqn:Ew; [|discriminate]. cbn. intro H. injection H as <-. exists j. split; [apply read_json_spec; auto|].
    split; [apply fbas_reads; auto|apply fbas_within_spec; auto].
  - intros (j & Hj & Hl & Hn). apply read_json_spec in Hj. apply fbas_reads in Hl. apply fbas_within_spec in Hn. rewrite Hj. cbn [bind]. rewrite Hl. cbn [bind].
    rewrite Hn. auto.
Qed.
Lemma fbas_text_spec mz s f : fbas_from_text mz s = Ok f <->
  exists j l, document mz j s /\ means_all means_node j l /\ (forall n, In n l -> nesting_at_most 62 (raw_quorum_set n)) /\ f = fbas_from_raw l.
Proof.
  unfold fbas_from_text. split.
  - destruct (raw_nodes_from_text mz s) as [l|] eqn:E; [|discriminate]. cbn. intro H. injection H as <-. apply nodes_text_spec in E. destruct E as (j & H1 & H2 & H3).
    exists j, l. auto.
  - intros (j & l & H1 & H2 & H3 & ->). assert (E : raw_nodes_from_text mz s = Ok l) by (apply nodes_text_spec; eauto). rewrite E. auto.
Qed.
Lemma groupings_text_spec mz s f g : groupings_from_text mz s f = Ok g <->
  exists j l, document mz j s /\ means_all means_group j l /\ groupings_from_raw l f = Ok g.
Proof.
  unfold groupings_from_text, groupings_from_json. split.
  - destruct (read_json mz s) as [j|] eqn:E; [|discriminate]. cbn [bind]. destruct (raw_groupings_of_json j) as [l|] eqn:El; [|discriminate]. cbn [bind].
    intro H. exists j, l. split; [apply read_json_spec; auto|]. split; [apply groups_reads; auto|auto].
  - intros (j & l & H1 & H2 & H3). apply read_json_spec in H1. apply groups_reads in H2. rewrite H1. cbn [bind]. rewrite H2. auto.
Qed.

Lemma document_unique mz s j j' : document mz j s -> document mz j' s -> j = j'.
Proof. rewrite <- !read_json_spec. congruence. Qed.

Lemma from_raw_nesting m k : forall q, nesting_at_most k q -> qset_nesting_at_most k (qset_from_raw q m).
Proof.
  induction k as [|k IH]; intros q H; inversion H as [? t vs is_ Hi]; subst. cbn [qset_from_raw]. constructor. rewrite Forall_forall in *.
  intros i Hin. apply sort_by_in, in_map_iff in Hin. destruct Hin as (j & <- & Hj). auto.
Qed.
Lemma to_raw_nesting f k : forall q, qset_nesting_at_most k q -> nesting_at_most k (qset_to_raw q f).
Proof.
  induction k as [|k IH]; intros q H; inversion H as [? t vs is_ Hi]; subst. cbn [qset_to_raw]. constructor. rewrite Forall_forall in *.
  intros i Hin. apply in_map_iff in Hin. destruct Hin as (j & <- & Hj). auto.
Qed.

Definition shallow (f : fbas) : Prop := forall x q, node_of f x q -> qset_nesting_at_most 62 q.

Lemma written_text mz f s : document mz (fbas_to_json f) s -> small_fbas f -> shallow f ->
  fbas_from_text mz s = Ok (fbas_from_raw (fbas_to_raw f)).
Proof.
  intros Hs Hsm Hsh. apply fbas_text_spec. exists (fbas_to_json f), (fbas_to_raw f). split; [exact Hs|]. split; [|split; auto].
  - apply fbas_reads. apply raw_fbas_read. apply fbas_to_raw_small. auto.
  - intros n Hn. apply in_map_iff in Hn. destruct Hn as (r & <- & Hr). cbn [node_to_raw raw_quorum_set]. apply to_raw_nesting.
    apply In_nth_error in Hr. destruct Hr as (x & Hx). apply (Hsh x). exists r; auto.
Qed.
Lemma text_small_shallow mz s f : fbas_from_text mz s = Ok f -> small_fbas f /\ shallow f.
Proof.
  intro H. apply fbas_text_spec in H. destruct H as (j & l & _ & Hl & Hn & ->). split.
  - apply fbas_from_raw_small. apply (read_fbas_small j). apply fbas_reads. auto.
  - intros x q (n & Hx & <-). cbn in Hx. apply nth_error_In, in_map_iff in Hx. destruct Hx as (r & <- & Hr). cbn [node_qset node_from_raw].
    apply from_raw_nesting. auto.
Qed.
Lemma from_text_from_raw mz s f : fbas_from_text mz s = Ok f -> exists l, f = fbas_from_raw l.
Proof. intro H. apply fbas_text_spec in H. destruct H as (j & l & _ & _ & _ & ->). eauto. Qed.
Lemma text_round_trip mz mz' s f : fbas_from_text mz s = Ok f ->
  fbas_from_text mz' (fbas_to_text f) = Ok f /\ fbas_from_text mz' (fbas_to_text_pretty f) = Ok f.
Proof.
  intro H. destruct (text_small_shallow mz s f H) as [Hsm Hsh]. destruct (from_text_from_raw mz s f H) as (l & ->).
  destruct (printed_document mz' _ (fbas_printable (fbas_from_raw l))) as [D1 D2].
  rewrite <- (round_trip l) at 2 4. split; apply written_text; auto.
Qed.
Lemma any_text mz f : wf_fbas f -> distinct_keys f -> small_fbas f -> shallow f ->
  exists f', fbas_from_text mz (fbas_to_text f) = Ok f' /\ fbas_from_text mz (fbas_to_text_pretty f) = Ok f' /\
    renumbering (fun x => x) f f' /\ map node_pk (nodes f') = map node_pk (nodes f) /\ keys_ok f'.
Proof.
  intros Hw Hd Hsm Hsh. destruct (printed_document mz _ (fbas_printable f)) as [D1 D2]. exists (fbas_from_raw (fbas_to_raw f)).
  split; [apply written_text; auto|]. split; [apply written_text; auto|]. exact (reread f Hw Hd).
Qed.
Lemma any_text_iff mz f : small_fbas f -> ((exists f', fbas_from_text mz (fbas_to_text f) = Ok f') <-> shallow f).
Proof.
  intro Hsm. destruct (printed_document mz _ (fbas_printable f)) as [D1 D2]. split.
  - intros (f' & H). apply fbas_text_spec in H. destruct H as (j & l & Hj & Hl & Hn & _). assert (E := document_unique mz _ _ _ Hj D1). subst j.
    apply fbas_reads in Hl. unfold fbas_to_json in Hl. rewrite raw_fbas_read in Hl by (apply fbas_to_raw_small; auto). injection Hl as <-.
    intros x q (n & Hx & <-). apply nth_error_In in Hx. specialize (Hn (node_to_raw f n) (in_map _ _ _ Hx)). cbn [raw_quorum_set node_to_raw] in Hn.
    revert Hn. generalize (node_qset n). clear. generalize 62. induction n as [|k IH]; intros [t vs is_] H; inversion H as [? ? ? ? Hi]; subst.
    constructor. rewrite Forall_forall in *. intros i Hin. apply IH. apply Hi. apply (in_map (fun i => qset_to_raw i f)). auto.
  - intro Hsh. eexists. exact (written_text mz f _ D1 Hsm Hsh).
Qed.

(** a quorum set around [k] others, and the FBAS of one node that has it *)
Fixpoint nest (k : nat) : qset := match k with 0 => QS 1 [0] [] | S k' => QS 1 [] [nest k'] end.
Definition nested_fbas (k : nat) : fbas := mk_fbas [mk_node "A"%string (nest k)] [("A"%string, 0)].

Lemma nest_mentions y k : mentions y (nest k) -> y = 0.
Proof.
  induction k as [|k IH]; cbn [nest]; intro H; inversion H as [? ? ? Hv|? ? ? i Hi Hm]; subst; cbn in *.
  - destruct Hv as [<- |[]]. auto.
  - contradiction.
  - contradiction.
  - destruct Hi as [<- |[]]. auto.
Qed.
Lemma nest_small k : small_qset (nest k).
Proof. induction k as [|k IH]; cbn [nest]; constructor; auto; vm_compute; auto. Qed.
Lemma nested_node k x q : node_of (nested_fbas k) x q -> x = 0 /\ q = nest k.
Proof. intros (n & Hn & <-). destruct x as [|x]; [|destruct x; discriminate]. injection Hn as <-. auto. Qed.

Lemma deep_unreadable : exists f, wf_fbas f /\ distinct_keys f /\ small_fbas f /\
  forall minus_zero, fbas_from_text minus_zero (fbas_to_text f) = Panic /\ fbas_from_text minus_zero (fbas_to_text_pretty f) = Panic.
Proof.
  exists (nested_fbas 62). split; [|split; [|split]].
  - intros x q y H Hm. apply nested_node in H. destruct H as [-> ->]. apply nest_mentions in Hm. subst. cbn. auto.
  - repeat constructor; intros [].
  - intros x q H. apply nested_node in H. destruct H as [-> ->]. apply nest_small.
  - intros [|]; split; vm_compute; reflexivity.
Qed.
