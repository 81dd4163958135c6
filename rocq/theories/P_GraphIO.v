(** Proofs about reading and writing of AS relationship files. *)
From Coq Require Import DecimalString DecimalN ZArith.
From Verif Require Import Spec_GraphIO P_List P_SimGraph P_Mesh.
Local Open Scope string_scope.
Local Open Scope list_scope.

(** ** strings *)
Lemma append_assoc (a b c : string) : ((a ++ b) ++ c = a ++ b ++ c)%string.
Proof. induction a as [|x a IH]; cbn; auto. rewrite IH. auto. Qed.
Lemma append_nil (a : string) : (a ++ "" = a)%string.
Proof. induction a as [|x a IH]; cbn; auto. rewrite IH. auto. Qed.
Lemma free_of_app c a b : free_of c (a ++ b) <-> free_of c a /\ free_of c b.
Proof. induction a as [|x a IH]; cbn; [tauto|]. rewrite IH. tauto. Qed.
Lemma split_on_app c a b : free_of c a -> split_on c (a ++ String c b) = a :: split_on c b.
Proof.
  induction a as [|x a IH]; cbn [free_of append split_on].
  - rewrite Ascii.eqb_refl. auto.
  - intros [Hx Ha]. destruct (Ascii.eqb_spec x c); [congruence|]. rewrite (IH Ha). auto.
Qed.
Lemma split_on_free c a : free_of c a -> split_on c a = [a].
Proof.
  induction a as [|x a IH]; cbn [free_of split_on]; auto. intros [Hx Ha]. destruct (Ascii.eqb_spec x c); [congruence|]. rewrite (IH Ha). auto.
Qed.
Lemma strip_cr_app a b : b <> "" -> strip_cr (a ++ b) = (a ++ strip_cr b)%string.
Proof.
  intros Hb. induction a as [|x a IH]; auto. cbn [append]. rewrite <- IH. destruct (a ++ b)%string eqn:E; auto.
  destruct a; cbn in E; [congruence|discriminate].
Qed.

(** ** numbers *)
Definition digit (c : ascii) : Prop := In c ["0"; "1"; "2"; "3"; "4"; "5"; "6"; "7"; "8"; "9"]%char.
Fixpoint digits (s : string) : Prop := match s with EmptyString => True | String c s' => digit c /\ digits s' end.
Lemma digits_uint u : digits (NilEmpty.string_of_uint u).
Proof. unfold digit. induction u; cbn; auto; split; auto; tauto. Qed.
Lemma digits_free c s : ~ digit c -> digits s -> free_of c s.
Proof. intros Hc. induction s as [|a s IH]; cbn; auto. intros [Ha Hs]. split; auto. intros ->. auto. Qed.
Lemma to_uint_nonnil n : N.to_uint n <> Decimal.Nil.
Proof. intros E. pose proof (Unsigned.of_to n) as H. rewrite E in H. cbn in H. subst n. discriminate E. Qed.
Lemma print_nat_eq n : print_nat n = NilEmpty.string_of_uint (N.to_uint (N.of_nat n)).
Proof. unfold print_nat, NilZero.string_of_uint. pose proof (to_uint_nonnil (N.of_nat n)). destruct (N.to_uint (N.of_nat n)); auto; congruence. Qed.
Lemma print_nat_digits n : digits (print_nat n).
Proof. rewrite print_nat_eq. apply digits_uint. Qed.
Lemma print_nat_nonempty n : print_nat n <> "".
Proof. rewrite print_nat_eq. pose proof (to_uint_nonnil (N.of_nat n)). destruct (N.to_uint (N.of_nat n)); cbn; congruence. Qed.
Lemma parse_digits_print n : parse_digits (print_nat n) = Ok (N.of_nat n).
Proof.
  pose proof (print_nat_nonempty n) as H. unfold parse_digits. destruct (print_nat n) eqn:E; [congruence|]. rewrite <- E, print_nat_eq.
  rewrite NilEmpty.usu. cbn [unwrap bind]. rewrite Unsigned.of_to. auto.
Qed.
Lemma parse_usize_print n : (N.of_nat n < 2 ^ 64)%N -> parse_usize (print_nat n) = Ok (N.of_nat n).
Proof.
  intros Hn. unfold parse_usize.
  assert (E : match print_nat n with String "+" s' => s' | _ => print_nat n end = print_nat n).
  { pose proof (print_nat_digits n) as Hd. destruct (print_nat n) as [|c s]; auto. destruct Hd as [Hd _]. unfold digit in Hd. cbn [In] in Hd.
    repeat (destruct Hd as [<-|Hd]; [reflexivity|]). destruct Hd. }
  rewrite E, parse_digits_print. cbn [bind]. apply N.ltb_lt in Hn. rewrite Hn. auto.
Qed.

(** ** lines *)
Definition as_edge (item : as_item) : option (N * N * bool) :=
  match item with Relation a b p _ => Some (N.of_nat a, N.of_nat b, p) | _ => None end.

Lemma relation_line a b p rest : (N.of_nat a < 2 ^ 64)%N -> (N.of_nat b < 2 ^ 64)%N -> (rest = "" \/ exists columns, rest = String "|" columns) ->
  get_edge_from_as_rel_line (as_line (Relation a b p rest)) = Ok (Some (N.of_nat a, N.of_nat b, p)).
Proof.
  intros Ha Hb Hr. cbn [as_line]. set (line := (print_nat a ++ "|" ++ print_nat b ++ (if p then "|0" else "|-1") ++ rest)%string).
  assert (Hbar : ~ digit "|") by (unfold digit; cbn; intuition discriminate).
  assert (Hs : exists more, split_on "|" line = print_nat a :: print_nat b :: (if p then "0" else "-1") :: more).
  { unfold line. cbn [append]. rewrite split_on_app by (apply digits_free; [auto|apply print_nat_digits]).
    set (k := if p then "0" else "-1").
    replace ((if p then "|0" else "|-1") ++ rest)%string with (String "|" (k ++ rest)) by (unfold k; destruct p; auto).
    rewrite split_on_app by (apply digits_free; [auto|apply print_nat_digits]).
    destruct Hr as [->|[cols ->]].
    - exists []. rewrite append_nil. rewrite split_on_free; auto. unfold k. destruct p; cbn; repeat split; discriminate.
    - exists (split_on "|" cols). rewrite split_on_app; auto. unfold k. destruct p; cbn; repeat split; discriminate. }
  destruct Hs as [more Hs]. unfold get_edge_from_as_rel_line.
  assert (E : exists c s, line = String c s /\ digit c).
  { unfold line. pose proof (print_nat_digits a) as Hd. pose proof (print_nat_nonempty a). destruct (print_nat a) as [|c s]; [congruence|]. exists c. eexists. split; [reflexivity|apply Hd]. }
  destruct E as (c & s & El & Hc). rewrite Hs. cbn [nth_error unwrap bind]. rewrite !parse_usize_print; auto. cbn [bind].
  assert (Ek : parse_i32 (if p then "0" else "-1") = Ok (if p then 0 else -1)%Z) by (destruct p; reflexivity). rewrite Ek. cbn [bind].
  assert (Ep : (if Z.eqb (if p then 0 else -1) (-1) then Ok false else if Z.eqb (if p then 0 else -1) 0 then Ok true else Panic) = Ok p) by (destruct p; reflexivity).
  rewrite Ep. cbn [bind]. rewrite El. unfold digit in Hc. cbn [In] in Hc.
  repeat (destruct Hc as [<-|Hc]; [reflexivity|]). destruct Hc.
Qed.

Lemma item_line item : as_ok item -> get_edge_from_as_rel_line (strip_cr (as_line item)) = Ok (as_edge item).
Proof.
  destruct item as [|t|a b p rest]; cbn [as_ok as_edge].
  - auto.
  - intros _. cbn [as_line append]. destruct t; reflexivity.
  - intros (Ha & Hb & _ & Hr).
    assert (E : exists rest', strip_cr (as_line (Relation a b p rest)) = as_line (Relation a b p rest') /\ (rest' = "" \/ exists columns, rest' = String "|" columns)).
    { cbn [as_line]. rewrite strip_cr_app by discriminate. rewrite (strip_cr_app "|") by (destruct (print_nat b); [destruct p|]; discriminate).
      rewrite strip_cr_app by (destruct p; discriminate). destruct Hr as [->|[cols ->]].
      - exists "". split; auto. destruct p; reflexivity.
      - rewrite strip_cr_app by discriminate. eexists. split; [reflexivity|]. right. cbn [strip_cr]. destruct cols as [|x cols]; [exists ""; auto|]. eexists. reflexivity. }
    destruct E as (rest' & -> & Hr'). apply relation_line; auto; lia.
Qed.

Lemma as_line_free item : as_ok item -> free_of newline (as_line item).
Proof.
  destruct item as [|t|a b p rest]; cbn [as_ok as_line].
  - cbn. auto.
  - cbn. intros; split; auto. discriminate.
  - intros (_ & _ & Hf & _). assert (Hnl : ~ digit newline) by (unfold digit; cbn; intuition discriminate).
    rewrite !free_of_app. split; [apply digits_free; [auto|apply print_nat_digits]|]. split; [cbn; split; auto; discriminate|].
    split; [apply digits_free; [auto|apply print_nat_digits]|]. split; auto. destruct p; cbn; repeat split; discriminate.
Qed.

Lemma split_text items last : Forall as_ok items -> free_of newline last ->
  split_on newline (as_text items ++ last) = map as_line items ++ [last].
Proof.
  intros Hi Hl. induction Hi as [|item items Ho Hi IH]; cbn [as_text map app].
  - apply split_on_free. auto.
  - rewrite append_assoc. cbn [append]. rewrite split_on_app by (apply as_line_free; auto). rewrite IH. auto.
Qed.
Lemma lines_text items last : Forall as_ok items -> free_of newline last ->
  lines (as_text items ++ last) = map strip_cr (map as_line items ++ match last with "" => [] | _ => [last] end).
Proof.
  intros Hi Hl. unfold lines. rewrite split_text; auto. rewrite rev_app_distr. cbn [rev app].
  destruct last; cbn [rev]; rewrite rev_involutive; [rewrite app_nil_r|]; auto.
Qed.

(** ** reading *)
Definition read_inv (items : list as_item) (o : list bset) : Prop :=
  (forall i j, mem j (nth i o bempty) = true <-> said_link items i j) /\ least_above (said_node items) (List.length o).

Lemma said_link_snoc items a b p rest i j :
  said_link (items ++ [Relation a b p rest]) i j <-> said_link items i j \/ (i = b /\ j = a) \/ (p = true /\ i = a /\ j = b).
Proof.
  unfold said_link. split.
  - intros (s & [[q H]|H]); apply in_app_or in H; destruct H as [H|[H|[]]].
    + left. eauto.
    + injection H as -> -> -> ->. auto.
    + left. eauto.
    + injection H as -> -> -> ->. auto.
  - intros [(s & [[q H]|H])|[[-> ->]|(-> & -> & ->)]].
    + exists s. left. exists q. apply in_or_app. auto.
    + exists s. right. apply in_or_app. auto.
    + exists rest. left. exists p. apply in_or_app. right. left. auto.
    + exists rest. right. apply in_or_app. right. left. auto.
Qed.
Lemma said_node_snoc items a b p rest i : said_node (items ++ [Relation a b p rest]) i <-> said_node items i \/ i = a \/ i = b.
Proof.
  unfold said_node. split.
  - intros (j & q & s & [H|H]); apply in_app_or in H; destruct H as [H|[H|[]]].
    + left. exists j, q, s. auto.
    + injection H as -> -> -> ->. auto.
    + left. exists j, q, s. auto.
    + injection H as -> -> -> ->. auto.
  - intros [(j & q & s & [H|H])|[->| ->]].
    + exists j, q, s. left. apply in_or_app. auto.
    + exists j, q, s. right. apply in_or_app. auto.
    + exists b, p, rest. left. apply in_or_app. right. left. auto.
    + exists a, p, rest. right. apply in_or_app. right. left. auto.
Qed.
Lemma nth_padded {A} (l : list A) k d i : nth i (l ++ repeat d k) d = nth i l d.
Proof.
  destruct (Nat.lt_ge_cases i (List.length l)).
  - apply app_nth1. auto.
  - rewrite app_nth2, (nth_overflow l); auto. destruct (Nat.lt_ge_cases (i - List.length l) k); [apply nth_repeat|apply nth_overflow; rewrite repeat_length; auto].
Qed.

Lemma add_edge_ok items o a b p rest : as_ok (Relation a b p rest) -> read_inv items o ->
  exists o', add_edge o (N.of_nat a, N.of_nat b, p) = Ok o' /\ read_inv (items ++ [Relation a b p rest]) o'.
Proof.
  intros (Ha & Hb & _) [Hl [Hn1 Hn2]]. unfold add_edge.
  replace (N.max (N.of_nat a) (N.of_nat b) + 1 <? 2 ^ 64)%N with true by (symmetry; apply N.ltb_lt; lia). cbn [assert]. rewrite !Nat2N.id.
  set (k := Nat.max (List.length o) (Nat.max a b + 1) - List.length o). set (o1 := o ++ repeat bempty k).
  assert (L1 : List.length o1 = Nat.max (List.length o) (Nat.max a b + 1)) by (unfold o1; rewrite app_length, repeat_length; unfold k; lia).
  assert (N1 : forall i, nth i o1 bempty = nth i o bempty) by (intros; apply nth_padded).
  rewrite (modify_ok b _ o1 bempty); [|lia]. cbn [bind]. set (o2 := update b (insert a (nth b o1 bempty)) o1).
  assert (L2 : List.length o2 = List.length o1) by apply update_length.
  assert (N2 : forall i, nth i o2 bempty = if (i =? b)%nat then insert a (nth b o bempty) else nth i o bempty).
  { intros i. unfold o2. rewrite nth_update, !N1. destruct (Nat.eqb_spec i b) as [->|]; auto. destruct (Nat.ltb_spec b (List.length o1)); [auto|lia]. }
  assert (Hleast : least_above (said_node (items ++ [Relation a b p rest])) (List.length o1)).
  { split.
    - intros i Hi. apply said_node_snoc in Hi. destruct Hi as [Hi|[->| ->]]; [apply Hn1 in Hi|..]; lia.
    - intros n' H. assert (List.length o <= n') by (apply Hn2; intros i Hi; apply H, said_node_snoc; auto).
      assert (a < n') by (apply H, said_node_snoc; auto). assert (b < n') by (apply H, said_node_snoc; auto). lia. }
  destruct p.
  - rewrite (modify_ok a _ o2 bempty); [|lia]. eexists. split; [reflexivity|]. split; [|rewrite update_length, L2; auto].
    intros i j. rewrite said_link_snoc, nth_update, L2. rewrite <- Hl.
    destruct (Nat.eqb_spec i a) as [->|Hia]; cbn [andb].
    + destruct (Nat.ltb_spec a (List.length o1)); [|lia]. rewrite mem_insert, N2, orb_true_iff, Nat.eqb_eq.
      destruct (Nat.eqb_spec a b) as [->|Hab]; [rewrite mem_insert, orb_true_iff, Nat.eqb_eq|]; intuition congruence.
    + rewrite N2. destruct (Nat.eqb_spec i b) as [->|Hib]; [rewrite mem_insert, orb_true_iff, Nat.eqb_eq|]; intuition congruence.
  - exists o2. split; auto. split; [|rewrite L2; auto]. intros i j. rewrite said_link_snoc, <- Hl, N2.
    destruct (Nat.eqb_spec i b) as [->|Hib]; [rewrite mem_insert, orb_true_iff, Nat.eqb_eq|]; intuition congruence.
Qed.

Lemma read_inv_skip items item o : as_edge item = None -> read_inv items o -> read_inv (items ++ [item]) o.
Proof.
  intros He [H1 [H2 H3]].
  assert (Hin : forall a b p rest, In (Relation a b p rest) (items ++ [item]) <-> In (Relation a b p rest) items).
  { intros. rewrite in_app_iff. cbn [In]. split; auto. intros [H|[->|[]]]; auto. discriminate He. }
  assert (Hn : forall i, said_node (items ++ [item]) i <-> said_node items i).
  { intros i. unfold said_node. split; intros (j & p & rest & H); exists j, p, rest; rewrite !Hin in *; auto. }
  split; [|split].
  - intros i j. rewrite H1. unfold said_link. split; intros (rest & [[p H]|H]); exists rest; rewrite ?Hin in *; eauto;
      left; exists p; rewrite ?Hin in *; auto.
  - intros i Hi. apply Hn in Hi. auto.
  - intros n' H. apply H3. intros i Hi. apply H, Hn. auto.
Qed.

Definition read_line (o : list bset) (line : string) : res (list bset) :=
  edge <- get_edge_from_as_rel_line line ;; match edge with Some edge => add_edge o edge | None => Ok o end.

Lemma read_lines items : forall done o, Forall as_ok items -> read_inv done o ->
  exists o', foldM read_line o (map strip_cr (map as_line items)) = Ok o' /\ read_inv (done ++ items) o'.
Proof.
  induction items as [|item items IH]; intros done o Hok Hinv; cbn [map foldM].
  - exists o. rewrite app_nil_r. auto.
  - inversion Hok as [|? ? Ho Hok']; subst. unfold read_line at 1. rewrite item_line; auto. cbn [bind].
    assert (G : exists o1, (match as_edge item with Some edge => add_edge o edge | None => Ok o end) = Ok o1 /\ read_inv (done ++ [item]) o1).
    { destruct item as [|t|a b p rest]; cbn [as_edge].
      - exists o. split; auto. apply read_inv_skip; auto.
      - exists o. split; auto. apply read_inv_skip; auto.
      - apply add_edge_ok; auto. }
    destruct G as (o1 & E1 & H1). rewrite E1. cbn [bind]. destruct (IH (done ++ [item]) o1 Hok' H1) as (o' & E & H). exists o'. split; auto.
    rewrite <- app_assoc in H. auto.
Qed.

Lemma read_inv_nil : read_inv [] [].
Proof.
  split.
  - intros i j. rewrite nth_overflow by (cbn; lia). rewrite mem_empty. split; [discriminate|]. intros (rest & [[p []]|[]]).
  - split; [|cbn; lia]. intros i (j & p & rest & [[]|[]]).
Qed.

(** the last line need not be ended by a newline *)
Definition final_line (last : option as_item) : string := match last with Some item => as_line item | None => "" end.
Definition final_item (last : option as_item) : list as_item := match last with Some item => [item] | None => [] end.

Lemma read_text items last : Forall as_ok items -> (forall item, last = Some item -> as_ok item) ->
  exists g, from_as_rel_string (as_text items ++ final_line last) = Ok g /\ ascending_links g /\
    (forall i j, link g i j <-> said_link (items ++ final_item last) i j) /\
    least_above (said_node (items ++ final_item last)) (List.length g).
Proof.
  intros Hi Hl. unfold from_as_rel_string. fold read_line.
  assert (E : exists o, foldM read_line [] (lines (as_text items ++ final_line last)) = Ok o /\ read_inv (items ++ final_item last) o).
  { assert (Hf : free_of newline (final_line last)) by (destruct last; [apply as_line_free; apply Hl; auto|exact I]).
    rewrite lines_text; auto. destruct last as [item|]; cbn [final_line final_item].
    - destruct (as_line item) eqn:El.
      + assert (item = Blank) as ->.
        { destruct item as [|t|a b p rest]; auto; cbn in El; [discriminate|]. pose proof (print_nat_nonempty a). destruct (print_nat a); [congruence|discriminate]. }
        rewrite app_nil_r. destruct (read_lines items [] [] Hi read_inv_nil) as (o & E & H). exists o. split; auto. apply read_inv_skip; auto.
      + rewrite <- El. replace (map as_line items ++ [as_line item]) with (map as_line (items ++ [item])) by (rewrite map_app; auto).
        apply (read_lines (items ++ [item]) [] []); [|apply read_inv_nil]. apply Forall_app. split; auto.
    - rewrite !app_nil_r. apply (read_lines items [] [] Hi read_inv_nil). }
  destruct E as (o & E & H1 & H2). rewrite E. cbn [bind]. exists (map elements o). split; auto. split; [|split].
  - unfold ascending_links. apply Forall_map, Forall_forall. intros s _. apply elements_sorted.
  - intros i j. rewrite link_links. unfold links. rewrite <- elements_empty, map_nth, elements_spec. apply H1.
  - rewrite map_length. auto.
Qed.

(** ** writing *)
Definition head_items (comment : option string) : list as_item := match comment with Some c => [Comment (String " " c)] | None => [] end.
Definition link_item (g : graph) (i j : nat) : list as_item :=
  if existsb (Nat.eqb i) (links g j) then (if (i <? j)%nat then [Relation i j true ""] else []) else [Relation i j false ""].
Definition graph_items (g : graph) : list as_item :=
  flat_map (fun '(i, l) => flat_map (link_item g i) l) (enumerate g).

Lemma as_text_app a b : as_text (a ++ b) = (as_text a ++ as_text b)%string.
Proof. induction a as [|x a IH]; cbn [app as_text append]; auto. rewrite IH, !append_assoc. auto. Qed.

Lemma as_rel_line_ok g i j : j < List.length g -> as_rel_line g i j = Ok (as_text (link_item g i j)).
Proof.
  intros Hj. unfold as_rel_line. rewrite (nth_error_some_nth g j []); auto. cbn [unwrap bind]. fold (links g j). unfold link_item.
  destruct (existsb (Nat.eqb i) (links g j)); cbn [negb andb].
  - destruct (i <? j)%nat; auto. cbn [as_text as_line]. rewrite !append_assoc. cbn [append]. auto.
  - cbn [as_text as_line]. rewrite !append_assoc. cbn [append]. auto.
Qed.

Lemma foldM_text {A} (f : A -> res string) (items : A -> list as_item) l : (forall x, In x l -> f x = Ok (as_text (items x))) ->
  forall t, foldM (fun text x => line <- f x ;; Ok (text ++ line)%string) t l = Ok (t ++ as_text (flat_map items l))%string.
Proof.
  induction l as [|x l IH]; intros H t; cbn [foldM flat_map].
  - rewrite append_nil. auto.
  - rewrite H by (left; auto). cbn [bind]. rewrite IH by (intros; apply H; right; auto). rewrite as_text_app, append_assoc. auto.
Qed.

Lemma write_ok g comment : wf_graph g -> to_as_rel_string g comment = Ok (as_text (head_items comment ++ graph_items g)).
Proof.
  intros Hw. unfold to_as_rel_string. rewrite as_text_app.
  replace (match comment with Some c => ("# " ++ c ++ String newline "")%string | None => "" end) with (as_text (head_items comment)).
  2:{ destruct comment; reflexivity. }
  generalize (as_text (head_items comment)). intros t. unfold graph_items.
  assert (H : forall i l, In (i, l) (enumerate g) -> forall j, In j l -> j < List.length g).
  { intros i l Hil j Hj. apply enumerate_in in Hil. apply (Hw i). exists l. auto. }
  revert t. induction (enumerate g) as [|[i l] e IH]; intros t; cbn [foldM flat_map].
  - rewrite append_nil. auto.
  - rewrite (foldM_text (as_rel_line g i) (link_item g i)).
    + cbn [bind]. rewrite IH by (intros i' l' H' ; apply (H i'); right; auto). rewrite as_text_app, append_assoc. auto.
    + intros j Hj. apply as_rel_line_ok. apply (H i l); auto. left. auto.
Qed.

Lemma graph_items_in g a b p rest : In (Relation a b p rest) (head_items None ++ graph_items g) <->
  link g a b /\ rest = "" /\ ((p = true /\ link g b a /\ a < b) \/ (p = false /\ ~ link g b a)).
Proof.
  cbn [head_items app]. unfold graph_items. rewrite in_flat_map.
  assert (Hex : forall i j, existsb (Nat.eqb i) (links g j) = true <-> link g j i).
  { intros i j. rewrite existsb_exists, link_links. split; [intros (x & Hx & E)|intros H; exists i; split; auto; apply Nat.eqb_refl].
    apply Nat.eqb_eq in E. subst. auto. }
  assert (Hit : forall i j, In (Relation a b p rest) (link_item g i j) <->
     a = i /\ b = j /\ rest = "" /\ ((p = true /\ link g b a /\ a < b) \/ (p = false /\ ~ link g b a))).
  { intros i j. unfold link_item. destruct (existsb (Nat.eqb i) (links g j)) eqn:E.
    - apply Hex in E. destruct (Nat.ltb_spec i j); cbn [In].
      + split; [intros [H'|[]]; injection H' as -> -> <- <-; auto 10|]. intros (-> & -> & -> & [(-> & _)|[_ H']]); tauto.
      + split; [tauto|]. intros (-> & -> & -> & [(_ & _ & H')|[_ H']]); [lia|tauto].
    - assert (~ link g j i) by (rewrite <- Hex, E; discriminate). cbn [In].
      split; [intros [H'|[]]; injection H' as -> -> <- <-; auto 10|]. intros (-> & -> & -> & [(-> & H' & _)|[-> _]]); tauto. }
  split.
  - intros ((i & l) & Hil & H). apply in_flat_map in H. destruct H as (j & Hj & H). apply Hit in H. destruct H as (-> & -> & -> & H).
    split; auto. apply enumerate_in in Hil. exists l. auto.
  - intros ((l & Hl & Hb) & -> & H). exists (a, l). split; [apply enumerate_in; auto|]. apply in_flat_map. exists b. split; auto. apply Hit. auto.
Qed.

Lemma as_rel_round_trip g comment : wf_graph g -> (N.of_nat (List.length g) < 2 ^ 64)%N -> (forall c, comment = Some c -> free_of newline c) ->
  exists text g', to_as_rel_string g comment = Ok text /\ from_as_rel_string text = Ok g' /\ ascending_links g' /\
    (forall i j, link g' i j <-> i <> j /\ link g j i) /\
    least_above (fun i => exists j, i <> j /\ (link g i j \/ link g j i)) (List.length g').
Proof.
  intros Hw Hn Hc. rewrite (write_ok g comment Hw).
  assert (Hin : forall a b p rest, In (Relation a b p rest) (head_items comment ++ graph_items g) <->
     link g a b /\ rest = "" /\ ((p = true /\ link g b a /\ a < b) \/ (p = false /\ ~ link g b a))).
  { intros. rewrite <- graph_items_in. destruct comment; cbn [head_items app In]; [|tauto]. split; auto. intros [H|H]; auto. discriminate H. }
  destruct (read_text (head_items comment ++ graph_items g) None) as (g' & E & Ha & Hl & Hs).
  - apply Forall_forall. intros item Hitem. destruct item as [|t|a b p rest]; cbn [as_ok]; auto.
    + apply in_app_or in Hitem. destruct Hitem as [H|H].
      * destruct comment as [c|]; [|destruct H]. destruct H as [H|[]]. injection H as <-. split; [discriminate|]. apply Hc. auto.
      * exfalso. unfold graph_items in H. apply in_flat_map in H. destruct H as ((i & l) & _ & H). apply in_flat_map in H. destruct H as (j & _ & H).
        unfold link_item in H. destruct (existsb _ _); [destruct (i <? j)%nat|]; cbn in H; intuition discriminate.
    + apply Hin in Hitem. destruct Hitem as (H & -> & _). pose proof (Hw _ _ H). pose proof (link_lt _ _ _ H).
      split; [lia|]. split; [lia|]. split; [exact I|auto].
  - discriminate.
  - cbn [final_line final_item] in *. rewrite append_nil in E. rewrite app_nil_r in Hl, Hs.
    assert (Hlink : forall i j, link g' i j <-> i <> j /\ link g j i).
    { intros i j. rewrite Hl. unfold said_link. split.
      - intros (rest & [[p H]|H]); apply Hin in H.
        + destruct H as (H1 & -> & [(_ & H2 & H3)|[_ H2]]); split; auto; [lia|]. intros ->. auto.
        + destruct H as (H1 & -> & [(_ & H2 & H3)|[H2 _]]); [split; [lia|auto]|discriminate].
      - intros [Hne H]. exists "". assert (D : link g i j \/ ~ link g i j).
        { rewrite link_links. destruct (in_dec Nat.eq_dec j (links g i)); auto. }
        destruct D as [D|D].
        + destruct (Nat.lt_trichotomy i j) as [L|[L|L]]; [|congruence|].
          * right. apply Hin. auto 10.
          * left. exists true. apply Hin. auto 10.
        + left. exists false. apply Hin. auto 10. }
    eexists _, g'. split; [reflexivity|]. split; auto. split; auto. split; auto.
    assert (Hnode : forall i, said_node (head_items comment ++ graph_items g) i <-> exists j, i <> j /\ (link g i j \/ link g j i)).
    { intros i. split.
      - intros (j & p & rest & [H|H]); exists j.
        + assert (L : link g' j i) by (apply Hl; exists rest; left; exists p; auto). apply Hlink in L. destruct L; auto.
        + assert (L : link g' i j) by (apply Hl; exists rest; left; exists p; auto). apply Hlink in L. destruct L; auto.
      - intros (j & Hne & [H|H]).
        + assert (L : link g' j i) by (apply Hlink; auto). apply Hl in L. destruct L as (rest & [[p L]|L]); exists j; [exists p|exists true]; exists rest; auto.
        + assert (L : link g' i j) by (apply Hlink; auto). apply Hl in L. destruct L as (rest & [[p L]|L]); exists j; [exists p|exists true]; exists rest; auto. }
    destruct Hs as [Hs1 Hs2]. split.
    + intros i Hi. apply Hs1, Hnode. auto.
    + intros n' H. apply Hs2. intros i Hi. apply H, Hnode. auto.
Qed.

Lemma ascending_ext g g' : List.length g = List.length g' -> ascending_links g -> ascending_links g' -> (forall i j, link g i j <-> link g' i j) -> g = g'.
Proof.
  intros Hl Ha Ha' H. apply (nth_ext g g' [] []); auto. intros i Hi. unfold ascending_links in *. rewrite Forall_forall in Ha, Ha'.
  assert (S1 : StronglySorted lt (nth i g [])) by (apply Ha, nth_In; auto).
  assert (S2 : StronglySorted lt (nth i g' [])) by (apply Ha', nth_In; lia).
  rewrite <- (elements_of_sorted _ S1), <- (elements_of_sorted _ S2). f_equal. apply bset_ext. intros x.
  apply eq_true_iff_eq. rewrite !mem_of_list. specialize (H i x). rewrite !link_links in H. exact H.
Qed.

Lemma as_rel_round_trip_id g comment : wf_graph g -> undirected g -> loop_free g -> ascending_links g ->
  (g = [] \/ exists j, link g (List.length g - 1) j) -> (N.of_nat (List.length g) < 2 ^ 64)%N -> (forall c, comment = Some c -> free_of newline c) ->
  exists text, to_as_rel_string g comment = Ok text /\ from_as_rel_string text = Ok g.
Proof.
  intros Hw Hu Hf Ha Hlast Hn Hc. destruct (as_rel_round_trip g comment Hw Hn Hc) as (text & g' & E1 & E2 & Ha' & Hl & Hs1 & Hs2).
  exists text. split; auto. rewrite E2. f_equal. symmetry. apply ascending_ext; auto.
  - apply Nat.le_antisymm.
    + destruct Hlast as [->|(j & Hj)]; [cbn; lia|]. pose proof (link_lt _ _ _ Hj).
      assert (List.length g - 1 < List.length g'); [|lia]. apply Hs1. exists j. split; auto. intros E. apply (Hf j). rewrite <- E at 1. auto.
    + apply Hs2. intros i (j & _ & [H|H]); [apply (link_lt _ _ _ H)|apply (Hw _ _ H)].
  - intros i j. rewrite Hl. split; [|intros [_ H]; auto]. intros H. split; auto. intros ->. apply (Hf j). auto.
Qed.
