(** Lemmas about the groups by ISP and by country. *)
From Coq Require Import Ascii ZArith.
From Verif Require Export P_IO P_ThGroupings.
Local Open Scope list_scope.

Notation chars := list_ascii_of_string.
Lemma chars_inj a b : chars a = chars b -> a = b.
Proof. intro H. rewrite <- (string_of_list_ascii_of_string a), <- (string_of_list_ascii_of_string b), H. auto. Qed.
Lemma chars_app a b : chars (a ++ b)%string = chars a ++ chars b.
Proof. induction a as [|c a IH]; simpl; auto. rewrite IH. auto. Qed.
Definition drop_commas (l : list ascii) := filter (fun c => negb (Ascii.eqb c comma)) l.

Lemma without_commas_iff s r : without_commas s r <-> chars r = drop_commas (chars s).
Proof.
  split.
  - induction 1 as [|s r H IH|c s r Hc H IH]; cbn in *; auto. apply Ascii.eqb_neq in Hc. unfold comma. rewrite Hc. cbn. rewrite IH. auto.
  - revert r. induction s as [|c s IH]; intros r H; cbn in H.
    + destruct r; [|discriminate]. constructor.
    + destruct (Ascii.eqb c comma) eqn:E; cbn in H.
      * apply Ascii.eqb_eq in E. subst c. constructor. auto.
      * apply Ascii.eqb_neq in E. destruct r as [|c' r]; [discriminate|]. cbn in H. inversion H; subst. constructor; auto.
Qed.
Lemma without_commas_fun s r r' : without_commas s r -> without_commas s r' -> r = r'.
Proof. intros H1 H2. apply without_commas_iff in H1, H2. apply chars_inj. congruence. Qed.
Lemma snoc_inj {A} (a b : list A) x y : a ++ [x] = b ++ [y] -> a = b /\ x = y.
Proof. intro H. apply app_inj_tail in H. auto. Qed.
Lemma without_full_stop_fun s r r' : without_full_stop s r -> without_full_stop s r' -> r = r'.
Proof.
  intros [H1|[H1 H1']] [H2|[H2 H2']].
  - subst s. apply (f_equal chars) in H2. rewrite !chars_app in H2. apply snoc_inj in H2. apply chars_inj, H2.
  - subst s. destruct (H2' r). auto.
  - subst s. destruct (H1' r'). auto.
  - congruence.
Qed.
Lemma cleaned_fun s r r' : cleaned s r -> cleaned s r' -> r = r'.
Proof.
  intros (a & H1 & H2) (b & H3 & H4). assert (a = b) by (eapply without_commas_fun; eauto). subst b. eapply without_full_stop_fun; eauto.
Qed.

Lemma remove_special_chars_ok name r : remove_special_chars name = Ok r -> cleaned name r.
Proof.
  unfold remove_special_chars. fold (drop_commas (chars name)). destruct (rev (drop_commas (chars name))) as [|c before] eqn:E; [discriminate|].
  destruct (is_continuation_byte c && _); [discriminate|]. intro H. inversion H as [H']; clear H.
  assert (Eb : drop_commas (chars name) = rev before ++ [c]) by (rewrite <- (rev_involutive (drop_commas _)), E; auto).
  exists (string_of_list_ascii (rev before ++ [c])). split.
  - apply without_commas_iff. rewrite list_ascii_of_string_of_list_ascii. auto.
  - cbn [filter]. destruct (Ascii.eqb c full_stop) eqn:Ec; cbn [negb].
    + apply Ascii.eqb_eq in Ec. subst c. left. rewrite app_nil_r. apply chars_inj. rewrite chars_app, !list_ascii_of_string_of_list_ascii. auto.
    + right. split; auto. intros r' Hr. apply (f_equal chars) in Hr. rewrite chars_app, list_ascii_of_string_of_list_ascii in Hr.
      apply snoc_inj in Hr. destruct Hr as [_ Hr]. subst c. discriminate.
Qed.
Lemma remove_special_chars_panic name : remove_special_chars name = Panic <-> uncleanable name.
Proof.
  unfold remove_special_chars, uncleanable. fold (drop_commas (chars name)).
  destruct (rev (drop_commas (chars name))) as [|c before] eqn:E.
  - split; auto. intros _. left. apply without_commas_iff. rewrite <- (rev_involutive (drop_commas _)), E. auto.
  - assert (Eb : drop_commas (chars name) = rev before ++ [c]) by (rewrite <- (rev_involutive (drop_commas _)), E; auto).
    rewrite Eb, app_length. cbn [List.length].
    assert (Hs : forall s c', without_commas name (s ++ String c' "") -> chars s = rev before /\ c' = c).
    { intros s c' H. apply without_commas_iff in H. rewrite chars_app in H. cbn in H. rewrite Eb in H. apply snoc_inj in H. auto. }
    destruct (is_continuation_byte c) eqn:Ec; cbn [andb].
    + unfold is_continuation_byte in Ec. apply andb_prop in Ec. destruct Ec as [E1 E2]. apply Nat.leb_le in E1. apply Nat.ltb_lt in E2.
      destruct (Nat.eqb_spec (List.length (rev before) + 1) 1) as [El|El]; cbn [negb].
      * split; [discriminate|]. intros [H|(s & c' & H & Hne & _)].
        -- apply without_commas_iff in H. rewrite Eb in H. cbn in H. destruct (rev before); discriminate.
        -- apply Hs in H. destruct H as [H _]. exfalso. apply Hne, chars_inj. rewrite H. destruct (rev before); auto. cbn in El. lia.
      * split; auto. intros _. right. exists (string_of_list_ascii (rev before)), c. split; [|split; auto].
        -- apply without_commas_iff. rewrite chars_app, list_ascii_of_string_of_list_ascii. auto.
        -- intro H. apply (f_equal chars) in H. rewrite list_ascii_of_string_of_list_ascii in H. rewrite H in El. cbn in El. lia.
    + split; [discriminate|]. intros [H|(s & c' & H & Hne & Hc)].
      * apply without_commas_iff in H. rewrite Eb in H. cbn in H. destruct (rev before); discriminate.
      * apply Hs in H. destruct H as [_ ->]. exfalso. unfold is_continuation_byte in Ec.
        rewrite (proj2 (Nat.leb_le _ _)), (proj2 (Nat.ltb_lt _ _)) in Ec by lia. discriminate.
Qed.
Lemma remove_special_chars_iff s r : (exists r', remove_special_chars s = Ok r') -> (remove_special_chars s = Ok r <-> cleaned s r).
Proof.
  intros (r' & Hr). split; [apply remove_special_chars_ok|]. intro H. rewrite Hr. f_equal. eapply cleaned_fun; eauto. apply remove_special_chars_ok; auto.
Qed.

(** ** the loop *)
Definition mkeys (name : string) (m : list (string * list public_key)) : list public_key := match assoc String.eqb name m with Some l => l | None => [] end.
Lemma mkeys_push name c pk m : mkeys name (push_to c pk m) = mkeys name m ++ (if String.eqb name c then [pk] else []).
Proof.
  unfold mkeys. induction m as [|[n pks] m IH]; cbn [push_to assoc].
  - destruct (String.eqb name c); auto.
  - destruct (String.eqb c n) eqn:E.
    + apply string_eqb_eq in E. subst n. cbn [assoc]. destruct (String.eqb name c); auto. rewrite app_nil_r. auto.
    + cbn [assoc]. destruct (String.eqb name n) eqn:E2; auto. apply string_eqb_eq in E2. subst n.
      rewrite String.eqb_sym, E. rewrite app_nil_r. auto.
Qed.
Lemma push_fst name pk m : map fst (push_to name pk m) = map fst m \/ (~ In name (map fst m) /\ map fst (push_to name pk m) = map fst m ++ [name]).
Proof.
  induction m as [|[n pks] m IH]; cbn [push_to map fst].
  - right. auto.
  - destruct (String.eqb name n) eqn:E; cbn [map fst]; auto. destruct IH as [IH|[IH1 IH2]].
    + left. congruence.
    + right. split; [|cbn; congruence]. intros [->|H]; auto. rewrite String.eqb_refl in E. discriminate.
Qed.
Lemma push_nodup name pk m : NoDup (map fst m) -> NoDup (map fst (push_to name pk m)).
Proof.
  intro H. destruct (push_fst name pk m) as [->|[Hn ->]]; auto.
  apply (Permutation_NoDup (l := name :: map fst m)); [|constructor; auto]. apply Permutation_cons_append.
Qed.
Definition nonempty_groups (m : list (string * list public_key)) := forall n pks, In (n, pks) m -> pks <> [].
Lemma push_nonempty name pk m : nonempty_groups m -> nonempty_groups (push_to name pk m).
Proof.
  unfold nonempty_groups. induction m as [|[n0 pks0] m IH]; cbn [push_to]; intros H n pks Hin.
  - destruct Hin as [Hin|[]]. inversion Hin. discriminate.
  - destruct (String.eqb name n0); destruct Hin as [Hin|Hin].
    + inversion Hin. destruct pks0; discriminate.
    + apply (H n). right; auto.
    + inversion Hin; subst. apply (H n). left; auto.
    + apply (IH (fun n pks Hi => H n pks (or_intror Hi)) n pks Hin).
Qed.

Lemma collect_spec label l : forall m m', collect_labels label l m = Ok m' -> NoDup (map fst m) -> nonempty_groups m ->
  NoDup (map fst m') /\ nonempty_groups m' /\
  (forall name, exists pks, keys_of (labelled label name) l pks /\ mkeys name m' = mkeys name m ++ pks).
Proof.
  induction l as [|n l IH]; intros m m' H Hnd Hne; cbn [collect_labels] in H.
  - inversion H; subst m'. split; auto. split; auto. intro name. exists []. split; [constructor|rewrite app_nil_r; auto].
  - destruct (label n) as [s|] eqn:El.
    + destruct (remove_special_chars s) as [c|] eqn:Ec; [|discriminate]. cbn [bind] in H. apply remove_special_chars_ok in Ec.
      destruct (IH _ _ H (push_nodup _ _ _ Hnd) (push_nonempty _ _ _ Hne)) as (H1 & H2 & H3). split; auto. split; auto.
      intro name. destruct (H3 name) as (pks & Hk & Em). rewrite mkeys_push in Em. destruct (String.eqb name c) eqn:E.
      * apply string_eqb_eq in E. subst name. exists (raw_public_key n :: pks). split.
        -- constructor; auto. exists s; auto.
        -- rewrite Em, <- app_assoc. auto.
      * exists pks. split; [|rewrite Em, app_nil_r; auto]. apply keys_out; auto. intros (s' & Hs & Hc). rewrite El in Hs. inversion Hs; subst s'.
        assert (name = c) by (eapply cleaned_fun; eauto). subst name. rewrite String.eqb_refl in E. discriminate.
    + destruct (IH _ _ H Hnd Hne) as (H1 & H2 & H3). split; auto. split; auto. intro name. destruct (H3 name) as (pks & Hk & Em).
      exists pks. split; auto. apply keys_out; auto. intros (s' & Hs & _). congruence.
Qed.
Lemma collect_total label l : forall m, (exists m', collect_labels label l m = Ok m') <-> (forall n s, In n l -> label n = Some s -> ~ uncleanable s).
Proof.
  induction l as [|n l IH]; intro m; cbn [collect_labels].
  - split; [intros _ n s []|eauto].
  - destruct (label n) as [s|] eqn:El.
    + destruct (remove_special_chars s) as [c|] eqn:Ec; cbn [bind].
      * rewrite IH. split; intros H n' s' Hin; [destruct Hin as [<-|Hin]|]; intros; eauto.
        -- intro Hu. apply remove_special_chars_panic in Hu. congruence.
        -- apply (H n'); auto. right; auto.
      * apply remove_special_chars_panic in Ec. split; [intros (m' & H); discriminate|]. intro H. destruct (H n s (or_introl eq_refl) El Ec).
    + rewrite IH. split; intros H n' s' Hin Hl; [destruct Hin as [<-|Hin]; [congruence|eauto]|]. apply (H n'); auto. right; auto.
Qed.

Lemma assoc_in_fst (m : list (string * list public_key)) name : In name (map fst m) <-> exists pks, assoc String.eqb name m = Some pks.
Proof.
  induction m as [|[n pks] m IH]; cbn [map fst assoc In].
  - split; [tauto|intros (? & H); discriminate].
  - destruct (String.eqb name n) eqn:E.
    + apply string_eqb_eq in E. subst n. split; eauto.
    + rewrite <- IH. split; [intros [->|H]; auto|auto]. rewrite String.eqb_refl in E. discriminate.
Qed.
Lemma assoc_in (m : list (string * list public_key)) name pks : assoc String.eqb name m = Some pks -> In (name, pks) m.
Proof.
  induction m as [|[n p] m IH]; cbn [assoc]; [discriminate|]. destruct (String.eqb name n) eqn:E.
  - apply string_eqb_eq in E. subst n. intro H. inversion H. left; auto.
  - right. auto.
Qed.
Lemma keys_of_nonempty P l pks : keys_of P l pks -> (pks <> [] <-> exists n, In n l /\ P n).
Proof.
  induction 1 as [|n l pks Hn H IH|n l pks Hn H IH].
  - split; [congruence|]. intros (n & [] & _).
  - split; [intros _; exists n; split; auto; left; auto|discriminate].
  - rewrite IH. split; intros (n' & Hin & Hp); exists n'; split; auto; [right; auto|]. destruct Hin as [<-|Hin]; auto. destruct (Hn Hp).
Qed.
Lemma groupings_of_labels_spec label l gs : groupings_of_labels label l = Ok gs ->
  StronglySorted string_before (map rg_name gs) /\
  (forall g, In g gs -> rg_validators g <> [] /\ keys_of (labelled label (rg_name g)) l (rg_validators g)) /\
  (forall n s, In n l -> label n = Some s -> exists g, In g gs /\ cleaned s (rg_name g)).
Proof.
  unfold groupings_of_labels. destruct (collect_labels label l []) as [m|] eqn:E; [|discriminate]. cbn [bind]. intro H. inversion H as [Hg]; clear H.
  destruct (collect_spec label l [] m E) as (Hnd & Hne & Hk); [constructor|intros ? ? []|]. rewrite Hg.
  set (names := sort_by string_compare (map fst m)) in Hg.
  assert (Hin : forall x, In x names -> In x (map fst m)) by (intros x Hx; apply sort_by_in in Hx; auto).
  assert (Hmk : map rg_name gs = names).
  { subst gs. clearbody names. induction names as [|x names IH]; cbn [filter_map]; auto.
    destruct (proj1 (assoc_in_fst m x) (Hin x (or_introl eq_refl))) as (pks & ->). cbn. f_equal. apply IH. intros; apply Hin; right; auto. }
  assert (Hg' : forall g, In g gs <-> assoc String.eqb (rg_name g) m = Some (rg_validators g)).
  { intro g. subst gs. rewrite filter_map_in. split.
    - intros (x & Hx & Ex). destruct (assoc String.eqb x m) as [pks|] eqn:Ea; [|discriminate]. cbn in Ex. inversion Ex; subst g. auto.
    - intro Ha. exists (rg_name g). split.
      + apply sort_by_in. apply assoc_in_fst. eauto.
      + rewrite Ha. cbn. destruct g; auto. }
  assert (Hv : forall name, keys_of (labelled label name) l (mkeys name m)).
  { intro name. destruct (Hk name) as (pks & Hp & ->). exact Hp. }
  split; [|split].
  - rewrite Hmk. apply strong_sorted_nodup_lt.
    + apply (Permutation_NoDup (l := map fst m)); auto. symmetry. apply sort_by_perm.
    + apply cmp_sort_sorted, string_cmp_ok.
  - intros g Hing. apply Hg' in Hing. split.
    + apply (Hne (rg_name g)). apply assoc_in; auto.
    + specialize (Hv (rg_name g)). unfold mkeys in Hv. rewrite Hing in Hv. auto.
  - intros n s Hn Hs.
    assert (Hc : exists c, cleaned s c).
    { assert (Ht := proj1 (collect_total label l []) (ex_intro _ m E) n s Hn Hs). destruct (remove_special_chars s) as [c|] eqn:Ec.
      - exists c. apply remove_special_chars_ok; auto.
      - apply remove_special_chars_panic in Ec. contradiction. }
    destruct Hc as (c & Hc). specialize (Hv c).
    assert (Hx : mkeys c m <> []). { apply (keys_of_nonempty _ _ _ Hv). exists n. split; auto. exists s; auto. }
    unfold mkeys in Hx. destruct (assoc String.eqb c m) as [pks|] eqn:Ea; [|congruence].
    exists (mk_raw_grouping c pks). split; auto. apply Hg'. auto.
Qed.
Lemma groupings_of_labels_total label l : (exists gs, groupings_of_labels label l = Ok gs) <-> (forall n s, In n l -> label n = Some s -> ~ uncleanable s).
Proof.
  rewrite <- (collect_total label l []). unfold groupings_of_labels. split; intros (m & H).
  - destruct (collect_labels label l []); [eauto|discriminate].
  - rewrite H. cbn. eauto.
Qed.

Lemma keys_of_in P l pks pk : keys_of P l pks -> (In pk pks <-> exists n, In n l /\ P n /\ raw_public_key n = pk).
Proof.
  induction 1 as [|n l pks Hn H IH|n l pks Hn H IH].
  - split; [intros []|intros (n & [] & _)].
  - cbn [In]. rewrite IH. split.
    + intros [<-|(n' & H1 & H2 & H3)]; [exists n; auto|exists n'; auto].
    + intros (n' & [<-|H1] & H2 & H3); [auto|right; eauto].
  - cbn [In]. rewrite IH. split.
    + intros (n' & H1 & H2 & H3). exists n'; auto.
    + intros (n' & [<-|H1] & H2 & H3); [destruct (Hn H2)|eauto].
Qed.
Lemma strict_sorted_nodup l : StronglySorted string_before l -> NoDup l.
Proof.
  induction 1 as [|a l Hl IH Ha]; constructor; auto. intro Hin. rewrite Forall_forall in Ha. specialize (Ha a Hin).
  apply string_compare_lt in Ha. rewrite (proj2 (cmp_eq _ string_cmp_ok a a)) in Ha; auto. discriminate.
Qed.

Lemma labels_groups label l gs : unique_keys l -> groupings_of_labels label l = Ok gs ->
  (forall g x, In g gs -> (member x (grouping_from_raw (key_map l) g) <-> exists n, nth_error l x = Some n /\ labelled label (rg_name g) n)) /\
  groups_of (fbas_from_raw l) (map (grouping_from_raw (key_map l)) gs) /\ disjoint_groups (map (grouping_from_raw (key_map l)) gs).
Proof.
  intros Hu H. destruct (groupings_of_labels_spec label l gs H) as (Hs & Hg & Hall). set (f := fbas_from_raw l).
  set (gs' := map (grouping_from_raw (key_map l)) gs).
  assert (Hm : forall g x, In g gs -> (member x (grouping_from_raw (key_map l) g) <-> exists n, nth_error l x = Some n /\ labelled label (rg_name g) n)).
  { intros g x Hin. destruct (Hg g Hin) as [_ Hk]. unfold member. cbn [grouping_from_raw g_validators]. rewrite filter_map_in. split.
    - intros (pk & Hpk & Ex). apply (keys_of_in _ _ _ _ Hk) in Hpk. destruct Hpk as (n & Hn & Hl & En). apply key_map_spec, unique_last in Ex; auto.
      destruct (nth_error l x) as [n'|] eqn:En'; [|discriminate]. cbn in Ex. exists n'. split; auto.
      assert (n = n'); [|subst; auto]. apply In_nth_error in Hn. destruct Hn as (y & Hy).
      assert (x = y); [|congruence]. eapply NoDup_nth_error; [exact Hu| |].
      + rewrite map_length. apply nth_error_Some. congruence.
      + rewrite !nth_error_map, Hy, En'. cbn. congruence.
    - intros (n & Hn & Hl). exists (raw_public_key n). split.
      + apply (keys_of_in _ _ _ _ Hk). exists n. split; auto. eapply nth_error_In; eauto.
      + apply key_map_spec, unique_last; auto. rewrite Hn. auto. }
  split; [exact Hm|]. split.
  - intros g x Hin Hx. apply in_map_iff in Hin. destruct Hin as (r & <- & Hr). apply Hm in Hx; auto. destruct Hx as (n & Hn & _).
    unfold f, number_of_nodes. cbn. rewrite map_length. apply nth_error_Some. congruence.
  - intros i j gi gj x Hi Hj Hxi Hxj. unfold gs' in Hi, Hj. rewrite nth_error_map in Hi, Hj.
    destruct (nth_error gs i) as [ri|] eqn:Ei; [|discriminate]. destruct (nth_error gs j) as [rj|] eqn:Ej; [|discriminate].
    cbn in Hi, Hj. inversion Hi; subst gi. inversion Hj; subst gj.
    apply Hm in Hxi, Hxj; try (eapply nth_error_In; eauto; fail). destruct Hxi as (n & Hn & s & Hs1 & Hc1). destruct Hxj as (n' & Hn' & s' & Hs2 & Hc2).
    assert (rg_name ri = rg_name rj). { assert (n = n') by congruence. subst n'. assert (s = s') by congruence. subst s'. eapply cleaned_fun; eauto. }
    apply strict_sorted_nodup in Hs. eapply NoDup_nth_error; [exact Hs| |].
    + rewrite map_length. apply nth_error_Some. congruence.
    + rewrite !nth_error_map, Ei, Ej. cbn. congruence.
Qed.
Lemma labels_members label l gs : unique_keys l -> groupings_of_labels label l = Ok gs ->
  exists G, groupings_from_raw gs (fbas_from_raw l) = Ok G /\
  forall i n, nth_error l i = Some n ->
    (forall s, label n = Some s -> exists g, get_by_member G i = Ok (Some g) /\ cleaned s (g_name g)) /\
    (label n = None -> get_by_member G i = Ok None).
Proof.
  intros Hu H. destruct (groupings_of_labels_spec label l gs H) as (Hs & Hg & Hall). set (f := fbas_from_raw l).
  set (gs' := map (grouping_from_raw (key_map l)) gs). destruct (labels_groups label l gs Hu H) as (Hm & Hr & Hd).
  destruct (groupings_consistent f gs' Hr Hd) as (G & EG & Hc). exists G. split; [exact EG|].
  destruct Hc as (_ & _ & _ & _ & _ & Hc1 & Hc2).
  intros i n Hn. split.
  - intros s Hl. destruct (Hall n s) as (g & Hin & Hcl); auto; [eapply nth_error_In; eauto|].
    exists (grouping_from_raw (key_map l) g). split; auto. apply Hc1. split; [apply in_map; auto|]. apply Hm; auto. exists n. split; auto. exists s; auto.
  - intro Hl. apply Hc2. intros g Hin Hx. apply in_map_iff in Hin. destruct Hin as (r & <- & Hin). apply Hm in Hx; auto.
    destruct Hx as (n' & Hn' & s & Hs' & _). assert (n = n') by congruence. subst n'. congruence.
Qed.
