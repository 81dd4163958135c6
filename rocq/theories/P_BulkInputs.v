(** Proofs about file names, labels and inputs of the bulk analyzer. *)
From Coq Require Import ZArith Ascii Permutation.
From Verif Require Export P_Bulk.
Local Open Scope string_scope.
Local Open Scope list_scope.
Local Open Scope nat_scope.

(** ** strings *)
Lemma starts_with_spec p s : starts_with p s = true <-> exists b, s = (p ++ b)%string.
Proof.
  revert s. induction p as [|c p IH]; intro s; cbn [starts_with append].
  - split; eauto.
  - destruct s as [|d s]; [split; [discriminate|intros (b & H); discriminate]|]. rewrite andb_true_iff, IH, Ascii.eqb_eq. split.
    + intros [-> (b & ->)]. eauto.
    + intros (b & H). inversion H; eauto.
Qed.
Lemma contains_spec p s : contains p s = true <-> exists a b, s = (a ++ p ++ b)%string.
Proof.
  induction s as [|c s IH]; cbn [contains]; rewrite orb_true_iff, starts_with_spec.
  - split; [intros [(b & H)|H]; [exists "", b; auto|discriminate]|]. intros (a & b & H). left. destruct a; [eauto|discriminate].
  - rewrite IH. split.
    + intros [(b & H)|(a & b & ->)]; [exists "", b; auto|exists (String c a), b; auto].
    + intros (a & b & H). destruct a as [|d a]; [eauto|]. inversion H; subst. right. eauto.
Qed.
Lemma ends_with_spec p s : ends_with p s = true <-> exists a, s = (a ++ p)%string.
Proof.
  induction s as [|c s IH]; cbn [ends_with]; rewrite orb_true_iff, String.eqb_eq.
  - split; [intros [->|H]; [exists ""; auto|discriminate]|]. intros (a & H). left. destruct a; [auto|discriminate].
  - rewrite IH. split.
    + intros [->|(a & ->)]; [exists ""; auto|exists (String c a); auto].
    + intros (a & H). destruct a as [|d a]; [auto|]. inversion H; subst. right. eauto.
Qed.
Lemma split_on_ne c s : split_on c s <> [].
Proof. induction s as [|d s IH]; cbn; [discriminate|]. destruct (Ascii.eqb d c); [discriminate|]. destruct (split_on c s); [congruence|discriminate]. Qed.
Lemma split_on_sep c a b : split_on c (a ++ String c b) = split_on c a ++ split_on c b.
Proof.
  induction a as [|d a IH]; cbn [append split_on].
  - rewrite Ascii.eqb_refl. auto.
  - rewrite IH. destruct (Ascii.eqb d c); auto. destruct (split_on c a) as [|x l] eqn:E; [now apply split_on_ne in E|]. auto.
Qed.

(** ** paths *)
Lemma split_on_all c s : Forall (free_of c) (split_on c s).
Proof.
  induction s as [|d s IH]; cbn [split_on]; [repeat constructor|]. destruct (Ascii.eqb_spec d c) as [->|E]; [constructor; [exact I|auto]|].
  destruct (split_on c s) as [|x l]; inversion IH; subst; constructor; cbn; auto.
Qed.
Lemma concat_cons sep x l : l <> [] -> String.concat sep (x :: l) = (x ++ sep ++ String.concat sep l)%string.
Proof. destruct l; [congruence|reflexivity]. Qed.
Lemma concat_split c s : String.concat (String c "") (split_on c s) = s.
Proof.
  induction s as [|d s IH]; [reflexivity|]. cbn [split_on]. destruct (Ascii.eqb_spec d c) as [->|E].
  - rewrite concat_cons by apply split_on_ne. rewrite IH. reflexivity.
  - destruct (split_on c s) as [|x l] eqn:Es; [now apply split_on_ne in Es|]. rewrite <- IH. destruct l; reflexivity.
Qed.
Lemma split_concat c parts : Forall (free_of c) parts -> parts <> [] -> split_on c (String.concat (String c "") parts) = parts.
Proof.
  induction 1 as [|p parts Hp HF IH]; [congruence|]. intros _. destruct parts as [|q parts].
  - cbn. now apply split_on_free.
  - rewrite concat_cons by discriminate. change (String c "" ++ ?x)%string with (String c x).
    rewrite split_on_app; auto. f_equal. apply IH. discriminate.
Qed.
Lemma concat_app sep l1 l2 : l1 <> [] -> l2 <> [] -> String.concat sep (l1 ++ l2) = (String.concat sep l1 ++ sep ++ String.concat sep l2)%string.
Proof.
  intros H1 H2. induction l1 as [|x l1 IH]; [congruence|]. destruct l1 as [|y l1].
  - cbn [app]. now rewrite concat_cons.
  - change ((x :: y :: l1) ++ l2) with (x :: ((y :: l1) ++ l2)). rewrite (concat_cons sep x ((y :: l1) ++ l2)) by (cbn; discriminate).
    rewrite IH by discriminate. rewrite (concat_cons sep x (y :: l1)) by discriminate. rewrite !append_assoc. reflexivity.
Qed.
Lemma concat_tail name rest : String.concat "/" (name :: rest) = (name ++ String.concat "" (map (String "/") rest))%string.
Proof.
  revert name. induction rest as [|r rest IH]; intro name; [cbn; now rewrite append_nil|].
  rewrite concat_cons by discriminate. rewrite IH. cbn [map]. f_equal. destruct rest; [cbn; rewrite ?append_nil; reflexivity|].
  rewrite (concat_cons "" (String "/" r)) by discriminate. reflexivity.
Qed.
Lemma skipped c : negb (String.eqb c "" || String.eqb c ".") = false <-> c = "" \/ c = ".".
Proof. rewrite negb_false_iff, orb_true_iff, !String.eqb_eq. tauto. Qed.
Lemma filter_none {A} (p : A -> bool) l : filter p l = [] <-> Forall (fun x => p x = false) l.
Proof.
  induction l as [|x l IH]; cbn; [split; auto|]. destruct (p x) eqn:E; split; intro H; try discriminate.
  - inversion H; congruence.
  - constructor; auto. now apply IH.
  - inversion H; subst. now apply IH.
Qed.
Lemma filter_last {A} (p : A -> bool) l a x : filter p l = a ++ [x] -> exists l1 l2, l = l1 ++ x :: l2 /\ p x = true /\ Forall (fun y => p y = false) l2.
Proof.
  revert a. induction l as [|y l IH]; intros a E; cbn in E; [destruct a; discriminate|]. destruct (p y) eqn:Ey.
  - destruct a as [|b a]; inversion E; subst.
    + exists [], l. split; auto. split; auto. now apply filter_none.
    + destruct (IH a H1) as (l1 & l2 & -> & H). exists (b :: l1), l2. auto.
  - destruct (IH a E) as (l1 & l2 & -> & H). exists (y :: l1), l2. auto.
Qed.
Lemma file_name_of p name : file_name p = Some name <-> leads_to p name.
Proof.
  split.
  - intro H. unfold file_name in H. destruct (rev (path_components p)) as [|c l] eqn:Er; [discriminate|].
    destruct (String.eqb_spec c "."); [discriminate|]. destruct (String.eqb_spec c ".."); [discriminate|]. cbn in H. inversion H; subst c. clear H.
    assert (Ec : path_components p = rev l ++ [name]) by (rewrite <- (rev_involutive (path_components p)), Er; reflexivity).
    unfold path_components in Ec. assert (Hp := concat_split "/" p). assert (Hf := split_on_all "/" p).
    destruct (split_on "/" p) as [|first rest]; [destruct (rev l); discriminate|].
    destruct (filter (fun c => negb (String.eqb c "" || String.eqb c ".")) rest) as [|y k] eqn:Ek.
    + rewrite app_nil_r in Ec. destruct (String.eqb_spec first ""); [destruct (rev l); discriminate|].
      destruct (rev l) as [|? [|? ?]]; inversion Ec; subst. inversion Hf; subst. split; [repeat split; auto|].
      exists "", rest. split; auto. split; [|rewrite <- concat_tail; reflexivity].
      apply filter_none in Ek. revert Ek. apply Forall_impl. intros a. apply skipped.
    + destruct (exists_last (l := y :: k)) as (k' & z & Ez); [discriminate|]. rewrite Ez in Ek, Ec. rewrite app_assoc in Ec. apply app_inj_tail in Ec.
      destruct Ec as [_ ->]. destruct (filter_last _ _ _ _ Ek) as (l1 & l2 & -> & Hn & Hr). apply negb_true_iff, orb_false_iff in Hn.
      destruct Hn as [Hn _]. apply String.eqb_neq in Hn. inversion Hf as [|? ? _ Hf']; subst. apply Forall_app in Hf'. destruct Hf' as [_ Hf']. inversion Hf'; subst.
      split; [repeat split; auto|]. exists (String.concat "/" (first :: l1) ++ "/")%string, l2. split; [right; eauto|]. split.
      * revert Hr. apply Forall_impl. intros a. apply skipped.
      * rewrite <- concat_tail, append_assoc. change (first :: l1 ++ name :: l2) with ((first :: l1) ++ name :: l2). apply concat_app; discriminate.
  - intros [(Hf & H1 & H2 & H3) (dir & rest & Hd & Hr & ->)]. rewrite <- concat_tail. unfold file_name.
    assert (Hs : split_on "/" (String.concat "/" (name :: rest)) = name :: rest).
    { apply (split_concat "/"); [|discriminate]. constructor; auto. revert Hr. apply Forall_impl. intros c [-> | ->]; cbn; repeat split; discriminate. }
    assert (Hn : filter (fun c => negb (String.eqb c "" || String.eqb c ".")) rest = []).
    { apply filter_none. revert Hr. apply Forall_impl. intro c. apply skipped. }
    assert (Hc : exists l, path_components (dir ++ String.concat "/" (name :: rest))%string = l ++ [name]).
    { unfold path_components. destruct Hd as [->|(d & ->)].
      - cbn [append]. rewrite Hs, Hn, (proj2 (String.eqb_neq name "") H1). exists []. auto.
      - rewrite append_assoc. change ("/" ++ ?x)%string with (String "/" x). rewrite split_on_sep, Hs.
        destruct (split_on "/" d) as [|x l] eqn:Ed; [now apply split_on_ne in Ed|]. cbn [app]. rewrite filter_app. cbn [filter].
        rewrite Hn, (proj2 (String.eqb_neq name "") H1), (proj2 (String.eqb_neq name ".") H2). cbn [orb negb]. rewrite app_assoc. eauto. }
    destruct Hc as (l & ->). rewrite rev_app_distr. cbn.
    rewrite (proj2 (String.eqb_neq name ".") H2), (proj2 (String.eqb_neq name "..") H3). auto.
Qed.
Lemma file_name_none p : file_name p = None <-> forall name, ~ leads_to p name.
Proof.
  split.
  - intros H name Hn. apply file_name_of in Hn. congruence.
  - intro H. destruct (file_name p) as [name|] eqn:E; auto. apply file_name_of in E. now apply H in E.
Qed.

(** ** labels *)
Lemma remove_json_once s t : (forall a b, s <> (a ++ ".json" ++ b)%string) -> remove_all ".json" 0 (s ++ ".json" ++ t) = (s ++ remove_all ".json" 0 t)%string.
Proof.
  induction s as [|c s IH]; intro H; [reflexivity|].
  change (String c s ++ ?x)%string with (String c (s ++ x)). cbn [remove_all].
  destruct (starts_with ".json" (String c (s ++ ".json" ++ t))) eqn:E.
  - exfalso. apply starts_with_spec in E. destruct E as (b & E).
    destruct s as [|c1 s]; [cbn in E; discriminate|]. destruct s as [|c2 s]; [cbn in E; discriminate|].
    destruct s as [|c3 s]; [cbn in E; discriminate|]. destruct s as [|c4 s]; [cbn in E; discriminate|].
    cbn in E. inversion E; subst. apply (H "" s). reflexivity.
  - f_equal. apply IH. intros a b ->. apply (H (String c a) b). reflexivity.
Qed.
Lemma remove_json_none s : (forall a b, s <> (a ++ ".json" ++ b)%string) -> remove_all ".json" 0 s = s.
Proof.
  induction s as [|c s IH]; intro H; [reflexivity|]. cbn [remove_all]. destruct (starts_with ".json" (String c s)) eqn:E.
  - exfalso. apply starts_with_spec in E. destruct E as (b & E). apply (H "" b). exact E.
  - f_equal. apply IH. intros a b ->. apply (H (String c a) b). reflexivity.
Qed.
Lemma concat_empty x l : String.concat "" (x :: l) = (x ++ String.concat "" l)%string.
Proof. destruct l; [cbn; now rewrite append_nil|reflexivity]. Qed.
Lemma remove_json pieces : Forall (fun s => forall a b, s <> (a ++ ".json" ++ b)%string) pieces ->
  remove_all ".json" 0 (String.concat ".json" pieces) = String.concat "" pieces.
Proof.
  induction 1 as [|s pieces Hs HF IH]; [reflexivity|]. rewrite concat_empty. destruct pieces as [|t pieces].
  - cbn [String.concat]. rewrite append_nil. now apply remove_json_none.
  - rewrite concat_cons by discriminate. rewrite remove_json_once by auto. now rewrite IH.
Qed.
Lemma pieces_exist s : exists pieces, pieces <> [] /\ s = String.concat ".json" pieces /\ Forall (fun s => forall a b, s <> (a ++ ".json" ++ b)%string) pieces.
Proof.
  remember (String.length s) as n eqn:En. revert s En. induction n as [n IH] using lt_wf_ind. intros s ->.
  destruct (contains ".json" s) eqn:E.
  - apply contains_spec in E. destruct E as (a & b & ->).
    assert (L : forall x y : string, String.length (x ++ y) = String.length x + String.length y) by (clear; induction x; cbn; intros; auto).
    destruct (IH (String.length a)) with (s := a) as (pa & Na & Ea & Fa); [rewrite !L; cbn; lia|auto|].
    destruct (IH (String.length b)) with (s := b) as (pb & Nb & Eb & Fb); [rewrite !L; cbn; lia|auto|].
    exists (pa ++ pb). split; [destruct pa; [congruence|discriminate]|]. split; [rewrite concat_app; congruence|]. apply Forall_app. auto.
  - exists [s]. split; [discriminate|]. split; [reflexivity|]. repeat constructor. intros a b H.
    assert (contains ".json" s = true) by (apply contains_spec; eauto). congruence.
Qed.
Lemma composed_exists name : exists parts, composed_of parts name.
Proof.
  destruct (pieces_exist name) as (pieces & _ & E & HF). assert (H1 := concat_split "_" (String.concat "" pieces)).
  assert (H2 := split_on_all "_" (String.concat "" pieces)). assert (H3 := split_on_ne "_" (String.concat "" pieces)).
  destruct (exists_last H3) as (l & x & El). rewrite El in *. destruct (string_dec x "") as [->|Hx].
  - exists l. apply Forall_app in H2. split; [apply H2|]. exists pieces. auto.
  - exists (l ++ [x]). split; auto. exists pieces. split; auto. split; auto. left. rewrite last_last. auto.
Qed.
Lemma selects_filter {A} (P : A -> Prop) (p : A -> bool) l : (forall x, p x = true <-> P x) -> selects P l (filter p l).
Proof.
  intro H. induction l as [|x l IH]; cbn; [constructor|]. destruct (p x) eqn:E.
  - constructor; auto. now apply H.
  - constructor; auto. rewrite <- H. congruence.
Qed.
Lemma selects_unique {A} (P : A -> Prop) l a b : selects P l a -> selects P l b -> a = b.
Proof.
  intro H. revert b. induction H; intros b Hb; inversion Hb; subst; try contradiction; f_equal; auto.
Qed.
Lemma label_of p name parts ignored : leads_to p name -> composed_of parts name ->
  exists kept, extract_label p ignored = Ok (String.concat "_" kept) /\ selects (fun part => ~ meaningless ignored part) parts kept.
Proof.
  intros Hp (Hf & pieces & -> & Hj & Hl). unfold extract_label, extract_file_name. rewrite (proj2 (file_name_of _ _) Hp). cbn [unwrap bind].
  rewrite remove_json by auto.
  assert (Hs : split_terminator "_" (String.concat "" pieces) = parts).
  { unfold split_terminator. destruct Hl as [[-> Hl]| ->].
    - assert (Hne : parts <> []) by (intros ->; cbn in Hl; congruence). rewrite (split_concat "_") by auto.
      destruct (exists_last Hne) as (l & x & ->). rewrite last_last in Hl. rewrite rev_app_distr. cbn [rev app].
      destruct x as [|c x]; [congruence|]. cbn [rev app]. now rewrite rev_involutive.
    - rewrite (split_concat "_").
      + rewrite rev_app_distr. cbn [rev app]. apply rev_involutive.
      + apply Forall_app. split; auto. repeat constructor.
      + destruct parts; discriminate. }
  rewrite Hs. eexists. split; [reflexivity|]. apply selects_filter. intro s. unfold meaningless. cbn [existsb].
  destruct (String.eqb_spec s "nodes"), (String.eqb_spec s "organizations"), (String.eqb_spec s ignored); cbn; split; intros H; try discriminate; auto; try (exfalso; tauto); tauto.
Qed.
Lemma label_spec p ignored label : extract_label p ignored = Ok label <-> gets_label ignored p label.
Proof.
  split.
  - intro H. destruct (file_name p) as [name|] eqn:Ef.
    + apply file_name_of in Ef. destruct (composed_exists name) as (parts & Hc). destruct (label_of p name parts ignored Ef Hc) as (kept & E & Hk).
      exists name, parts, kept. split; auto. split; auto. split; auto. congruence.
    + unfold extract_label, extract_file_name in H. rewrite Ef in H. discriminate.
  - intros (name & parts & kept & Hp & Hc & Hk & ->). destruct (label_of p name parts ignored Hp Hc) as (kept' & E & Hk').
    rewrite (selects_unique _ _ _ _ Hk Hk'). exact E.
Qed.

(** ** inputs *)
Definition named (p : path) : Prop := file_name p <> None.

Definition nodes_b (p : path) : bool := match file_name p with Some name => ends_with ".json" name && negb (contains "organizations" name) | None => false end.
Definition orgs_b (p : path) : bool := match file_name p with Some name => ends_with ".json" name && contains "organizations" name | None => false end.
Lemma contains_organizations name : contains "organizations" name = true <-> about_organizations name.
Proof. apply contains_spec. Qed.
Lemma nodes_b_spec p : nodes_b p = true <-> nodes_file p.
Proof.
  unfold nodes_b, nodes_file. setoid_rewrite <- file_name_of. destruct (file_name p) as [name|]; [|split; [discriminate|intros (n & H & _); discriminate]].
  rewrite andb_true_iff, negb_true_iff, ends_with_spec, <- not_true_iff_false, contains_organizations. split.
  - intros [H1 H2]. exists name. auto.
  - intros (n & [= <-] & H1 & H2). auto.
Qed.
Lemma orgs_b_spec p : orgs_b p = true <-> organizations_file p.
Proof.
  unfold orgs_b, organizations_file. setoid_rewrite <- file_name_of. destruct (file_name p) as [name|]; [|split; [discriminate|intros (n & H & _); discriminate]].
  rewrite andb_true_iff, ends_with_spec, contains_organizations. split.
  - intros [H1 H2]. exists name. auto.
  - intros (n & [= <-] & H1 & H2). auto.
Qed.
Lemma filterM_ok {A} (f : A -> res bool) (p : A -> bool) l : (forall x, In x l -> f x = Ok (p x)) -> filterM f l = Ok (filter p l).
Proof. induction l as [|x l IH]; cbn; intro H; auto. rewrite (H x), IH by auto. cbn. auto. Qed.
Lemma filterM_panic {A} (f : A -> res bool) l : (exists x, In x l /\ f x = Panic) -> filterM f l = Panic.
Proof.
  induction l as [|y l IH]; cbn; intros (x & Hx & E); [contradiction|]. destruct Hx as [->|Hx]; [rewrite E; auto|].
  destruct (f y); cbn; auto. rewrite IH by eauto. auto.
Qed.
Lemma nodes_paths_ok paths : Forall named paths -> extract_nodes_paths paths = Ok (filter nodes_b paths).
Proof.
  intro H. apply filterM_ok. intros p Hp. rewrite Forall_forall in H. specialize (H p Hp). unfold named in H.
  unfold is_nodes_file, extract_file_name, nodes_b. destruct (file_name p); [auto|congruence].
Qed.
Lemma mapM_label (ps : list path) ignored : Forall named ps ->
  exists l, mapM (fun p => label <- extract_label p ignored ;; Ok (label, p)) ps = Ok l /\
    Forall2 (fun p e => snd e = p /\ extract_label p ignored = Ok (fst e)) ps l.
Proof.
  induction 1 as [|p ps Hp HF IH]; cbn [mapM]; [exists []; auto|]. destruct IH as (l & -> & Hl). unfold named in Hp.
  assert (Hlab : exists lab, extract_label p ignored = Ok lab).
  { unfold extract_label, extract_file_name. destruct (file_name p); [cbn; eauto|congruence]. }
  destruct Hlab as (lab & El). rewrite El. cbn [bind]. exists ((lab, p) :: l). split; auto.
Qed.
Lemma orgs_paths_ok paths ignored : Forall named paths ->
  exists l, extract_organizations_paths_by_label paths ignored = Ok (bt_collect l) /\
    Forall2 (fun p e => snd e = p /\ extract_label p ignored = Ok (fst e)) (filter orgs_b paths) l.
Proof.
  intro H. unfold extract_organizations_paths_by_label. rewrite (filterM_ok _ orgs_b).
  - cbn [bind]. destruct (mapM_label (filter orgs_b paths) ignored) as (l & El & Hl).
    + rewrite Forall_forall in *. intros p Hp. apply filter_In in Hp. apply H, Hp.
    + exists l. rewrite El. auto.
  - intros p Hp. rewrite Forall_forall in H. specialize (H p Hp). unfold named in H.
    unfold is_organizations_file, extract_file_name, orgs_b. destruct (file_name p); [auto|congruence].
Qed.
Lemma collect_length {V} (l : list (string * V)) : List.length (bt_collect l) <= List.length l /\
  (List.length (bt_collect l) = List.length l <-> NoDup (map fst l)).
Proof.
  destruct (in_bt_collect l) as [Hs Hi]. assert (Hn := sorted_keys_nodup _ Hs).
  assert (Hincl : incl (map fst (bt_collect l)) (map fst l)).
  { intros k Hk. apply in_map_iff in Hk. destruct Hk as ([k' v] & <- & Hk). apply Hi in Hk. destruct Hk as (pre & post & -> & _).
    rewrite map_app. apply in_or_app. right; left; auto. }
  assert (Hincl' : incl (map fst l) (map fst (bt_collect l))).
  { intros k Hk. assert (exists v, latest_entry l k v) as (v & Hv).
    { clear -Hk. induction l as [|[k0 v0] l IH] using rev_ind; [contradiction|]. destruct (string_dec k k0) as [->|E].
      - exists v0. apply latest_snoc. auto.
      - rewrite map_app, in_app_iff in Hk. destruct Hk as [Hk|[Hk|[]]]; [|cbn in Hk; congruence]. destruct (IH Hk) as (v & Hv). exists v. apply latest_snoc. auto. }
    apply in_map_iff. exists (k, v). split; auto. now apply Hi. }
  rewrite <- (map_length fst (bt_collect l)), <- (map_length fst l). split; [now apply NoDup_incl_length|]. split.
  - intro H. apply (NoDup_incl_NoDup Hn); auto. lia.
  - intro H. apply Nat.le_antisymm; apply NoDup_incl_length; auto.
Qed.
Lemma disjoint_kinds p : nodes_b p = true -> orgs_b p = true -> False.
Proof. unfold nodes_b, orgs_b. destruct (file_name p); [|discriminate]. rewrite !andb_true_iff, negb_true_iff. intros [_ H] [_ H']. congruence. Qed.
Lemma count_kinds paths : List.length (filter nodes_b paths) + List.length (filter orgs_b paths) <= List.length paths /\
  (List.length (filter nodes_b paths) + List.length (filter orgs_b paths) = List.length paths <-> forall p, In p paths -> nodes_b p = true \/ orgs_b p = true).
Proof.
  induction paths as [|p paths [IH1 IH2]]; cbn; [split; auto; split; [intros _ ? []|auto]|].
  pose proof (disjoint_kinds p) as Hd. split.
  - destruct (nodes_b p), (orgs_b p); cbn; try lia; exfalso; auto.
  - destruct (nodes_b p) eqn:E1, (orgs_b p) eqn:E2; cbn; try (exfalso; auto; fail).
    + split.
      * intros H q [<-|Hq]; auto. apply IH2; [lia|auto].
      * intro H. f_equal. apply IH2. auto.
    + split.
      * intros H q [<-|Hq]; auto. apply IH2; [lia|auto].
      * intro H. rewrite Nat.add_succ_r. f_equal. apply IH2. auto.
    + split; [lia|]. intro H. destruct (H p); auto; congruence.
Qed.
Lemma nodup_keys (ps : list path) (l : list (string * path)) ignored :
  Forall2 (fun p e => snd e = p /\ extract_label p ignored = Ok (fst e)) ps l ->
  (NoDup (map fst l) <-> ForallOrdPairs (fun p q => extract_label p ignored <> extract_label q ignored) ps).
Proof.
  induction 1 as [|p e ps l [H1 H2] HF IH]; cbn; [split; constructor|]. split.
  - intro Hn. inversion Hn as [|? ? Hi Hn']; subst. constructor; [|apply IH; auto]. apply Forall_forall. intros q Hq E. apply Hi.
    clear -HF Hq E H2. rewrite H2 in E. induction HF as [|p' e' ps l [H1' H2'] HF IH]; [contradiction|]. destruct Hq as [->|Hq]; [left; congruence|right; auto].
  - intro Hp. inversion Hp as [|? ? Ha Hp']; subst. constructor; [|apply IH; auto]. intro Hi. rewrite Forall_forall in Ha.
    clear -HF Hi Ha H2. induction HF as [|p' e' ps l [H1' H2'] HF IH]; [contradiction|]. destruct Hi as [E|Hi].
    + apply (Ha p'); [left; auto|]. congruence.
    + apply IH; auto. intros x Hx. apply Ha. right; auto.
Qed.
Lemma pairs_split {A} (R : A -> A -> Prop) (Rd : forall x y, R x y \/ ~ R x y) l : ~ ForallOrdPairs (fun x y => ~ R x y) l <->
  exists l1 x l2 y l3, l = l1 ++ x :: l2 ++ y :: l3 /\ R x y.
Proof.
  split.
  - induction l as [|x l IH]; intro H; [exfalso; apply H; constructor|].
    assert (D : Forall (fun y => ~ R x y) l \/ exists y, In y l /\ R x y).
    { clear -Rd. induction l as [|y l IH]; [left; auto|]. destruct (Rd x y); [right; exists y; split; auto; left; auto|].
      destruct IH as [IH|(z & Hz & Hr)]; [left; auto|right; exists z; split; auto; right; auto]. }
    destruct D as [D|(y & Hy & Hr)].
    + destruct IH as (l1 & a & l2 & b & l3 & -> & Hr); [intro H'; apply H; constructor; auto|]. exists (x :: l1), a, l2, b, l3. auto.
    + apply in_split in Hy. destruct Hy as (l2 & l3 & ->). exists [], x, l2, y, l3. auto.
  - intros (l1 & x & l2 & y & l3 & -> & Hr) H. induction l1 as [|z l1 IH]; cbn in H; inversion H as [|? ? Hx Hp]; subst; auto.
    rewrite Forall_forall in Hx. apply (Hx y); auto. apply in_or_app. right; left; auto.
Qed.
Lemma filter_pairs {A} (p : A -> bool) (R : A -> A -> Prop) l :
  (exists l1 x l2 y l3, filter p l = l1 ++ x :: l2 ++ y :: l3 /\ R x y) <->
  (exists l1 x l2 y l3, l = l1 ++ x :: l2 ++ y :: l3 /\ p x = true /\ p y = true /\ R x y).
Proof.
  split.
  - intros (l1 & x & l2 & y & l3 & E & Hr).
    assert (S : forall (l a b : list A) z, filter p l = a ++ z :: b -> exists a' b', l = a' ++ z :: b' /\ filter p b' = b /\ p z = true).
    { clear. induction l as [|w l IH]; cbn; intros a b z E; [destruct a; discriminate|]. destruct (p w) eqn:Ew.
      - destruct a as [|a0 a]; cbn in E; inversion E; subst; [exists [], l; auto|]. destruct (IH a b z H1) as (a' & b' & -> & H & H'). exists (a0 :: a'), b'. auto.
      - destruct (IH a b z E) as (a' & b' & -> & H & H'). exists (w :: a'), b'. auto. }
    destruct (S _ _ _ _ E) as (a & b & -> & E' & Hx). destruct (S _ _ _ _ E') as (c & d & -> & _ & Hy). exists a, x, c, y, d. auto.
  - intros (l1 & x & l2 & y & l3 & -> & Hx & Hy & Hr). exists (filter p l1), x, (filter p l2), y, (filter p l3).
    rewrite filter_app. cbn. rewrite Hx, filter_app. cbn. rewrite Hy. auto.
Qed.
Lemma build_ok ps m ignored : Forall named ps ->
  exists inputs, build_inputs ps m ignored = Ok inputs /\
    Forall2 (fun p i => nodes_path i = p /\ extract_label p ignored = Ok (in_label i) /\ organizations_path i = bt_get (in_label i) m) ps inputs.
Proof.
  unfold build_inputs. induction 1 as [|p ps Hp HF IH]; cbn [mapM]; [exists []; auto|]. destruct IH as (l & -> & Hl). unfold named in Hp.
  assert (Hlab : exists lab, extract_label p ignored = Ok lab).
  { unfold extract_label, extract_file_name. destruct (file_name p); [cbn; eauto|congruence]. }
  destruct Hlab as (lab & El). rewrite El. cbn [bind]. eexists. split; [reflexivity|]. constructor; auto.
Qed.

Lemma named_dec p : {named p} + {~ named p}.
Proof. unfold named. destruct (file_name p); [left; discriminate|right; auto]. Qed.
Lemma inputs_panic paths ignored : extract_inputs paths ignored = Panic <-> exists p, In p paths /\ file_name p = None.
Proof.
  split.
  - intro H. destruct (Forall_Exists_dec named named_dec paths) as [Hn|Hn].
    + exfalso. unfold extract_inputs in H. rewrite (nodes_paths_ok _ Hn) in H. cbn [bind] in H. destruct (orgs_paths_ok paths ignored Hn) as (l & El & _).
      rewrite El in H. cbn [bind] in H. destruct (_ <? _) in H; [discriminate|]. destruct (build_ok (filter nodes_b paths) (bt_collect l) ignored) as (i & Ei & _).
      * rewrite Forall_forall in *. intros p Hp. apply filter_In in Hp. apply Hn, Hp.
      * rewrite Ei in H. discriminate.
    + apply Exists_exists in Hn. destruct Hn as (p & Hp & E). exists p. split; auto. destruct (file_name p) eqn:Ef; auto. exfalso. apply E. unfold named. congruence.
  - intros (p & Hp & E). unfold extract_inputs, extract_nodes_paths. rewrite filterM_panic; auto. exists p. split; auto.
    unfold is_nodes_file, extract_file_name. rewrite E. auto.
Qed.
Lemma inputs_cases paths ignored : (forall p, In p paths -> file_name p <> None) ->
  (extract_inputs paths ignored = Ok None <->
     (exists p name, In p paths /\ file_name p = Some name /\ ~ json_name name) \/
     (exists l1 p l2 q l3, paths = l1 ++ p :: l2 ++ q :: l3 /\ organizations_file p /\ organizations_file q /\ extract_label p ignored = extract_label q ignored)) /\
  (forall inputs, extract_inputs paths ignored = Ok (Some inputs) -> exists nodes_paths, selects nodes_file paths nodes_paths /\
     Forall2 (fun p i => nodes_path i = p /\ extract_label p ignored = Ok (in_label i) /\
       forall q, organizations_path i = Some q <-> In q paths /\ organizations_file q /\ extract_label q ignored = Ok (in_label i)) nodes_paths inputs).
Proof.
  intro Hn. assert (Hn' : Forall named paths) by (apply Forall_forall; exact Hn).
  unfold extract_inputs. rewrite (nodes_paths_ok _ Hn'). cbn [bind]. destruct (orgs_paths_ok paths ignored Hn') as (l & -> & Hl). cbn [bind].
  assert (Hlen : List.length (filter orgs_b paths) = List.length l) by (clear -Hl; induction Hl; cbn; auto).
  destruct (collect_length l) as [Hc1 Hc2]. destruct (count_kinds paths) as [Hk1 Hk2].
  assert (Hkind : forall p name, In p paths -> file_name p = Some name -> (nodes_b p = true \/ orgs_b p = true <-> json_name name)).
  { intros p name Hp Ef. unfold nodes_b, orgs_b. rewrite Ef. rewrite !andb_true_iff, ends_with_spec, negb_true_iff. unfold json_name.
    destruct (contains "organizations" name); split; intuition. }
  assert (Hdup : NoDup (map fst l) <-> ~ exists l1 p l2 q l3, paths = l1 ++ p :: l2 ++ q :: l3 /\ organizations_file p /\ organizations_file q /\ extract_label p ignored = extract_label q ignored).
  { rewrite (nodup_keys _ _ _ Hl). assert (D : forall x y, extract_label x ignored = extract_label y ignored \/ extract_label x ignored <> extract_label y ignored).
    { intros x y. destruct (extract_label x ignored) as [a|], (extract_label y ignored) as [b|]; auto; try (right; discriminate).
      destruct (string_dec a b); [left; congruence|right; congruence]. }
    assert (Hd := pairs_split (fun x y => extract_label x ignored = extract_label y ignored) D (filter orgs_b paths)). rewrite filter_pairs in Hd.
    assert (Hdec : ForallOrdPairs (fun p q => extract_label p ignored <> extract_label q ignored) (filter orgs_b paths) \/ ~ ForallOrdPairs (fun p q => extract_label p ignored <> extract_label q ignored) (filter orgs_b paths)).
    { rewrite <- (nodup_keys _ _ _ Hl). destruct (ListDec.NoDup_dec string_dec (map fst l)); auto. }
    assert (Hiff : (exists l1 x l2 y l3, paths = l1 ++ x :: l2 ++ y :: l3 /\ orgs_b x = true /\ orgs_b y = true /\ extract_label x ignored = extract_label y ignored) <->
      (exists l1 p l2 q l3, paths = l1 ++ p :: l2 ++ q :: l3 /\ organizations_file p /\ organizations_file q /\ extract_label p ignored = extract_label q ignored)).
    { split; intros (l1 & x & l2 & y & l3 & E & H1 & H2 & H3); exists l1, x, l2, y, l3; (split; [exact E|]); (split; [apply orgs_b_spec; auto|]); (split; [apply orgs_b_spec; auto|auto]). }
    rewrite <- Hiff, <- Hd. tauto. }
  destruct (List.length (filter nodes_b paths) + List.length (bt_collect l) <? List.length paths) eqn:Elt.
  - apply Nat.ltb_lt in Elt. split; [|intros i Hi; discriminate]. split; auto. intros _.
    destruct (ListDec.NoDup_dec string_dec (map fst l)) as [Hnd|Hnd].
    + left. apply Hc2 in Hnd. assert (Hne : ~ forall p, In p paths -> nodes_b p = true \/ orgs_b p = true) by (rewrite <- Hk2; lia).
      clear -Hne Hn Hkind. induction paths as [|p paths IH]; [exfalso; apply Hne; intros ? []|].
      destruct (nodes_b p || orgs_b p) eqn:Eb.
      * assert (Hne' : ~ forall p, In p paths -> nodes_b p = true \/ orgs_b p = true).
        { intro H. apply Hne. intros q [<-|Hq]; auto. now apply orb_true_iff. }
        destruct (IH (fun q Hq => Hn q (or_intror Hq)) (fun q name Hq => Hkind q name (or_intror Hq)) Hne') as (q & name & Hq & H). exists q, name. split; auto. right; auto.
      * assert (Hp := Hn p (or_introl eq_refl)). destruct (file_name p) as [name|] eqn:Ef; [|congruence]. exists p, name. split; [left; auto|]. split; auto.
        rewrite <- (Hkind p name); [|left; auto|auto]. rewrite <- orb_true_iff, Eb. discriminate.
    + right. destruct (nodup_keys _ _ _ Hl) as [_ Hl2].
      assert (D : forall x y, extract_label x ignored = extract_label y ignored \/ extract_label x ignored <> extract_label y ignored).
      { intros x y. destruct (extract_label x ignored) as [a|], (extract_label y ignored) as [b|]; auto; try (right; discriminate).
        destruct (string_dec a b); [left; congruence|right; congruence]. }
      destruct (proj1 (pairs_split (fun x y => extract_label x ignored = extract_label y ignored) D (filter orgs_b paths))) as (a & x & b & y & c & E & Hr); [intro H; apply Hnd, Hl2, H|].
      destruct (proj1 (filter_pairs orgs_b (fun x y => extract_label x ignored = extract_label y ignored) paths)) as (l1 & x' & l2 & y' & l3 & E' & H1 & H2 & H3); [exists a, x, b, y, c; auto|].
      exists l1, x', l2, y', l3. split; auto. split; [apply orgs_b_spec; auto|]. split; [apply orgs_b_spec; auto|auto].
  - apply Nat.ltb_ge in Elt.
    assert (Hall : forall p, In p paths -> nodes_b p = true \/ orgs_b p = true) by (apply Hk2; lia).
    assert (Hnd : NoDup (map fst l)) by (apply Hc2; lia).
    destruct (build_ok (filter nodes_b paths) (bt_collect l) ignored) as (inputs & Ei & Hi).
    { rewrite Forall_forall in *. intros p Hp. apply filter_In in Hp. apply Hn', Hp. }
    rewrite Ei. split.
    + split; [discriminate|]. intros [(p & name & Hp & Ef & Hj)|H].
      * exfalso. apply Hj. apply (Hkind p name); auto.
      * exfalso. now apply Hdup in Hnd.
    + intros inputs' [= <-]. exists (filter nodes_b paths). split; [apply selects_filter; intro; apply nodes_b_spec|].
      clear -Hi Hl Hnd. induction Hi as [|p i ps is_ (H1 & H2 & H3) Hi IH]; constructor; auto. split; auto. split; auto. intro q. rewrite H3.
      destruct (in_bt_collect l) as [Hs Hin]. rewrite bt_get_spec by (now apply sorted_keys_nodup). rewrite Hin.
      assert (Hq : latest_entry l (in_label i) q <-> In (in_label i, q) l).
      { split; [intros (pre & post & -> & _); apply in_or_app; right; left; auto|]. intro H. apply in_split in H. destruct H as (pre & post & ->).
        exists pre, post. split; auto. rewrite map_app in Hnd. cbn in Hnd. apply NoDup_remove_2 in Hnd. intro H. apply Hnd. apply in_or_app; auto. }
      rewrite Hq, <- orgs_b_spec. transitivity (In q (filter orgs_b paths) /\ extract_label q ignored = Ok (in_label i)); [|rewrite filter_In; tauto].
      clear -Hl. induction Hl as [|p e ps l [H1 H2] Hl IH]; cbn; [tauto|]. rewrite IH. destruct e as [k v]. cbn in *. subst v. split.
      * intros [H|[H1 H3]]; [inversion H; subst; auto|auto].
      * intros [[->|H] H3]; [left; congruence|auto].
Qed.

(** ** in terms of the specification *)
Lemma same_extracted p q ignored : organizations_file p -> (extract_label p ignored = extract_label q ignored <->
  exists label, gets_label ignored p label /\ gets_label ignored q label).
Proof.
  intros (name & Hp & _). apply file_name_of in Hp. split.
  - intro E. destruct (extract_label p ignored) as [label|] eqn:El.
    + exists label. split; apply label_spec; auto.
    + unfold extract_label, extract_file_name in El. rewrite Hp in El. discriminate.
  - intros (label & H1 & H2). apply label_spec in H1, H2. congruence.
Qed.
Lemma inputs_panic_spec paths ignored : extract_inputs paths ignored = Panic <-> exists p, In p paths /\ forall name, ~ leads_to p name.
Proof. rewrite inputs_panic. setoid_rewrite file_name_none. reflexivity. Qed.
Lemma inputs_spec paths ignored : (forall p, In p paths -> exists name, leads_to p name) ->
  (extract_inputs paths ignored = Ok None <->
     (exists p name, In p paths /\ leads_to p name /\ ~ json_name name) \/
     (exists l1 p l2 q l3 label, paths = l1 ++ p :: l2 ++ q :: l3 /\ organizations_file p /\ organizations_file q /\
        gets_label ignored p label /\ gets_label ignored q label)) /\
  (forall inputs, extract_inputs paths ignored = Ok (Some inputs) -> exists nodes_paths, selects nodes_file paths nodes_paths /\
     Forall2 (fun p i => nodes_path i = p /\ gets_label ignored p (in_label i) /\
       forall q, organizations_path i = Some q <-> In q paths /\ organizations_file q /\ gets_label ignored q (in_label i)) nodes_paths inputs).
Proof.
  intro Hn. destruct (inputs_cases paths ignored) as [H1 H2].
  { intros p Hp E. destruct (Hn p Hp) as (name & H). apply file_name_of in H. congruence. }
  split.
  - rewrite H1. setoid_rewrite file_name_of. apply or_iff_compat_l. split.
    + intros (l1 & p & l2 & q & l3 & E & Hp & Hq & El). apply same_extracted in El; auto. destruct El as (label & El). exists l1, p, l2, q, l3, label. tauto.
    + intros (l1 & p & l2 & q & l3 & label & E & Hp & Hq & El). exists l1, p, l2, q, l3. split; auto. split; auto. split; auto. apply same_extracted; eauto.
  - intros inputs Hi. destruct (H2 inputs Hi) as (ns & Hs & HF). exists ns. split; auto. clear -HF.
    induction HF as [|p i ns is_ (Ha & Hb & Hc) HF IH]; constructor; auto. split; auto. split; [now apply label_spec|].
    intro q. rewrite Hc, label_spec. tauto.
Qed.
