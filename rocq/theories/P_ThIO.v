(** Lemmas for Th_IO.v. *)
From Coq Require Import Ascii ZArith.
From Verif Require Export P_Json P_Labels P_StandardForm P_ThAnalysis Examples.
Local Open Scope string_scope.
Local Open Scope list_scope.

(** ** groups *)
Lemma mapM_keys f vs : (forall v, In v vs -> v < number_of_nodes f) ->
  exists pks, mapM (fun x => res_map node_pk (unwrap (nth_error (nodes f) x))) vs = Ok pks /\ (keys_ok f -> filter_map (fun pk => assoc String.eqb pk (pk_to_id f)) pks = vs).
Proof.
  induction vs as [|v vs IH]; intro H; cbn [mapM].
  - exists []. auto.
  - destruct IH as (pks & E & Hb); [intros; apply H; right; auto|]. assert (Hv := H v (or_introl eq_refl)). apply nth_error_Some in Hv.
    destruct (nth_error (nodes f) v) as [n|] eqn:En; [|congruence]. cbn. rewrite E. cbn. exists (node_pk n :: pks). split; auto. intro Hk. cbn.
    assert (Ek : assoc String.eqb (node_pk n) (pk_to_id f) = Some v) by (apply Hk; rewrite En; auto). rewrite Ek. f_equal. auto.
Qed.
Lemma mapM_groups f gs : groups_of f gs ->
  exists l, mapM (grouping_to_raw f) gs = Ok l /\ (keys_ok f -> map (grouping_from_raw (pk_to_id f)) l = gs).
Proof.
  induction gs as [|g gs IH]; intro H; cbn [mapM].
  - exists []. auto.
  - destruct IH as (l & E & Hb); [intros g' x Hg Hx; apply (H g' x); auto; right; auto|].
    destruct (mapM_keys f (g_validators g)) as (pks & Ep & Hp); [intros v Hv; apply (H g v); auto; left; auto|].
    unfold grouping_to_raw at 1. rewrite Ep. cbn [bind]. rewrite E. cbn. exists (mk_raw_grouping (g_name g) pks :: l). split; auto. intro Hk. cbn. f_equal; auto.
    unfold grouping_from_raw. cbn. rewrite (Hp Hk). destruct g; auto.
Qed.
Lemma groupings_new_fields gs f G : groupings_new gs f = Ok G -> g_groupings G = gs /\ g_fbas G = f.
Proof. unfold groupings_new. destruct (add_groups 0 gs _); [|discriminate]. cbn. intro H. inversion H. auto. Qed.
Lemma groupings_round_trip gs f G : groupings_new gs f = Ok G -> groups_of f gs -> keys_ok f ->
  exists j, groupings_to_json G = Ok j /\ groupings_from_json j f = Ok G.
Proof.
  intros H Hg Hk. destruct (groupings_new_fields gs f G H) as [E1 E2]. destruct (mapM_groups f gs Hg) as (l & El & Hl).
  exists (json_of_raw_groupings l). unfold groupings_to_json, groupings_from_json, groupings_to_raw. rewrite E1, E2, El. split; auto.
  rewrite raw_groupings_read. cbn [bind]. unfold groupings_from_raw. rewrite Hl by auto. auto.
Qed.

(** ** examples *)
Definition rn pk t vs is_ := mk_raw_node pk (RQ t vs is_) None None.
(** unknown validator "x", an inner set, not sorted *)
Definition raw3 : list raw_node :=
  [ rn "b" 2 ["c"; "x"; "a"] [RQ 1 ["b"] []]; rn "c" 1 ["b"] []; rn "a" 2 ["a"; "b"] [] ].
Definition raw3' : list raw_node :=
  [ rn "b" 2 ["a"; "c"; "x"] [RQ 1 ["b"] []]; rn "c" 1 ["b"] []; rn "a" 2 ["b"; "a"] [] ].
Definition raw_dup : list raw_node := [ rn "a" 1 ["a"] []; rn "a" 1 ["b"] []; rn "b" 1 ["a"] [] ].

Definition no_dupb (l : list string) : bool := forallb (fun p => negb (existsb (String.eqb (snd p)) (skipn (S (fst p)) l))) (enumerate l).
Lemma unique3 : unique_keys raw3.
Proof. unfold unique_keys. cbn. repeat (constructor; [cbn; intuition discriminate|]). constructor. Qed.
Lemma similar3 : Forall2 same_node_listing raw3 raw3'.
Proof.
  repeat constructor; cbn.
  - eapply same_listing_intro with (is1 := [RQ 1 ["b"] []]).
    + change (["c"; "x"; "a"]) with (["c"; "x"] ++ ["a"]). apply (Permutation_app_comm ["c"; "x"] ["a"]).
    + constructor; [|constructor]. eapply same_listing_intro; [reflexivity|constructor|reflexivity].
    + reflexivity.
  - eapply same_listing_intro; [reflexivity|constructor|reflexivity].
  - eapply same_listing_intro; [constructor|constructor|reflexivity].
Qed.

(** the standard form is not a fixed point *)
Definition twice_raw : list raw_node := [ rn "y" 1 ["y"; "x"] []; rn "x" 2 ["y"; "z"] []; rn "z" 1 ["w"] []; rn "w" 1 ["w"] [] ].
Definition twice : fbas := fbas_from_raw twice_raw.
Lemma twice_distinct : distinct_keys twice.
Proof. unfold distinct_keys. cbn. repeat (constructor; [cbn; intuition discriminate|]). constructor. Qed.
Definition keys_of_res (r : res fbas) : list public_key := match r with Ok f => map node_pk (nodes f) | Panic => [] end.
Lemma standard_twice_refuted : exists f s s', wf_fbas f /\ distinct_keys f /\ to_standard_form std_ext f = Ok s /\ to_standard_form std_ext s = Ok s' /\ s' <> s.
Proof.
  exists twice. rewrite !to_standard_form_eq. set (s := standard (relevant_nodes std_ext twice) twice). exists s. rewrite !to_standard_form_eq.
  set (s' := standard (relevant_nodes std_ext s) s). exists s'. split; [apply from_raw_wf|]. split; [apply twice_distinct|]. split; auto. split; auto.
  intro E. assert (H : List.length (nodes s') = List.length (nodes s)) by congruence. revert H. vm_compute. discriminate.
Qed.

Definition cyc_raw : list raw_node := [ rn "b" 2 ["a"; "b"; "c"] []; rn "c" 2 ["a"; "b"; "c"] []; rn "a" 2 ["c"; "b"; "a"] []; rn "d" 1 ["x"] [] ].
Definition cyc_raw' : list raw_node := [ rn "d" 1 ["x"] []; rn "a" 2 ["a"; "b"; "c"] []; rn "c" 2 ["a"; "b"; "c"] []; rn "b" 2 ["a"; "b"; "c"] []].
Definition cyc : fbas := fbas_from_raw cyc_raw.
Definition cyc' : fbas := fbas_from_raw cyc_raw'.
Definition cyc_p (x : nat) : nat := 3 - x.
Lemma perm3 (a b c : nat) : Permutation [a; b; c] [c; b; a].
Proof. apply (Permutation_rev [a; b; c]). Qed.
Lemma perm3' (a b c : nat) : Permutation [a; b; c] [a; c; b].
Proof. constructor. apply perm_swap. Qed.
Lemma cyc_renumbering : renumbering cyc_p cyc cyc'.
Proof.
  assert (En : number_of_nodes cyc = 4) by reflexivity.
  split; [reflexivity|]. rewrite En. split; [unfold cyc_p; intros; lia|]. split; [unfold cyc_p; intros; lia|].
  intros x q (n & Hn & <-). destruct x as [|[|[|[|x]]]]; cbn in Hn; [| | | |destruct x; discriminate]; inversion Hn; subst n; cbn [node_qset];
    (eexists; (split; [eexists; split; reflexivity|]); cbn [node_qset]; eapply renamed_intro with (is1 := []); [|constructor|reflexivity]; cbn).
  1-3: first [apply perm3|apply perm3'|reflexivity].
  reflexivity.
Qed.
Lemma cyc_keys x pk : has_key cyc x pk -> has_key cyc' (cyc_p x) pk.
Proof. unfold has_key. destruct x as [|[|[|[|x]]]]; cbn; auto; destruct x; discriminate. Qed.
Lemma cyc_distinct : distinct_keys cyc.
Proof. unfold distinct_keys. cbn. repeat (constructor; [cbn; intuition discriminate|]). constructor. Qed.

Lemma standard_inv E f s : to_standard_form E f = Ok s -> s = standard (relevant_nodes E f) f.
Proof. rewrite to_standard_form_eq. intro H. inversion H. auto. Qed.
Lemma standard_keys_thm E f s : ext_ok E -> wf_fbas f -> distinct_keys f -> to_standard_form E f = Ok s ->
  StronglySorted string_before (map node_pk (nodes s)) /\
  (forall pk, In pk (map node_pk (nodes s)) <-> exists x, relevant f x /\ has_key f x pk) /\
  keys_ok s /\ wf_fbas s.
Proof.
  intros HE Hf Hd H. apply standard_inv in H. subst s. destruct (standard_keys E HE f Hf Hd) as (H1 & H2 & H3).
  split; auto. split; auto. split; auto. apply standard_wf.
Qed.
Lemma standard_slices_thm E f s x y pk q q' S S' :
  ext_ok E -> wf_fbas f -> distinct_keys f -> to_standard_form E f = Ok s ->
  relevant f x -> has_key f x pk -> has_key s y pk -> node_of f x q -> node_of s y q' ->
  (forall z, mem z S = true -> relevant f z) -> incl_set S' (all_nodes s) -> same_keys f S s S' ->
  (slice (fun z => mem z S = true) q <-> slice (fun z => mem z S' = true) q').
Proof. intros HE Hf Hd H. apply standard_inv in H. subst s. apply standard_slices; auto. Qed.
Lemma standard_minimal_quorums_thm E f s : ext_ok E -> wf_fbas f -> distinct_keys f -> to_standard_form E f = Ok s ->
  (forall Q', minimal_quorum s Q' -> exists Q, minimal_quorum f Q /\ same_keys f Q s Q') /\
  (forall Q, minimal_quorum f Q -> exists Q', minimal_quorum s Q' /\ same_keys f Q s Q').
Proof. intros HE Hf Hd H. apply standard_inv in H. subst s. apply standard_minimal_quorums; auto. Qed.
Lemma standard_idempotent_all E E' f s : ext_ok E -> ext_ok E' -> wf_fbas f -> distinct_keys f ->
  to_standard_form E f = Ok s -> (forall x, x < number_of_nodes f -> relevant f x) -> to_standard_form E' s = Ok s.
Proof. intros HE HE' Hf Hd H Hr. exact (standard_idempotent E E' f s HE HE' Hf Hd H (all_relevant_standard E f s HE Hf Hd H Hr)). Qed.

Lemma label_groups label l gs :
  label = raw_isp /\ isps_from_raw_nodes l = Ok gs \/ label = country /\ countries_from_raw_nodes l = Ok gs ->
  StronglySorted string_before (map rg_name gs) /\
  (forall g, In g gs -> rg_validators g <> [] /\ keys_of (labelled label (rg_name g)) l (rg_validators g)) /\
  (forall n s, In n l -> label n = Some s -> exists g, In g gs /\ cleaned s (rg_name g)).
Proof. intros [[-> H]|[-> H]]; apply groupings_of_labels_spec; auto. Qed.
Lemma label_members label l gs : unique_keys l ->
  label = raw_isp /\ isps_from_raw_nodes l = Ok gs \/ label = country /\ countries_from_raw_nodes l = Ok gs ->
  exists G, groupings_from_raw gs (fbas_from_raw l) = Ok G /\
  forall i n, nth_error l i = Some n ->
    (forall s, label n = Some s -> exists g, get_by_member G i = Ok (Some g) /\ cleaned s (g_name g)) /\
    (label n = None -> get_by_member G i = Ok None).
Proof. intros Hu [[-> H]|[-> H]]; apply labels_members; auto. Qed.
Lemma labels_from_json j l f : raw_fbas_of_json j = Ok l -> fbas_from_json j = Ok f -> unique_keys l ->
  (forall n s, In n l -> raw_isp n = Some s \/ country n = Some s -> ~ uncleanable s) ->
  exists I C, isps_from_json j f = Ok I /\ countries_from_json j f = Ok C /\
  forall i n, nth_error l i = Some n ->
    (forall s, raw_isp n = Some s -> exists g, get_by_member I i = Ok (Some g) /\ cleaned s (g_name g)) /\
    (raw_isp n = None -> get_by_member I i = Ok None) /\
    (forall s, country n = Some s -> exists g, get_by_member C i = Ok (Some g) /\ cleaned s (g_name g)) /\
    (country n = None -> get_by_member C i = Ok None).
Proof.
  intros Hl Hf Hu Hc. unfold fbas_from_json in Hf. rewrite Hl in Hf. cbn in Hf. inversion Hf; subst f.
  destruct (proj2 (groupings_of_labels_total raw_isp l)) as (gi & Ei); [intros n s H1 H2; apply (Hc n); auto|].
  destruct (proj2 (groupings_of_labels_total country l)) as (gc & Ec); [intros n s H1 H2; apply (Hc n); auto|].
  destruct (labels_members raw_isp l gi Hu Ei) as (I & EI & HI). destruct (labels_members country l gc Hu Ec) as (C & EC & HC).
  exists I, C. unfold isps_from_json, countries_from_json, isps_from_raw_nodes, countries_from_raw_nodes. rewrite Hl. cbn [bind]. rewrite Ei, Ec. cbn [bind].
  split; auto. split; auto. intros i n Hn. destruct (HI i n Hn). destruct (HC i n Hn). auto.
Qed.
Definition labelled3 : list raw_node :=
  [ mk_raw_node "p" (RQ 1 ["p"] []) (Some "Zz.") None; mk_raw_node "q" (RQ 1 ["p"] []) (Some "Aa, Inc.") (Some (Some "Chile"));
    mk_raw_node "r" (RQ 1 ["p"] []) (Some "Zz") (Some None); mk_raw_node "s" (RQ 1 ["p"] []) None None ].
Lemma labelled3_unique : unique_keys labelled3.
Proof. unfold unique_keys. cbn. repeat (constructor; [cbn; intuition discriminate|]). constructor. Qed.

(** "Café" *)
Definition cafe : string := String "C" (String "a" (String "f" (String (ascii_of_nat 195) (String (ascii_of_nat 169) "")))).
Lemma cleaning_panics : exists empty commas non_ascii : string, empty = "" /\ commas = ",," /\ non_ascii = cafe /\
  remove_special_chars empty = Panic /\ remove_special_chars commas = Panic /\ remove_special_chars non_ascii = Panic.
Proof. exists "", ",,", cafe. vm_compute. auto 10. Qed.
Lemma isps_panic : exists l, unique_keys l /\ isps_from_raw_nodes l = Panic.
Proof. exists [mk_raw_node "p" (RQ 1 ["p"] []) (Some cafe) None]. split; [|vm_compute; auto]. unfold unique_keys. cbn. constructor; [intros []|constructor]. Qed.
Lemma cleaning_total name : ~ uncleanable name -> exists r, remove_special_chars name = Ok r /\ cleaned name r.
Proof.
  intro H. destruct (remove_special_chars name) as [r|] eqn:E.
  - exists r. split; auto. apply remove_special_chars_ok; auto.
  - apply remove_special_chars_panic in E. contradiction.
Qed.

Lemma missing_node fields : (forall v, ~ In ("publicKey", v) fields) -> raw_node_of_json (JObj fields) = Panic.
Proof.
  intro H. cbn [raw_node_of_json]. assert (G : forall q isp geo, raw_node_fields fields None q isp geo = Panic); [|apply G].
  induction fields as [|[k v] fields IH]; intros q isp geo; cbn [raw_node_fields]; auto.
  assert (IH' : forall q isp geo, raw_node_fields fields None q isp geo = Panic) by (apply IH; intros v' Hv; apply (H v'); right; auto).
  destruct (String.eqb k "publicKey") eqn:E; [apply string_eqb_eq in E; subst k; destruct (H v); left; auto|].
  repeat match goal with |- context [String.eqb ?k ?s] => destruct (String.eqb k s) end; auto.
  - destruct (set_field q (raw_qset_of_json v)); cbn; auto.
  - destruct (set_field isp (option_of_json string_of_json v)); cbn; auto.
  - destruct (set_field geo (option_of_json raw_geo_of_json v)); cbn; auto.
Qed.
Lemma missing_qset fields : (forall v, ~ In ("threshold", v) fields) \/ (forall v, ~ In ("validators", v) fields) -> raw_qset_of_json (JObj fields) = Panic.
Proof.
  intros [H|H]; rewrite raw_qset_of_json_obj.
  - assert (G : forall vs is_, qset_fields fields None vs is_ = Panic); [|apply G].
    induction fields as [|[k v] fields IH]; intros vs is_; cbn [qset_fields]; auto.
    assert (IH' : forall vs is_, qset_fields fields None vs is_ = Panic) by (apply IH; intros v' Hv; apply (H v'); right; auto).
    destruct (String.eqb k "threshold") eqn:E; [apply string_eqb_eq in E; subst k; destruct (H v); left; auto|].
    repeat match goal with |- context [String.eqb ?k ?s] => destruct (String.eqb k s) end; auto.
    + destruct (set_field vs (strings_of_json v)); cbn; auto.
    + destruct (set_field is_ (inner_of_json v)); cbn; auto.
  - assert (G : forall t is_, qset_fields fields t None is_ = Panic); [|apply G].
    induction fields as [|[k v] fields IH]; intros t is_; cbn [qset_fields]; [destruct t; auto|].
    assert (IH' : forall t is_, qset_fields fields t None is_ = Panic) by (apply IH; intros v' Hv; apply (H v'); right; auto).
    destruct (String.eqb k "threshold").
    + destruct (set_field t (u64_of_json v)); cbn; auto.
    + destruct (String.eqb k "validators") eqn:E; [apply string_eqb_eq in E; subst k; destruct (H v); left; auto|].
      repeat match goal with |- context [String.eqb ?k ?s] => destruct (String.eqb k s) end; auto.
      destruct (set_field is_ (inner_of_json v)); cbn; auto.
Qed.
Definition node_json : json := JObj [("publicKey", JStr "a"); ("quorumSet", JObj [("threshold", JInt 1); ("validators", JArr [JStr "a"])])].
Definition node_json' : json :=
  JObj [("quorumSet", JObj [("validators", JArr [JStr "a"]); ("hashKey", JFloat); ("threshold", JInt 1)]); ("publicKey", JStr "a"); ("active", JBool true)].
Lemma node_json_similar : json_similar node_json node_json'.
Proof.
  eapply similar_obj with (fields1 := [("publicKey", JStr "a"); ("quorumSet", JObj [("validators", JArr [JStr "a"]); ("hashKey", JFloat); ("threshold", JInt 1)])])
    (extra := [("active", JBool true)]).
  - constructor; [split; [reflexivity|apply similar_refl]|]. constructor; [|constructor]. split; [reflexivity|]. cbn.
    eapply similar_obj with (fields1 := [("threshold", JInt 1); ("validators", JArr [JStr "a"])]) (extra := [("hashKey", JFloat)]).
    + repeat constructor; apply similar_refl.
    + intros k v [H|[]]. inversion H; subst. cbn. intuition discriminate.
    + cbn. apply (Permutation_app_comm [("threshold", JInt 1)]).
  - intros k v [H|[]]. inversion H; subst. cbn. intuition discriminate.
  - cbn. apply perm_swap.
Qed.

Lemma read_groups l f G : groupings_from_raw l f = Ok G ->
  Forall2 (fun r g => g_name g = rg_name r /\ known_ids (fun pk i => get_node_id f pk = Some i) (rg_validators r) (g_validators g)) l (g_groupings G).
Proof.
  intro H. destruct (groupings_new_fields _ _ _ H) as [-> _]. clear H. induction l as [|r l IH]; cbn; constructor; auto. split; auto. cbn.
  apply known_filter_map. intros. reflexivity.
Qed.
