(** Reading and writing: C08, C09, C34, C35, C36, C54, C55. *)
From Coq Require Import Ascii ZArith.
From Verif Require Import P_StandardIter.
Local Open Scope string_scope.
Local Open Scope list_scope.

(** C08 *)
Theorem C08_nodes : forall (l : list raw_node), map node_pk (nodes (fbas_from_raw l)) = map raw_public_key l.
Proof. exact fbas_from_raw_keys. Qed.
Print Assumptions C08_nodes.

Theorem C08_quorum_sets : forall (l : list raw_node) (i : nat) (n : raw_node), nth_error l i = Some n ->
  exists q, node_of (fbas_from_raw l) i q /\ resolves (last_with_key l) (raw_quorum_set n) q.
Proof. exact fbas_from_raw_resolves. Qed.
Print Assumptions C08_quorum_sets.

Theorem C08_valid_ids : forall (l : list raw_node), wf_fbas (fbas_from_raw l).
Proof. exact from_raw_wf. Qed.
Print Assumptions C08_valid_ids.

Theorem C08_node_ids : forall (l : list raw_node) (pk : public_key) (i : nat),
  get_node_id (fbas_from_raw l) pk = Some i <-> last_with_key l pk i.
Proof. exact get_node_id_from_raw. Qed.
Print Assumptions C08_node_ids.

Theorem C08_unique_keys : forall (l : list raw_node), unique_keys l ->
  keys_ok (fbas_from_raw l) /\
  forall pk i, last_with_key l pk i <-> option_map raw_public_key (nth_error l i) = Some pk.
Proof. exact (fun l H => conj (from_raw_keys_ok l H) (fun pk i => unique_last l pk i H)). Qed.
Print Assumptions C08_unique_keys.

Theorem C08_listing_order : forall (l l' : list raw_node), Forall2 same_node_listing l l' -> fbas_from_raw l = fbas_from_raw l'.
Proof. exact listing_irrelevant. Qed.
Print Assumptions C08_listing_order.

Example C08_example : unique_keys raw3 /\ Forall2 same_node_listing raw3 raw3' /\
  map node_qset (nodes (fbas_from_raw raw3)) = [QS 2 [1; 2] [QS 1 [0] []]; QS 1 [0] []; QS 2 [0; 2] []].
Proof. split; [exact unique3|]. split; [exact similar3|]. reflexivity. Qed.
(** with repeated keys, the last node counts *)
Example C08_repeated : map node_qset (nodes (fbas_from_raw raw_dup)) = [QS 1 [1] []; QS 1 [2] []; QS 1 [1] []].
Proof. reflexivity. Qed.

(** C09 *)
Theorem C09_round_trip : forall (l : list raw_node), fbas_from_raw (fbas_to_raw (fbas_from_raw l)) = fbas_from_raw l.
Proof. exact round_trip. Qed.
Print Assumptions C09_round_trip.

Theorem C09_json_round_trip : forall (j : json) (f : fbas), fbas_from_json j = Ok f -> fbas_from_json (fbas_to_json f) = Ok f.
Proof. exact json_round_trip. Qed.
Print Assumptions C09_json_round_trip.

(** FBASs that were not read: the same up to the order of entries in quorum sets *)
Theorem C09_any_fbas : forall (f : fbas), wf_fbas f -> distinct_keys f -> small_fbas f ->
  exists f', fbas_from_json (fbas_to_json f) = Ok f' /\ renumbering (fun x => x) f f' /\
             map node_pk (nodes f') = map node_pk (nodes f) /\ keys_ok f'.
Proof. exact (fun f H1 H2 H3 => ex_intro _ _ (conj (fbas_written f H3) (reread f H1 H2))). Qed.
Print Assumptions C09_any_fbas.

Example C09_example : exists j f, fbas_from_json j = Ok f /\ number_of_nodes f = 3 /\ fbas_from_json (fbas_to_json f) = Ok f.
Proof. exists (json_of_raw_fbas raw3), (fbas_from_raw raw3). split; [reflexivity|]. split; reflexivity. Qed.

(** C34 *)
Theorem C34_total : forall (E : ext) (f : fbas), exists s, to_standard_form E f = Ok s.
Proof. exact (fun E f => ex_intro _ _ (to_standard_form_eq E f)). Qed.
Print Assumptions C34_total.

Theorem C34_keys : forall (E : ext) (f s : fbas), ext_ok E -> wf_fbas f -> distinct_keys f -> to_standard_form E f = Ok s ->
  StronglySorted string_before (map node_pk (nodes s)) /\
  (forall pk, In pk (map node_pk (nodes s)) <-> exists x, relevant f x /\ has_key f x pk) /\
  keys_ok s /\ wf_fbas s.
Proof. exact standard_keys_thm. Qed.
Print Assumptions C34_keys.

Theorem C34_slices : forall (E : ext) (f s : fbas) (x y : nat) (pk : public_key) (q q' : qset) (S S' : bset),
  ext_ok E -> wf_fbas f -> distinct_keys f -> to_standard_form E f = Ok s ->
  relevant f x -> has_key f x pk -> has_key s y pk -> node_of f x q -> node_of s y q' ->
  (forall z, mem z S = true -> relevant f z) -> incl_set S' (all_nodes s) -> same_keys f S s S' ->
  (slice (fun z => mem z S = true) q <-> slice (fun z => mem z S' = true) q').
Proof. exact standard_slices_thm. Qed.
Print Assumptions C34_slices.

Theorem C34_minimal_quorums : forall (E : ext) (f s : fbas), ext_ok E -> wf_fbas f -> distinct_keys f -> to_standard_form E f = Ok s ->
  (forall Q', minimal_quorum s Q' -> exists Q, minimal_quorum f Q /\ same_keys f Q s Q') /\
  (forall Q, minimal_quorum f Q -> exists Q', minimal_quorum s Q' /\ same_keys f Q s Q').
Proof. exact standard_minimal_quorums_thm. Qed.
Print Assumptions C34_minimal_quorums.

Theorem C34_canonical : forall (E E' : ext) (p : nat -> nat) (f h : fbas), ext_ok E -> ext_ok E' -> wf_fbas f -> distinct_keys f ->
  renumbering p f h -> (forall x pk, has_key f x pk -> has_key h (p x) pk) ->
  to_standard_form E f = to_standard_form E' h.
Proof. exact standard_canonical. Qed.
Print Assumptions C34_canonical.

(** false in general: removing nodes can make a relevant node unsatisfiable *)
Theorem C34_twice_refuted : exists f s s', wf_fbas f /\ distinct_keys f /\
  to_standard_form std_ext f = Ok s /\ to_standard_form std_ext s = Ok s' /\ s' <> s.
Proof. exact standard_twice_refuted. Qed.
Print Assumptions C34_twice_refuted.

(** exactly when applying it twice changes nothing *)
Theorem C34_twice_iff : forall (E E' : ext) (f s : fbas), ext_ok E -> ext_ok E' -> wf_fbas f -> distinct_keys f ->
  to_standard_form E f = Ok s ->
  (to_standard_form E' s = Ok s <-> forall x, x < number_of_nodes s -> relevant s x).
Proof. exact standard_twice_iff. Qed.
Print Assumptions C34_twice_iff.

(** missing: FBASs with irrelevant nodes *)
Theorem C34_twice_all_relevant_partial : forall (E E' : ext) (f s : fbas), ext_ok E -> ext_ok E' -> wf_fbas f -> distinct_keys f ->
  to_standard_form E f = Ok s -> (forall x, x < number_of_nodes f -> relevant f x) -> to_standard_form E' s = Ok s.
Proof. exact standard_idempotent_all. Qed.
Print Assumptions C34_twice_all_relevant_partial.

(** applied repeatedly it settles, after at most as many further steps as there are nodes, without losing a minimal quorum *)
Theorem C34_settles : forall (E : ext) (f : fbas), ext_ok E -> wf_fbas f -> distinct_keys f ->
  exists k t, k <= number_of_nodes f /\ standard_after E (S k) f t /\ to_standard_form E t = Ok t /\
  (forall Q', minimal_quorum t Q' -> exists Q, minimal_quorum f Q /\ same_keys f Q t Q') /\
  (forall Q, minimal_quorum f Q -> exists Q', minimal_quorum t Q' /\ same_keys f Q t Q').
Proof. exact standard_stabilises. Qed.
Print Assumptions C34_settles.

Example C34_example : wf_fbas cyc /\ distinct_keys cyc /\ renumbering cyc_p cyc cyc' /\
  (forall x pk, has_key cyc x pk -> has_key cyc' (cyc_p x) pk) /\
  keys_of_res (to_standard_form std_ext cyc) = ["a"; "b"; "c"] /\ cyc <> cyc'.
Proof.
  split; [apply from_raw_wf|]. split; [exact cyc_distinct|]. split; [exact cyc_renumbering|]. split; [exact cyc_keys|].
  split; [vm_compute; reflexivity|]. discriminate.
Qed.

(** false of labels that cannot be cleaned *)
Theorem C35_never_panics_refuted : exists l, unique_keys l /\ isps_from_raw_nodes l = Panic.
Proof. exact isps_panic. Qed.
Print Assumptions C35_never_panics_refuted.

(** C35: for ISPs ([raw_isp]) and countries ([country_name]) *)
Theorem C35_groups : forall (label : raw_node -> option string) (l : list raw_node) (gs : list raw_grouping),
  label = raw_isp /\ isps_from_raw_nodes l = Ok gs \/ label = country_name /\ countries_from_raw_nodes l = Ok gs ->
  StronglySorted string_before (map rg_name gs) /\
  (forall g, In g gs -> rg_validators g <> [] /\ keys_of (labelled label (rg_name g)) l (rg_validators g)) /\
  (forall n s, In n l -> label n = Some s -> exists g, In g gs /\ cleaned s (rg_name g)).
Proof. exact label_groups. Qed.
Print Assumptions C35_groups.

Theorem C35_never_panics_partial : forall (l : list raw_node),
  ((exists gs, isps_from_raw_nodes l = Ok gs) <-> forall n s, In n l -> raw_isp n = Some s -> ~ uncleanable s) /\
  ((exists gs, countries_from_raw_nodes l = Ok gs) <-> forall n s, In n l -> country_name n = Some s -> ~ uncleanable s).
Proof. exact (fun l => conj (groupings_of_labels_total raw_isp l) (groupings_of_labels_total country_name l)). Qed.
Print Assumptions C35_never_panics_partial.

Theorem C35_membership : forall (label : raw_node -> option string) (l : list raw_node) (gs : list raw_grouping), unique_keys l ->
  label = raw_isp /\ isps_from_raw_nodes l = Ok gs \/ label = country_name /\ countries_from_raw_nodes l = Ok gs ->
  exists G, groupings_from_raw gs (fbas_from_raw l) = Ok G /\
  forall i n, nth_error l i = Some n ->
    (forall s, label n = Some s -> exists g, get_by_member G i = Ok (Some g) /\ cleaned s (g_name g)) /\
    (label n = None -> get_by_member G i = Ok None).
Proof. exact label_members. Qed.
Print Assumptions C35_membership.

Theorem C35_from_json : forall (j : json) (l : list raw_node) (f : fbas), raw_fbas_of_json j = Ok l -> fbas_from_json j = Ok f -> unique_keys l ->
  (forall n s, In n l -> raw_isp n = Some s \/ country_name n = Some s -> ~ uncleanable s) ->
  exists I C, isps_from_json j f = Ok I /\ countries_from_json j f = Ok C /\
  forall i n, nth_error l i = Some n ->
    (forall s, raw_isp n = Some s -> exists g, get_by_member I i = Ok (Some g) /\ cleaned s (g_name g)) /\
    (raw_isp n = None -> get_by_member I i = Ok None) /\
    (forall s, country_name n = Some s -> exists g, get_by_member C i = Ok (Some g) /\ cleaned s (g_name g)) /\
    (country_name n = None -> get_by_member C i = Ok None).
Proof. exact labels_from_json. Qed.
Print Assumptions C35_from_json.

Example C35_example : exists gs, isps_from_raw_nodes labelled3 = Ok gs /\ unique_keys labelled3 /\
  map rg_name gs = ["Aa Inc"; "Zz"] /\ map rg_validators gs = [["q"]; ["p"; "r"]] /\
  countries_from_raw_nodes labelled3 = Ok [mk_raw_grouping "Chile" ["q"]].
Proof. eexists. split; [vm_compute; reflexivity|]. split; [exact labelled3_unique|]. split; [reflexivity|]. split; [reflexivity|]. vm_compute. reflexivity. Qed.

(** C36 *)
Theorem C36_cleaned : forall (name r : string), remove_special_chars name = Ok r -> cleaned name r.
Proof. exact remove_special_chars_ok. Qed.
Print Assumptions C36_cleaned.

(** the claim that cleaning never fails is false *)
Theorem C36_refuted : exists empty commas non_ascii : string, empty = "" /\ commas = ",," /\ non_ascii = cafe /\
  remove_special_chars empty = Panic /\ remove_special_chars commas = Panic /\ remove_special_chars non_ascii = Panic.
Proof. exact cleaning_panics. Qed.
Print Assumptions C36_refuted.

(** missing: the names of [C36_refuted] *)
Theorem C36_total_partial : forall (name : string), ~ uncleanable name -> exists r, remove_special_chars name = Ok r /\ cleaned name r.
Proof. exact cleaning_total. Qed.
Print Assumptions C36_total_partial.

Theorem C36_panics_iff : forall (name : string), remove_special_chars name = Panic <-> uncleanable name.
Proof. exact remove_special_chars_panic. Qed.
Print Assumptions C36_panics_iff.

Theorem C36_unambiguous : forall (name r r' : string), cleaned name r -> cleaned name r' -> r = r'.
Proof. exact cleaned_fun. Qed.
Print Assumptions C36_unambiguous.

Example C36_example : remove_special_chars "Amazon.com, Inc." = Ok "Amazon.com Inc" /\ ~ uncleanable "Amazon.com, Inc." /\
  remove_special_chars "." = Ok "".
Proof. split; [reflexivity|]. split; [|reflexivity]. intro H. apply remove_special_chars_panic in H. vm_compute in H. discriminate. Qed.

(** C54 *)
Theorem C54_fbas : forall (j j' : json), json_similar j j' -> fbas_from_json j = fbas_from_json j'.
Proof. exact json_order_fbas. Qed.
Print Assumptions C54_fbas.

Theorem C54_groupings : forall (j j' : json) (f : fbas), json_similar j j' ->
  groupings_from_json j f = groupings_from_json j' f /\ isps_from_json j f = isps_from_json j' f /\
  countries_from_json j f = countries_from_json j' f.
Proof. exact json_order_groupings. Qed.
Print Assumptions C54_groupings.

Theorem C54_repeated_fields : forall (fields : list (string * json)),
  (repeated_field ["publicKey"; "quorumSet"; "isp"; "geoData"] fields -> raw_node_of_json (JObj fields) = Panic) /\
  (repeated_field ["threshold"; "validators"; "innerQuorumSets"] fields -> raw_qset_of_json (JObj fields) = Panic).
Proof. exact (fun fields => conj (repeated_node fields) (repeated_qset fields)). Qed.
Print Assumptions C54_repeated_fields.

Theorem C54_missing_fields : forall (fields : list (string * json)),
  ((forall v, ~ In ("publicKey", v) fields) -> raw_node_of_json (JObj fields) = Panic) /\
  ((forall v, ~ In ("threshold", v) fields) \/ (forall v, ~ In ("validators", v) fields) -> raw_qset_of_json (JObj fields) = Panic).
Proof. exact (fun fields => conj (missing_node fields) (missing_qset fields)). Qed.
Print Assumptions C54_missing_fields.

Example C54_example : json_similar node_json node_json' /\ node_json <> node_json' /\
  exists f, fbas_from_json (JArr [node_json]) = Ok f /\ map node_qset (nodes f) = [QS 1 [0] []].
Proof. split; [exact node_json_similar|]. split; [discriminate|]. eexists. split; reflexivity. Qed.

(** C55 *)
Theorem C55_groupings_round_trip : forall (gs : list grouping) (f : fbas) (G : groupings), groupings_new gs f = Ok G -> groups_of f gs -> keys_ok f ->
  exists j, groupings_to_json G = Ok j /\ groupings_from_json j f = Ok G.
Proof. exact groupings_round_trip. Qed.
Print Assumptions C55_groupings_round_trip.

Theorem C55_read_groups : forall (l : list raw_grouping) (f : fbas) (G : groupings), groupings_from_raw l f = Ok G ->
  Forall2 (fun r g => g_name g = rg_name r /\ known_ids (fun pk i => get_node_id f pk = Some i) (rg_validators r) (g_validators g)) l (g_groupings G).
Proof. exact read_groups. Qed.
Print Assumptions C55_read_groups.

Example C55_example : exists G j, groupings_new [mk_grouping "o" [2; 0]] (fbas_from_raw raw3) = Ok G /\
  groups_of (fbas_from_raw raw3) [mk_grouping "o" [2; 0]] /\ keys_ok (fbas_from_raw raw3) /\
  groupings_to_json G = Ok j /\ j = JArr [JObj [("name", JStr "o"); ("validators", JArr [JStr "a"; JStr "b"])]].
Proof.
  eexists. eexists. split; [reflexivity|]. split; [|split; [apply from_raw_keys_ok; exact unique3|split; reflexivity]].
  intros g x [<-|[]] Hx. cbn in Hx. cbn. lia.
Qed.
