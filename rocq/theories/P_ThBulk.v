(** Concrete inputs for the theorems about the bulk analyzer. *)
From Coq Require Import ZArith Reals Ascii Permutation.
From Verif Require Export P_BulkRows P_ThAnalysis.
Local Open Scope string_scope.
Local Open Scope list_scope.
Local Open Scope nat_scope.

Definition plain_row (label : string) (size : nat) : output_data_point :=
  mk_output label true size 0 0 fzero 0 0 fzero 0 0 fzero no_results no_results no_results "" (mk_durations fzero fzero fzero fzero).
Definition no_clock (i : input_data_point) : durations := mk_durations fzero fzero fzero fzero.

(** three nodes, any two of which form a quorum; two of them have the same ISP and the same organization *)
Definition qset_json : json := JObj [("threshold", JInt 2); ("validators", JArr [JStr "a"; JStr "b"; JStr "c"])].
Definition three_json : json :=
  JArr [ JObj [("publicKey", JStr "a"); ("quorumSet", qset_json); ("isp", JStr "Host")];
         JObj [("publicKey", JStr "b"); ("quorumSet", qset_json); ("isp", JStr "Host")];
         JObj [("publicKey", JStr "c"); ("quorumSet", qset_json)] ].
Definition orgs_json : json := JArr [JObj [("name", JStr "Org"); ("validators", JArr [JStr "b"; JStr "c"])]].
Definition three_files (p : path) : option json :=
  if String.eqb p "data/x_nodes.json" then Some three_json
  else if String.eqb p "data/x_organizations.json" then Some orgs_json
  else if String.eqb p "x.json" then Some three_json
  else None.
Definition three_raw : list raw_node :=
  let q := RQ 2 ["a"; "b"; "c"] [] in [mk_raw_node "a" q (Some "Host") None; mk_raw_node "b" q (Some "Host") None; mk_raw_node "c" q None None].
Definition three : fbas := fbas_from_raw three_raw.
Lemma three_read : raw_fbas_of_json three_json = Ok three_raw /\ fbas_from_json three_json = Ok three.
Proof. vm_compute. auto. Qed.
Lemma three_unique : unique_keys three_raw.
Proof. unfold unique_keys. cbn. repeat (constructor; [cbn; intuition discriminate|]). constructor. Qed.
Lemma three_clean n s : In n three_raw -> raw_isp n = Some s \/ country n = Some s -> ~ uncleanable s.
Proof.
  assert (T : exists gs, groupings_of_labels raw_isp three_raw = Ok gs) by (eexists; vm_compute; reflexivity).
  assert (H := proj1 (groupings_of_labels_total raw_isp three_raw) T (mk_raw_node "a" (RQ 2 ["a"; "b"; "c"] []) (Some "Host") None) "Host" (or_introl eq_refl) eq_refl).
  intros [<-|[<-|[<-|[]]]] [E|E]; cbn in E; try discriminate; inversion E; subst; auto.
Qed.

(** a run that fails loses rows *)
Lemma lost_row : exists files paths old o, In o old /\
  exists rows, bulk_main std_ext (fun _ => "") files no_clock paths "" (File (Some old)) true = Ok (Some (rows, false)) /\ ~ In o rows.
Proof. exists (fun _ => None), ["a.json"], [plain_row "b" 1], (plain_row "b" 1). split; [left; auto|]. exists []. split; [vm_compute; reflexivity|]. intros []. Qed.
(** there is only one organization *)
Lemma three_orgs : exists jo G, three_files "data/x_organizations.json" = Some jo /\ groupings_from_json jo three = Ok G /\ disjoint_groups (g_groupings G).
Proof.
  destruct (groupings_from_json orgs_json three) as [G|] eqn:EG; [|vm_compute in EG; discriminate].
  exists orgs_json, G. split; [reflexivity|]. split; [exact EG|].
  assert (L : List.length (g_groupings G) = 1).
  { assert (H : res_map (fun G => List.length (g_groupings G)) (groupings_from_json orgs_json three) = Ok 1) by (vm_compute; reflexivity).
    rewrite EG in H. cbn in H. congruence. }
  intros i j gi gj x Hi Hj _ _. assert (i < 1) by (rewrite <- L; apply nth_error_Some; congruence).
  assert (j < 1) by (rewrite <- L; apply nth_error_Some; congruence). lia.
Qed.
(** updating drops a row *)
Definition twice_paths : list path := ["data/x_nodes.json"; "x.json"].
Definition row_count (r : res (option (list output_data_point * bool))) : option (nat * bool) :=
  match r with Ok (Some (rows, complete)) => Some (List.length rows, complete) | _ => None end.
Lemma row_count_ok r n : row_count r = Some (n, true) -> exists rows, r = Ok (Some (rows, true)) /\ List.length rows = n.
Proof. unfold row_count. destruct r as [[[rows c]|]|]; intro H; inversion H; subst. eauto. Qed.
Lemma dropped_row : exists files paths rows rows',
  bulk_main std_ext (fun _ => "") files no_clock paths "" (File None) false = Ok (Some (rows, true)) /\
  bulk_main std_ext (fun _ => "") files no_clock paths "" (File (Some rows)) true = Ok (Some (rows', true)) /\ List.length rows' < List.length rows.
Proof.
  exists three_files, twice_paths.
  assert (H1 : row_count (bulk_main std_ext (fun _ => "") three_files no_clock twice_paths "" (File None) false) = Some (2, true)) by (vm_compute; reflexivity).
  assert (H2 : match bulk_main std_ext (fun _ => "") three_files no_clock twice_paths "" (File None) false with
               | Ok (Some (rows, _)) => row_count (bulk_main std_ext (fun _ => "") three_files no_clock twice_paths "" (File (Some rows)) true)
               | _ => None
               end = Some (1, true)) by (vm_compute; reflexivity).
  destruct (row_count_ok _ _ H1) as (rows & E1 & L1). rewrite E1 in H2. destruct (row_count_ok _ _ H2) as (rows' & E2 & L2).
  exists rows, rows'. split; [exact E1|]. split; [exact E2|]. lia.
Qed.
(** all files are recognized *)
Lemma refused_inputs : exists paths ignored, Forall (fun p => nodes_file p \/ organizations_file p) paths /\ extract_inputs paths ignored = Ok None.
Proof.
  exists ["a.json"; "a_organizations.json"; "organizations_a.json"], "". split; [|vm_compute; reflexivity].
  constructor; [left; apply nodes_b_spec; vm_compute; reflexivity|]. repeat (constructor; [right; apply orgs_b_spec; vm_compute; reflexivity|]). constructor.
Qed.
Lemma dropped_task : exists rows o, In o rows /\ ~ In (Reuse o) (make_sorted_tasklist [] (outputs_by_label rows)).
Proof.
  exists [plain_row "a" 1; plain_row "a" 2], (plain_row "a" 1). split; [left; auto|].
  change (make_sorted_tasklist [] (outputs_by_label [plain_row "a" 1; plain_row "a" 2])) with [Reuse (plain_row "a" 2)].
  intros [H|[]]. inversion H.
Qed.

(** the documented naming scheme *)
Lemma same_label p q name name' X Y m m' ignored : leads_to p name -> leads_to q name' ->
  composed_of (X ++ m ++ Y) name -> composed_of (X ++ m' ++ Y) name' -> Forall (meaningless ignored) m -> Forall (meaningless ignored) m' ->
  extract_label p ignored = extract_label q ignored.
Proof.
  intros Hp Hq Hc Hc' Hm Hm'. destruct (label_of p name _ ignored Hp Hc) as (k & -> & Hk). destruct (label_of q name' _ ignored Hq Hc') as (k' & -> & Hk').
  do 2 f_equal. assert (S : forall m, Forall (meaningless ignored) m -> forall k, selects (fun part => ~ meaningless ignored part) (X ++ m ++ Y) k ->
    selects (fun part => ~ meaningless ignored part) (X ++ Y) k).
  { clear. intros m Hm k H. remember (X ++ m ++ Y) as l eqn:El. revert X El. induction H as [|x xs ys Hx H IH|x xs ys Hx H IH]; intros X El.
    - symmetry in El. apply app_eq_nil in El. destruct El as [-> El]. apply app_eq_nil in El. destruct El as [_ ->]. constructor.
    - destruct X as [|x' X]; cbn in El.
      + destruct m as [|y m]; cbn in El.
        * subst Y. constructor; auto. 
        * inversion El; subst. inversion Hm; subst. contradiction.
      + inversion El; subst. cbn. constructor; auto.
    - destruct X as [|x' X]; cbn in El.
      + destruct m as [|y m]; cbn in El.
        * subst Y. constructor; auto.
        * inversion El; subst. inversion Hm; subst. cbn. 
          assert (Hr : forall l k, selects (fun part => ~ meaningless ignored part) (m ++ l) k -> selects (fun part => ~ meaningless ignored part) l k).
          { clear -H3. induction m as [|z m IHm]; cbn; auto. intros l k Hs. inversion H3; subst. inversion Hs; subst; [contradiction|auto]. }
          apply Hr. exact H.
      + inversion El; subst. cbn. constructor; auto. }
  eapply selects_unique; [apply (S m Hm _ Hk)|apply (S m' Hm' _ Hk')].
Qed.
Lemma kept_ignored : exists p ignored label, leads_to p p /\ extract_label p ignored = Ok label /\ ignored <> "" /\ exists a b, label = (a ++ ignored ++ b)%string.
Proof.
  exists "2020_ab_cd.json", "ab_cd", "2020_ab_cd". split.
  - apply file_name_of. reflexivity.
  - split; [vm_compute; reflexivity|]. split; [discriminate|]. exists "2020_", "". reflexivity.
Qed.
