(** JSON texts are read as the grammar says. *)
From Coq Require Import ZArith Ascii.
From Verif Require Export P_JsonNumber.
Local Open Scope char_scope.
Local Open Scope list_scope.

Lemma blank_nil : blank []. Proof. constructor. Qed.
Lemma blank_app w w' : blank w -> blank w' -> blank (w ++ w').
Proof. unfold blank. rewrite Forall_app. auto. Qed.

Lemma object_of_spec l : object_is l (object_of l).
Proof.
  unfold object_is, object_of. induction l as [|[[k|] j] l IH]; cbn [object_value].
  - left. exists []. auto.
  - destruct (object_value l) as [fs|]; cbn [option_map].
    + destruct IH as [(fs' & E1 & E2)|(_ & E)]; [|discriminate]. injection E2 as <-. left. exists ((string_of_list_ascii k, j) :: fs). split; auto.
      cbn. rewrite list_ascii_of_string_of_list_ascii. f_equal; auto.
    + destruct IH as [(fs' & _ & E)|((v & Hv) & _)]; [discriminate|]. right. split; auto. exists v. right; auto.
  - right. split; auto. exists j. left; auto.
Qed.
Lemma object_is_unique l j : object_is l j -> j = object_of l.
Proof.
  unfold object_is, object_of. intros [(fs & -> & ->)|((v & Hv) & ->)].
  - assert (E : object_value (map (fun e : string * json => (Some (list_ascii_of_string (fst e)), snd e)) fs) = Some fs).
    { induction fs as [|[k x] fs IH]; cbn; auto. rewrite IH. cbn. rewrite string_of_list_ascii_of_string. auto. }
    rewrite E. auto.
  - assert (E : object_value l = None).
    { induction l as [|[[k|] x] l IH]; [destruct Hv| |auto]. destruct Hv as [X|Hv]; [discriminate|]. cbn. rewrite IH; auto. }
    rewrite E. auto.
Qed.

Lemma elements_blank mz w l t : blank w -> array_items mz l t -> array_items mz l (w ++ t).
Proof.
  intros Hw [j w0 u w' H0 Hu H'|j w0 u w' l' u' H0 Hu H' Hl]; rewrite app_assoc.
  - apply elements_one; auto. apply blank_app; auto.
  - apply elements_more; auto. apply blank_app; auto.
Qed.
Lemma members_blank mz w l t : blank w -> members mz l t -> members mz l (w ++ t).
Proof.
  intros Hw [k j w0 kt w1 w2 u w' H0 Hk H1 H2 Hu H'|k j w0 kt w1 w2 u w' l' u' H0 Hk H1 H2 Hu H' Hl]; rewrite app_assoc.
  - apply members_one; auto. apply blank_app; auto.
  - apply members_more; auto. apply blank_app; auto.
Qed.

Lemma drop_prefix_sound p s r : drop_prefix p s = Some r -> s = p ++ r.
Proof.
  revert s. induction p as [|c p IH]; intros s H; cbn in H; [injection H as <-; reflexivity|]. destruct s as [|d s]; [discriminate|].
  destruct (Ascii.eqb c d) eqn:E; [|discriminate]. apply eqb_true in E. subst d. cbn. f_equal. auto.
Qed.
Lemma drop_prefix_complete p r : drop_prefix p (p ++ r) = Some r.
Proof. induction p as [|c p IH]; cbn; auto. rewrite Ascii.eqb_refl. auto. Qed.
Lemma read_word_sound word j s j' r : read_word word j s = Some (j', r) -> j' = j /\ s = word ++ r.
Proof.
  unfold read_word. destruct (drop_prefix word s) as [r'|] eqn:E; [|discriminate]. cbn. intro H. injection H as <- <-.
  apply drop_prefix_sound in E. auto.
Qed.

(** splits off leading whitespace *)
Lemma skip_ws_cons s d s2 : skip_ws s = d :: s2 -> exists w, blank w /\ s = w ++ d :: s2.
Proof. intro H. destruct (skip_ws_split s) as (w & Hw & E). rewrite H in E. eauto. Qed.

Lemma read_value_S mz n' s : read_value mz (S n') s =

      match s with
      | [] => None
      | c :: s1 =>
          if Ascii.eqb c quote then match read_parts s1 with Some (ps, r) => Some (string_value (decode ps), r) | None => None end
          else if Ascii.eqb c "[" then
            match skip_ws s1 with
            | [] => None
            | d :: s2 =>
                if Ascii.eqb d "]" then Some (JArr [], s2)
                else match read_elements mz n' (d :: s2) with Some (l, r) => Some (JArr l, r) | None => None end
            end
          else if Ascii.eqb c "{" then
            match skip_ws s1 with
            | [] => None
            | d :: s2 =>
                if Ascii.eqb d "}" then Some (JObj [], s2)
                else match read_members mz n' (d :: s2) with Some (l, r) => Some (object_of l, r) | None => None end
            end
          else if Ascii.eqb c "n" then read_word ["u"; "l"; "l"] JNull s1
          else if Ascii.eqb c "t" then read_word ["r"; "u"; "e"] (JBool true) s1
          else if Ascii.eqb c "f" then read_word ["a"; "l"; "s"; "e"] (JBool false) s1
          else read_number mz s
      end.
Proof. reflexivity. Qed.

Lemma read_elements_S mz n' s : read_elements mz (S n') s =

      match read_value mz n' s with
      | None => None
      | Some (j, s1) =>
          match skip_ws s1 with
          | [] => None
          | d :: s2 =>
              if Ascii.eqb d "," then match read_elements mz n' (skip_ws s2) with Some (l, r) => Some (j :: l, r) | None => None end
              else if Ascii.eqb d "]" then Some ([j], s2)
              else None
          end
      end.
Proof. reflexivity. Qed.

Lemma read_members_S mz n' s : read_members mz (S n') s =

      match s with
      | [] => None
      | c :: s0 =>
          if Ascii.eqb c quote then
            match read_parts s0 with
            | None => None
            | Some (ps, s1) =>
                match skip_ws s1 with
                | [] => None
                | d :: s2 =>
                    if Ascii.eqb d ":" then
                      match read_value mz n' (skip_ws s2) with
                      | None => None
                      | Some (j, s3) =>
                          match skip_ws s3 with
                          | [] => None
                          | d' :: s4 =>
                              if Ascii.eqb d' "," then
                                match read_members mz n' (skip_ws s4) with Some (l, r) => Some ((decode ps, j) :: l, r) | None => None end
                              else if Ascii.eqb d' "}" then Some ([(decode ps, j)], s4)
                              else None
                          end
                      end
                    else None
                end
            end
          else None
      end.
Proof. reflexivity. Qed.

Lemma read_sound mz n :
  (forall s j r, read_value mz n s = Some (j, r) -> exists t, value mz j t /\ s = t ++ r) /\
  (forall s l r, read_elements mz n s = Some (l, r) -> exists t, array_items mz l t /\ s = t ++ "]" :: r) /\
  (forall s l r, read_members mz n s = Some (l, r) -> exists t, members mz l t /\ s = t ++ "}" :: r).
Proof.
  induction n as [|n (IHv & IHe & IHm)]; [repeat split; discriminate|]. split; [|split].
  - intros s j r H. destruct s as [|c s1]; [discriminate|]. rewrite read_value_S in H.
    destruct (Ascii.eqb c quote) eqn:E1.
    { apply eqb_true in E1. subst c. destruct (read_parts s1) as [[ps r']|] eqn:Ep; [|discriminate]. injection H as <- <-.
      apply (read_parts_sound (List.length s1)) in Ep; auto. destruct Ep as (t & Ht & ->). exists (quote :: t ++ [quote]).
      split; [|cbn; rewrite <- app_assoc; auto]. destruct (decode ps) as [b|] eqn:Ed; cbn [string_value].
      - apply value_string. rewrite list_ascii_of_string_of_list_ascii. apply string_text_parts. eauto.
      - apply value_undecodable. apply string_text_parts. eauto. }
    destruct (Ascii.eqb c "[") eqn:E2.
    { apply eqb_true in E2. subst c. destruct (skip_ws s1) as [|d s2] eqn:Es; [discriminate|]. apply skip_ws_cons in Es. destruct Es as (w & Hw & ->).
      destruct (Ascii.eqb d "]") eqn:Ed.
      - apply eqb_true in Ed. subst d. injection H as <- <-. exists ("[" :: w ++ ["]"]). split; [apply value_empty_array; auto|cbn; rewrite <- app_assoc; auto].
      - destruct (read_elements mz n (d :: s2)) as [[l r']|] eqn:El; [|discriminate]. injection H as <- <-. apply IHe in El. destruct El as (t & Ht & ->).
        exists ("[" :: (w ++ t) ++ ["]"]). split; [apply value_array, elements_blank; auto|]. cbn. rewrite <- !app_assoc. auto. }
    destruct (Ascii.eqb c "{") eqn:E3.
    { apply eqb_true in E3. subst c. destruct (skip_ws s1) as [|d s2] eqn:Es; [discriminate|]. apply skip_ws_cons in Es. destruct Es as (w & Hw & ->).
      destruct (Ascii.eqb d "}") eqn:Ed.
      - apply eqb_true in Ed. subst d. injection H as <- <-. exists ("{" :: w ++ ["}"]). split; [apply value_empty_object; auto|cbn; rewrite <- app_assoc; auto].
      - destruct (read_members mz n (d :: s2)) as [[l r']|] eqn:El; [|discriminate]. injection H as <- <-. apply IHm in El. destruct El as (t & Ht & ->).
        exists ("{" :: (w ++ t) ++ ["}"]). split; [eapply value_object; [apply members_blank; eauto|apply object_of_spec]|]. cbn. rewrite <- !app_assoc. auto. }
    destruct (Ascii.eqb c "n") eqn:E4; [apply eqb_true in E4; subst c; apply read_word_sound in H; destruct H as [-> ->]; eexists; split; [apply value_null|auto]|].
    destruct (Ascii.eqb c "t") eqn:E5; [apply eqb_true in E5; subst c; apply read_word_sound in H; destruct H as [-> ->]; eexists; split; [apply value_true|auto]|].
    destruct (Ascii.eqb c "f") eqn:E6; [apply eqb_true in E6; subst c; apply read_word_sound in H; destruct H as [-> ->]; eexists; split; [apply value_false|auto]|].
    apply read_number_sound in H. destruct H as (t & Ht & E). exists t. split; [apply value_number; auto|auto].
  - intros s l r H. rewrite read_elements_S in H. destruct (read_value mz n s) as [[j s1]|] eqn:Ev; [|discriminate].
    apply IHv in Ev. destruct Ev as (t & Ht & ->). destruct (skip_ws s1) as [|d s2] eqn:Es; [discriminate|]. apply skip_ws_cons in Es. destruct Es as (w' & Hw' & ->).
    destruct (Ascii.eqb d ",") eqn:Ec.
    + apply eqb_true in Ec. subst d. destruct (read_elements mz n (skip_ws s2)) as [[l' r']|] eqn:El; [|discriminate]. injection H as <- <-.
      apply IHe in El. destruct El as (u & Hu & Eu). destruct (skip_ws_split s2) as (w & Hw & E2). rewrite Eu in E2. rewrite E2.
      exists ([] ++ t ++ w' ++ "," :: w ++ u). split; [apply elements_more; auto; [apply blank_nil|apply elements_blank; auto]|].
      cbn [app]. rewrite <- !app_assoc. cbn. rewrite <- !app_assoc. auto.
    + destruct (Ascii.eqb d "]") eqn:Ed; [|discriminate]. apply eqb_true in Ed. subst d. injection H as <- <-.
      exists ([] ++ t ++ w'). split; [apply elements_one; auto; apply blank_nil|]. cbn [app]. rewrite <- !app_assoc. auto.
  - intros s l r H. destruct s as [|c s0]; [discriminate|]. rewrite read_members_S in H. destruct (Ascii.eqb c quote) eqn:Eq; [|discriminate].
    apply eqb_true in Eq. subst c. destruct (read_parts s0) as [[ps s1]|] eqn:Ep; [|discriminate].
    apply (read_parts_sound (List.length s0)) in Ep; auto. destruct Ep as (kt & Hk & ->).
    assert (Hkt : string_text kt (decode ps)) by (apply string_text_parts; eauto).
    destruct (skip_ws s1) as [|d s2] eqn:Es; [discriminate|]. apply skip_ws_cons in Es. destruct Es as (w1 & Hw1 & ->).
    destruct (Ascii.eqb d ":") eqn:Ed; [|discriminate]. apply eqb_true in Ed. subst d.
    destruct (read_value mz n (skip_ws s2)) as [[j s3]|] eqn:Ev; [|discriminate]. apply IHv in Ev. destruct Ev as (t & Ht & E2).
    destruct (skip_ws_split s2) as (w2 & Hw2 & E2'). rewrite E2 in E2'. subst s2. clear E2.
    destruct (skip_ws s3) as [|d' s4] eqn:Es3; [discriminate|]. apply skip_ws_cons in Es3. destruct Es3 as (w' & Hw' & ->).
    destruct (Ascii.eqb d' ",") eqn:Ec.
    + apply eqb_true in Ec. subst d'. destruct (read_members mz n (skip_ws s4)) as [[l' r']|] eqn:El; [|discriminate]. injection H as <- <-.
      apply IHm in El. destruct El as (u & Hu & Eu). destruct (skip_ws_split s4) as (w & Hw & E4). rewrite Eu in E4. rewrite E4.
      exists ([] ++ quote :: kt ++ quote :: w1 ++ ":" :: w2 ++ t ++ w' ++ "," :: w ++ u). split; [apply members_more; auto; [apply blank_nil|apply members_blank; auto]|].
      cbn [app]. repeat (rewrite <- app_assoc; cbn [app]). auto.
    + destruct (Ascii.eqb d' "}") eqn:Ed; [|discriminate]. apply eqb_true in Ed. subst d'. injection H as <- <-.
      exists ([] ++ quote :: kt ++ quote :: w1 ++ ":" :: w2 ++ t ++ w'). split; [apply members_one; auto; apply blank_nil|].
      cbn [app]. repeat (rewrite <- app_assoc; cbn [app]). auto.
Qed.

(** ** every text of the grammar is read *)
Scheme value_min := Minimality for value Sort Prop with elements_min := Minimality for array_items Sort Prop with members_min := Minimality for members Sort Prop.
Combined Scheme grammar_ind from value_min, elements_min, members_min.

Definition closing (c : ascii) : Prop := In c [","; "]"; "}"].
Lemma follow_blank w c r : blank w -> closing c -> follow (w ++ c :: r).
Proof.
  intros Hw Hc. destruct Hw as [|d w Hd Hw]; cbn [app follow].
  - unfold closing in Hc. cbn in Hc. destruct Hc as [<-|[<-|[<-|[]]]]; (split; [reflexivity|]); cbn; intros [H|[H|[H|[]]]]; discriminate.
  - cbn in Hd. destruct Hd as [<-|[<-|[<-|[<-|[]]]]]; (split; [reflexivity|]); cbn; intros [H|[H|[H|[]]]]; discriminate.
Qed.
Lemma follow_blank_end w : blank w -> follow w.
Proof.
  intros [|d w' Hd Hw]; cbn [follow]; auto. cbn in Hd. destruct Hd as [<-|[<-|[<-|[<-|[]]]]]; (split; [reflexivity|]); cbn; intros [H|[H|[H|[]]]]; discriminate.
Qed.
Lemma value_head mz j t : value mz j t -> exists c t', t = c :: t' /\ is_whitespace c = false /\ c <> "]" /\ c <> "}".
Proof.
  intros [| | |j' u Hn|u s _|u _|w _|l u _|w _|l u j' _ _]; try (eexists; eexists; split; [reflexivity|]; split; [reflexivity|]; split; discriminate).
  apply number_head in Hn. destruct Hn as (c & u' & -> & Hc). exists c, u'. split; auto. destruct Hc as [-> | Hc].
  - split; [reflexivity|]. split; discriminate.
  - all_bytes c; try discriminate Hc; (split; [reflexivity|]; split; discriminate).
Qed.
Lemma elements_head mz l t r : array_items mz l t -> exists c t', skip_ws (t ++ r) = c :: t' /\ c <> "]".
Proof.
  intros [j w u w' Hw Hv Hw'|j w u w' l' u' Hw Hv Hw' Hl]; rewrite <- app_assoc, skip_ws_blank by auto; apply value_head in Hv;
    destruct Hv as (c & x & -> & Hc & N1 & _); rewrite <- app_assoc; cbn [app]; rewrite skip_ws_dark by exact Hc; eauto.
Qed.
Lemma members_head mz l t r : members mz l t -> exists t', skip_ws (t ++ r) = quote :: t'.
Proof.
  intros [k j w kt w1 w2 u w' Hw _ _ _ _ _|k j w kt w1 w2 u w' l' u' Hw _ _ _ _ _ _]; rewrite <- app_assoc, skip_ws_blank by auto; cbn [app];
  rewrite skip_ws_dark by reflexivity; eauto.
Qed.
Lemma skip_value mz j t r : value mz j t -> skip_ws (t ++ r) = t ++ r.
Proof. intro H. apply value_head in H. destruct H as (c & u & -> & Hc & _). apply skip_ws_dark. exact Hc. Qed.

Lemma skip_to w c r : blank w -> is_whitespace c = false -> skip_ws (w ++ c :: r) = c :: r.
Proof. intros Hw Hc. rewrite skip_ws_blank by auto. apply skip_ws_dark. exact Hc. Qed.

Lemma read_complete mz :
  (forall j t, value mz j t -> forall n r, 2 * List.length t <= n -> follow r -> read_value mz n (t ++ r) = Some (j, r)) /\
  (forall l t, array_items mz l t -> forall n r, 2 * List.length t + 1 <= n -> read_elements mz n (skip_ws (t ++ "]" :: r)) = Some (l, r)) /\
  (forall l t, members mz l t -> forall n r, 2 * List.length t + 1 <= n -> read_members mz n (skip_ws (t ++ "}" :: r)) = Some (l, r)).
Proof.
  apply grammar_ind.
  - intros n r Hn Hr. destruct n; [cbn in Hn; lia|]. exact (f_equal (option_map (pair JNull)) (drop_prefix_complete ["u"; "l"; "l"] r)).
  - intros n r Hn Hr. destruct n; [cbn in Hn; lia|]. exact (f_equal (option_map (pair (JBool true))) (drop_prefix_complete ["r"; "u"; "e"] r)).
  - intros n r Hn Hr. destruct n; [cbn in Hn; lia|]. exact (f_equal (option_map (pair (JBool false))) (drop_prefix_complete ["a"; "l"; "s"; "e"] r)).
  - intros j t Hj n r Hn Hr. assert (Hc := number_head mz j t Hj). assert (Hk := read_number_complete mz j t r Hj Hr).
    destruct Hc as (c & t' & -> & Hc). destruct n; [cbn in Hn; lia|]. cbn [app] in *. rewrite read_value_S.
    assert (X : forall d, In d [quote; "["; "{"; "n"; "t"; "f"] -> Ascii.eqb c d = false).
    { intros d Hd. apply eqb_false. intros ->. cbn in Hd. destruct Hc as [-> | Hc]; [intuition discriminate|].
      repeat (destruct Hd as [<-|Hd]; [discriminate Hc|]). destruct Hd. }
    rewrite !X by (cbn; tauto). exact Hk.
  - intros t s Ht n r Hn Hr. destruct n; [cbn in Hn; lia|]. cbn [app]. rewrite read_value_S. rewrite Ascii.eqb_refl. apply string_text_parts in Ht. destruct Ht as (ps & Hp & Hd).
    rewrite <- app_assoc. cbn [app]. rewrite (read_parts_complete t ps r Hp), Hd. cbn [string_value]. rewrite string_of_list_ascii_of_string. auto.
  - intros t Ht n r Hn Hr. destruct n; [cbn in Hn; lia|]. cbn [app]. rewrite read_value_S. rewrite Ascii.eqb_refl. apply string_text_parts in Ht. destruct Ht as (ps & Hp & Hd).
    rewrite <- app_assoc. cbn [app]. rewrite (read_parts_complete t ps r Hp), Hd. auto.
  - intros w Hw n r Hn Hr. destruct n; [cbn in Hn; lia|]. cbn [app]. rewrite read_value_S. change (Ascii.eqb "[" quote) with false. change (Ascii.eqb "[" "[") with true. cbv iota.
    rewrite <- app_assoc. cbn [app]. rewrite skip_to by auto. auto.
  - intros l t Ht IH n r Hn Hr. destruct n; [cbn in Hn; lia|]. cbn [app]. rewrite read_value_S. change (Ascii.eqb "[" quote) with false. change (Ascii.eqb "[" "[") with true. cbv iota.
    rewrite <- app_assoc. cbn [app]. destruct (elements_head mz l t ("]" :: r) Ht) as (c & t' & Ec & Nc).
    cbn [List.length] in Hn. rewrite app_length in Hn. cbn in Hn. specialize (IH n r ltac:(lia)). rewrite Ec in *.
    rewrite (eqb_false c "]" Nc), IH. auto.
  - intros w Hw n r Hn Hr. destruct n; [cbn in Hn; lia|]. cbn [app]. rewrite read_value_S. change (Ascii.eqb "{" quote) with false. change (Ascii.eqb "{" "[") with false.
    change (Ascii.eqb "{" "{") with true. cbv iota. rewrite <- app_assoc. cbn [app]. rewrite skip_to by auto. auto.
  - intros l t j Ht IH Hj n r Hn Hr. destruct n; [cbn in Hn; lia|]. cbn [app]. rewrite read_value_S. change (Ascii.eqb "{" quote) with false. change (Ascii.eqb "{" "[") with false.
    change (Ascii.eqb "{" "{") with true. cbv iota. rewrite <- app_assoc. cbn [app]. destruct (members_head mz l t ("}" :: r) Ht) as (t' & Ec).
    cbn [List.length] in Hn. rewrite app_length in Hn. cbn in Hn. specialize (IH n r ltac:(lia)). rewrite Ec in *.
    change (Ascii.eqb quote "}") with false. cbv iota. rewrite IH. rewrite (object_is_unique l j Hj). auto.
  - intros j w t w' Hw Ht IH Hw' n r Hn. destruct n; [lia|]. rewrite !app_length in Hn. rewrite <- !app_assoc, skip_ws_blank by auto.
    rewrite (skip_value mz j t _ Ht). rewrite read_elements_S. rewrite IH by (lia || (apply follow_blank; auto; right; left; auto)).
    rewrite skip_to by auto. auto.
  - intros j w t w' l u Hw Ht IH Hw' Hl IHl n r Hn. destruct n; [lia|]. rewrite !app_length in Hn. cbn [List.length] in Hn.
    repeat (rewrite <- app_assoc; cbn [app]). rewrite skip_ws_blank by auto.
    rewrite (skip_value mz j t _ Ht). rewrite read_elements_S. rewrite IH by (lia || (apply follow_blank; auto; left; auto)).
    rewrite skip_to by auto. change (Ascii.eqb "," ",") with true. cbv iota. rewrite IHl by lia. auto.
  - intros k j w kt w1 w2 t w' Hw Hk Hw1 Hw2 Ht IH Hw' n r Hn. destruct n; [lia|]. apply string_text_parts in Hk. destruct Hk as (ps & Hp & Hd).
    repeat (rewrite app_length in Hn; cbn [List.length] in Hn). repeat (rewrite <- app_assoc; cbn [app]). rewrite skip_to by auto. rewrite read_members_S.
    rewrite Ascii.eqb_refl. repeat (rewrite <- app_assoc; cbn [app]). rewrite (read_parts_complete kt ps _ Hp).
    repeat (rewrite <- app_assoc; cbn [app]). rewrite skip_to by auto. change (Ascii.eqb ":" ":") with true. cbv iota.
    repeat (rewrite <- app_assoc; cbn [app]). rewrite skip_ws_blank by auto. rewrite (skip_value mz j t _ Ht).
    rewrite IH by (lia || (apply follow_blank; auto; right; right; left; auto)). rewrite skip_to by auto. rewrite Hd. auto.
  - intros k j w kt w1 w2 t w' l u Hw Hk Hw1 Hw2 Ht IH Hw' Hl IHl n r Hn. destruct n; [lia|]. apply string_text_parts in Hk. destruct Hk as (ps & Hp & Hd).
    repeat (rewrite app_length in Hn; cbn [List.length] in Hn). repeat (rewrite <- app_assoc; cbn [app]). rewrite skip_to by auto. rewrite read_members_S.
    rewrite Ascii.eqb_refl. repeat (rewrite <- app_assoc; cbn [app]). rewrite (read_parts_complete kt ps _ Hp).
    repeat (rewrite <- app_assoc; cbn [app]). rewrite skip_to by auto. change (Ascii.eqb ":" ":") with true. cbv iota.
    repeat (rewrite <- app_assoc; cbn [app]). rewrite skip_ws_blank by auto. rewrite (skip_value mz j t _ Ht).
    rewrite IH by (lia || (apply follow_blank; auto; left; auto)). rewrite skip_to by auto. change (Ascii.eqb "," ",") with true. cbv iota.
    rewrite IHl by lia. rewrite Hd. auto.
Qed.

Lemma read_json_spec mz s j : read_json mz s = Ok j <-> document mz j s.
Proof.
  unfold read_json, document. split.
  - destruct (read_value mz (2 * List.length s + 2) (skip_ws s)) as [[j' r]|] eqn:E; [|discriminate]. destruct (skip_ws r) eqn:Er; [|discriminate].
    intro H. injection H as <-. apply (proj1 (read_sound mz _)) in E. destruct E as (t & Ht & E). destruct (skip_ws_split s) as (w & Hw & Es).
    destruct (skip_ws_split r) as (w' & Hw' & Er'). rewrite Er, app_nil_r in Er'. subst w'. exists w, t, r. rewrite E in Es. auto.
  - intros (w & t & w' & Hw & Ht & Hw' & ->). rewrite skip_ws_blank by auto. rewrite (skip_value mz j t _ Ht).
    rewrite (proj1 (read_complete mz) j t Ht); [|rewrite !app_length; lia|apply follow_blank_end; auto].
    assert (E : skip_ws w' = []) by (rewrite <- (app_nil_r w'), skip_ws_blank by auto; auto). rewrite E. auto.
Qed.
