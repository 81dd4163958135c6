(** Which graphs survive being written and read. *)
From Coq Require Import NArith.
From Verif Require Import P_SimGraph Spec_GraphIO P_GraphIO.
Local Open Scope list_scope.

Lemma round_trip_exact g comment : wf_graph g -> (N.of_nat (List.length g) < 2 ^ 64)%N -> (forall c, comment = Some c -> free_of newline c) ->
  exists text, to_as_rel_string g comment = Ok text /\
    (from_as_rel_string text = Ok g <->
     undirected g /\ loop_free g /\ ascending_links g /\ (g = [] \/ exists j, link g (List.length g - 1) j)).
Proof.
  intros Hw Hn Hc. destruct (as_rel_round_trip g comment Hw Hn Hc) as (text & g' & E1 & E2 & Ha & Hl & Hs1 & Hs2).
  exists text. split; auto. split.
  - intro E. rewrite E2 in E. injection E as ->. split; [|split; [|split; [exact Ha|]]].
    + intros i j H. apply Hl in H. apply H.
    + intros i H. apply Hl in H. destruct H as [H _]. apply H. reflexivity.
    + destruct g as [|l g0]; [left; reflexivity|right].
      set (n := List.length (l :: g0)) in *. assert (Hpos : 0 < n) by (unfold n; cbn; lia).
      assert (D : (exists j, link (l :: g0) (n - 1) j) \/ ~ exists j, link (l :: g0) (n - 1) j).
      { destruct (nth_error (l :: g0) (n - 1)) as [row|] eqn:Er.
        - destruct row as [|j row]; [right|left; exists j; exists (j :: row); split; [exact Er|left; reflexivity]].
          intros (j & row & Hr & Hj). rewrite Er in Hr. injection Hr as <-. destruct Hj.
        - right. intros (j & row & Hr & Hj). congruence. }
      destruct D as [D|D]; [exact D|]. exfalso. assert (n <= n - 1); [|lia]. apply Hs2. intros i (j & Hij & H).
      assert (H' : link (l :: g0) i j) by (destruct H as [H|H]; [exact H|apply Hl in H; apply H]).
      assert (Hlt := link_lt _ _ _ H'). fold n in Hlt. destruct (Nat.eq_dec i (n - 1)) as [->|Hne]; [exfalso; apply D; exists j; exact H'|lia].
  - intros (Hu & Hf & Hasc & Hlast). destruct (as_rel_round_trip_id g comment Hw Hu Hf Hasc Hlast Hn Hc) as (text' & E1' & E2'). congruence.
Qed.
