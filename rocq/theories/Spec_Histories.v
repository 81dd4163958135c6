(** Which earlier calls cannot spoil later answers of an [Analysis]. *)
From Verif Require Export Spec_Analysis.
Local Open Scope list_scope.

(** calls that need the minimal quorums *)
Definition needs_quorums (c : call) : Prop :=
  match c with HasQuorumIntersection | MinimalQuorums | MinimalSplittingSets | TopTier => True | _ => False end.

(** Blocking sets are asked for only after a call that needs the minimal quorums, unless the
    conditions on symmetric clusters hold; the alternative check is only made if there is a quorum. *)
Definition harmless (f : fbas) (cs : list call) : Prop :=
  (In AlternativeCheck cs -> has_a_quorum f) /\
  forall earlier later, cs = earlier ++ MinimalBlockingSets :: later ->
    (exists c, In c earlier /\ needs_quorums c) \/ sane_clusters f.

(** the answer is a list of sets that block, or split *)
Definition blocks_answer (f : fbas) (a : answer) : Prop :=
  exists r l, a = AVec r /\ vr_unwrap r = Ok l /\ forall B, In B l -> blocking f B.
Definition splits_answer (f : fbas) (a : answer) : Prop :=
  sane_clusters f -> has_a_quorum f -> exists r l, a = AVec r /\ vr_unwrap r = Ok l /\ forall S, In S l -> splitting f S.
