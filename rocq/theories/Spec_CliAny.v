(** What the command line tool [fbas_analyzer] reports for any FBAS, also if the shortcuts for symmetric clusters are not correct. *)
From Verif Require Export Spec_Cli Spec_Histories.
Local Open Scope string_scope.
Local Open Scope list_scope.
Local Open Scope nat_scope.

(** Something that needs the minimal quorums is done before blocking sets are computed, or blocking sets can be computed safely. *)
Definition orderly (args : cli) (f : fbas) : Prop :=
  wants_blocking args -> wants_quorums args \/ (wants_check args /\ cli_alternative_check args = false) \/ sane_clusters f.

Section Report.
Variables (args : cli) (f : fbas) (merging : option groupings).
(** some sets are shown that have the property [P], or sets of groups whose members taken together have it *)
Definition listed_shown (P : bset -> Prop) (v : value) : Prop :=
  exists l, shows_sets args f (group_list merging) l v /\
    forall S, In S l -> match merging with Some G => by_groups f (g_groupings G) P S | None => P S end.
Definition blocking_shown (v : value) : Prop :=
  listed_shown (blocking f) v /\ (has_a_quorum f -> sane_clusters f -> minimal_sets_shown args f merging (blocking f) v).
Definition splitting_shown (v : value) : Prop :=
  listed_shown (fun _ => True) v /\ (has_a_quorum f -> sane_clusters f -> listed_shown (splitting f) v) /\
  (orderly args f -> has_a_quorum f -> splittable_clusters f -> minimal_sets_shown args f merging (splitting f) v).
Definition any_top_tier_shown (v : value) : Prop :=
  (exists R, shows_set args f (group_list merging) R v) /\ (orderly args f -> top_tier_shown args f merging v).

Definition any_report : part :=
  overview f merging >>
  timed_line "symmetric_clusters" (clusters_shown args f merging) >>
  only_if (wants_quorums args) (timed_line "minimal_quorums" (minimal_quorums_shown args f merging)) >>
  only_if (wants_check args) (intersection args f merging) >>
  only_if (wants_blocking args) (timed_line "minimal_blocking_sets" blocking_shown) >>
  only_if (wants_splitting args) (timed_line "minimal_splitting_sets" splitting_shown) >>
  only_if (wants_quorums args \/ wants_blocking args \/ wants_splitting args) (line "top_tier" any_top_tier_shown).

(** the lines whose values only depend on the input and on the form of the output *)
Definition settled (name : string) : Prop :=
  name <> "nonintersecting_quorums" /\
  (name = "minimal_quorums" -> merging = None -> distinct_clusters f) /\
  (name = "minimal_blocking_sets" -> has_a_quorum f /\ sane_clusters f) /\
  (name = "minimal_splitting_sets" -> has_a_quorum f /\ splittable_clusters f /\ orderly args f) /\
  (name = "top_tier" -> orderly args f).
End Report.
