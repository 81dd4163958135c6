(** What the bulk analyzer writes for any FBAS, also if the shortcuts for symmetric clusters are not correct. *)
From Coq Require Import ZArith Reals Ascii.
From Verif Require Export Spec_Bulk Spec_Histories.
Local Open Scope string_scope.
Local Open Scope list_scope.
Local Open Scope nat_scope.

(** Results for nodes. The sizes of the blocking sets belong to sets that do block, those of the splitting sets to sets that do split
    if the clusters are sane. *)
Definition any_node_results (f : fbas) (o : output_data_point) : Prop :=
  (out_has_quorum_intersection o = true <-> quorum_intersection f) /\
  (exists T, (forall x, mem x T = true <-> in_top_tier f x) /\ out_top_tier_size o = len T) /\
  (exists l, lists_weakly (minimal_quorum f) l /\ (distinct_clusters f -> lists (minimal_quorum f) l) /\ sizes l (out_mq_min o) (out_mq_max o) (out_mq_mean o)) /\
  (exists l, (forall B, In B l -> blocking f B) /\ (sane_clusters f -> lists (reported_blocking f) l) /\ sizes l (out_mbs_min o) (out_mbs_max o) (out_mbs_mean o)) /\
  (exists l, (has_a_quorum f -> sane_clusters f -> forall S, In S l -> splitting f S) /\ (splittable_clusters f -> lists (reported_splitting f) l) /\
     sizes l (out_mss_min o) (out_mss_max o) (out_mss_mean o)).
(** results for the groups [gs] that were asked for *)
Definition any_group_results (f : fbas) (gs : list grouping) (r : analysis_results) : Prop :=
  (exists T R, (forall x, mem x T = true <-> in_top_tier f x) /\ group_image gs T R /\ gr_top_tier_size r = Some (len R)) /\
  (exists l mn mx mean, lists (minimal (by_groups f gs (includes_quorum f))) l /\ sizes l mn mx mean /\
     gr_mq_min r = Some mn /\ gr_mq_max r = Some mx /\ gr_mq_mean r = Some mean) /\
  (exists l mn mx mean, (forall B, In B l -> by_groups f gs (blocking f) B) /\
     (has_a_quorum f -> sane_clusters f -> lists (minimal (by_groups f gs (blocking f))) l) /\ sizes l mn mx mean /\
     gr_mbs_min r = Some mn /\ gr_mbs_max r = Some mx /\ gr_mbs_mean r = Some mean) /\
  (exists l mn mx mean, (has_a_quorum f -> sane_clusters f -> forall S, In S l -> by_groups f gs (splitting f) S) /\
     (has_a_quorum f -> splittable_clusters f -> lists (minimal (by_groups f gs (splitting f))) l) /\ sizes l mn mx mean /\
     gr_mss_min r = Some mn /\ gr_mss_max r = Some mx /\ gr_mss_mean r = Some mean).
(** The files of an input can be read: node ids are unique, no name of an ISP or country makes the clean-up panic, organizations do not overlap. *)
Definition analyzable (files : path -> option json) (input : input_data_point) : Prop :=
  exists j l f, files (nodes_path input) = Some j /\ raw_fbas_of_json j = Ok l /\ fbas_from_json j = Ok f /\ unique_keys l /\
    (forall n s, In n l -> raw_isp n = Some s \/ country_name n = Some s -> ~ uncleanable s) /\
    (forall p, organizations_path input = Some p -> exists jo G, files p = Some jo /\ groupings_from_json jo f = Ok G /\ disjoint_groups (g_groupings G)).
