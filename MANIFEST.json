{
 "claims": [
  {
   "property": "C01",
   "status": "proved",
   "theorems": [
    "C01_is_quorum_slice",
    "C01_monotone",
    "C01_threshold_zero"
   ],
   "note": "is_quorum_slice decides the independently defined satisfaction relation for every quorum set and set of nodes; monotone; threshold 0 never satisfied (the code's behaviour)."
  },
  {
   "property": "C02",
   "status": "proved",
   "theorems": [
    "C02_is_quorum",
    "C02_no_panic",
    "C02_union"
   ],
   "note": "Checked variant models the index panic; ids out of range are the only source of a panic."
  },
  {
   "property": "C03",
   "status": "proved",
   "theorems": [
    "C03_find_satisfiable_nodes"
   ],
   "note": "Satisfiable nodes are exactly the members of quorums inside the argument."
  },
  {
   "property": "C04",
   "status": "proved",
   "theorems": [
    "C04_to_quorum_slices_sound",
    "C04_to_quorum_slices_complete",
    "C04_to_quorum_slices_exact"
   ],
   "note": "Sound and complete for every quorum set; for quorum sets without repeated validators the list is exactly the minimal satisfying sets, each once."
  },
  {
   "property": "C05",
   "status": "proved",
   "theorems": [
    "C05_contained_nodes",
    "C05_contains_duplicates",
    "C05_satisfaction_local"
   ],
   "note": "All nested levels."
  },
  {
   "property": "C06",
   "status": "proved",
   "theorems": [
    "C06_keys",
    "C06_add_node",
    "C06_generic"
   ],
   "note": "For every sequence of builder calls."
  },
  {
   "property": "C07",
   "status": "proved",
   "theorems": [
    "C07_swap"
   ],
   "note": "Includes the panic condition and that swapping back restores the FBAS."
  },
  {
   "property": "C08",
   "status": "proved",
   "theorems": [
    "C08_nodes",
    "C08_quorum_sets",
    "C08_valid_ids",
    "C08_node_ids",
    "C08_unique_keys",
    "C08_listing_order"
   ],
   "note": "All node lists. Without unique keys: the last node with a key counts. JSON trees (not text) are read by fbas_from_json."
  },
  {
   "property": "C09",
   "status": "proved",
   "theorems": [
    "C09_round_trip",
    "C09_json_round_trip",
    "C09_any_fbas"
   ],
   "note": "Holds even without unique keys; also on JSON trees; for any FBAS with distinct keys the re-read FBAS is the same up to the order of entries in quorum sets."
  },
  {
   "property": "C10",
   "status": "proved",
   "theorems": [
    "C10_components"
   ],
   "note": "pathfinding's SCC function is an oracle with the contract scc_spec; std_ext is a proved instance."
  },
  {
   "property": "C11",
   "status": "proved",
   "theorems": [
    "C11_relevant_nodes_exact",
    "C11_relevant_nodes"
   ],
   "note": "Relevant nodes are characterised exactly (union of quorum-containing components of satisfiable nodes) and shown to keep all minimal quorums."
  },
  {
   "property": "C12",
   "status": "proved",
   "theorems": [
    "C12_find_minimal_quorums"
   ],
   "note": "All FBASs with in-range ids, every oracle."
  },
  {
   "property": "C13",
   "status": "partial",
   "theorems": [
    "C13_minimal_quorums_order",
    "C13_minimal_quorums_partial",
    "C13_duplicates_refuted",
    "C13_minimal_blocking_sets_order",
    "C13_minimal_blocking_sets_partial",
    "C13_blocking_duplicates_refuted",
    "C13_minimal_splitting_sets"
   ],
   "note": "Splitting sets: documented order, distinct, no set contains another, for every FBAS. Quorums and blocking sets: documented order always; distinct and free of supersets when no validator is listed twice, refuted otherwise."
  },
  {
   "property": "C14",
   "status": "proved",
   "theorems": [
    "C14_has_quorum_intersection",
    "C14_after_harmless_calls"
   ],
   "note": "For every history of calls in which a blocking, splitting or minimal quorum answer is only reused within its conditions (`harmless` histories; the empty history needs none). See C20_history_refuted for what happens otherwise."
  },
  {
   "property": "C15",
   "status": "proved",
   "theorems": [
    "C15_find_nonintersecting_quorums",
    "C15_panics_without_quorum"
   ],
   "note": "Holds whenever a quorum exists, as claimed; the theorem on panics covers the remaining case."
  },
  {
   "property": "C16",
   "status": "partial",
   "theorems": [
    "C16_without_quorum",
    "C16_panics_exactly",
    "C16_blocking_first_refuted",
    "C16_alternative_check_partial",
    "C16_agreement_partial",
    "C16_no_quorum_refuted",
    "C16_after_harmless_calls_partial"
   ],
   "note": "Correct and in agreement with the regular check after every allowed history when a quorum exists; without any quorum the call panics (refuted). A sequence of harmless calls panics exactly if it contains the alternative check and there is no quorum (C16_panics_exactly); without a quorum every sequence with it panics; it can also panic if blocking sets with an unsatisfiable inner quorum set are asked for first (refuted)."
  },
  {
   "property": "C17",
   "status": "partial",
   "theorems": [
    "C17_analysis_partial",
    "C17_failed_inner_set_refuted",
    "C17_exact_iff",
    "C17_repetitions_lose_all",
    "C17_find_minimal_blocking_sets_partial",
    "C17_no_quorum_refuted",
    "C17_repetition_refuted",
    "C17_unsatisfiable_inner_refuted",
    "C17_reported_sets_block",
    "C17_analysis_reports_blocking_sets",
    "C17_any_history_partial",
    "C17_analysis_iff"
   ],
   "note": "Exact when quorum sets of satisfiable symmetric clusters have no repetitions and satisfiable thresholds and a quorum exists; each condition is shown necessary by a counterexample. Without repetitions the conditions are necessary and sufficient (C17_exact_iff); with repetitions and no single-node quorum the result is always empty (C17_repetitions_lose_all). Through Analysis the condition concerns the clusters of the relevant nodes and of the top tier (validators outside dropped, order of entries ignored); a network with one failed inner quorum set gives wrong results (refuted). Reported sets always block once no satisfiable cluster mentions a node twice, whatever its thresholds (C17_reported_sets_block) and after any history. C17_analysis_iff: for a fresh Analysis the condition on thresholds, for the clusters of the relevant nodes (validators outside dropped, order of entries ignored), is necessary and sufficient."
  },
  {
   "property": "C18",
   "status": "partial",
   "theorems": [
    "C18_find_minimal_splitting_sets_partial",
    "C18_analysis_partial",
    "C18_tight_inner_sets_refuted",
    "C18_failed_inner_set_refuted",
    "C18_no_quorum_refuted",
    "C18_reported_sets_split_partial",
    "C18_analysis_reports_splitting_sets_partial",
    "C18_after_harmless_calls_partial",
    "C18_repetition_refuted",
    "C18_no_overflow",
    "C18_overflow",
    "C18_overflow_refuted",
    "C18_exact_iff",
    "C18_analysis_iff"
   ],
   "note": "Exact when quorum sets of satisfiable symmetric clusters have no repetitions and are splittable or rigid at each level; refuted for tight inner sets, for networks with a failed inner quorum set and without any quorum. Without slack sets are missing, but every reported set splits (C18_reported_sets_split_partial); false with repeated nodes (C18_repetition_refuted). C18_no_overflow, C18_overflow: thresholds are doubled exactly below 2^63 and wrap around from there on (C18_overflow_refuted: an unsatisfiable quorum set then has a splitting set). C18_exact_iff: without repetitions and with thresholds that can be met, the condition (splittable or rigid) is also necessary, so the cases in which the answer is wrong are characterised. C18_analysis_iff: the same for a fresh Analysis and the clusters of the top tier; with disjoint quorums the answer is always right."
  },
  {
   "property": "C19",
   "status": "partial",
   "theorems": [
    "C19_top_tier_partial",
    "C19_blocking_sets_cover_top_tier",
    "C19_after_harmless_calls_partial"
   ],
   "note": "Right after every allowed history, and minimal blocking sets cover exactly the top tier; partial because computing blocking sets outside their correctness conditions first gives a wrong top tier (C20_history_refuted)."
  },
  {
   "property": "C20",
   "status": "partial",
   "theorems": [
    "C20_no_panic",
    "C20_answers_partial",
    "C20_history_independent_partial",
    "C20_history_refuted",
    "C20_alternative_payload_refuted",
    "C20_harmless_answers_partial",
    "C20_harmless_independent_partial",
    "C20_repeat"
   ],
   "note": "No panic for every history without the alternative check; all answers right and history independent under the conditions of C17/C18; refuted in full generality (hollow inner set; payload of the alternative check). Weaker condition: only the calls whose answers later calls reuse need the conditions (C20_harmless_*). C20_repeat: for every input and every history, a question asked again gets the same answer and changes no later answer."
  },
  {
   "property": "C21",
   "status": "proved",
   "theorems": [
    "C21_shrunken_quorums"
   ],
   "note": "All FBASs and kept id sets."
  },
  {
   "property": "C22",
   "status": "proved",
   "theorems": [
    "C22_unshrink_after_shrink",
    "C22_shrink_after_unshrink",
    "C22_order",
    "C22_reshrink",
    "C22_panics"
   ],
   "note": "All kept id sets; includes order, reshrinking and panic conditions."
  },
  {
   "property": "C23",
   "status": "proved",
   "theorems": [
    "C23_all_intersect",
    "C23_involved_nodes"
   ],
   "note": "All lists of node sets."
  },
  {
   "property": "C24",
   "status": "proved",
   "theorems": [
    "C24_remove_non_minimal",
    "C24_checker"
   ],
   "note": "All lists of node sets; the checker is_set_of_minimal_node_sets is exact."
  },
  {
   "property": "C25",
   "status": "partial",
   "theorems": [
    "C25_blocking_without_nodes_partial",
    "C25_splitting_without_nodes_partial",
    "C25_without_nodes_by_name",
    "C25_set_without_nodes",
    "C25_set_without_nodes_by_name"
   ],
   "note": "Under the conditions of C17/C18, for every list of failed nodes."
  },
  {
   "property": "C26",
   "status": "partial",
   "theorems": [
    "C26_merged_exact",
    "C26_minimal_quorums",
    "C26_merge_minimal_node_sets",
    "C26_minimal_blocking_sets_partial",
    "C26_minimal_splitting_sets_partial"
   ],
   "note": "Merging and minimising is exact for every monotone property and every correct result (no further condition), and for minimal quorums of an Analysis. For blocking and splitting sets of an Analysis the conditions of C17/C18 remain."
  },
  {
   "property": "C27",
   "status": "proved",
   "theorems": [
    "C27_consistent",
    "C27_get_by_name",
    "C27_panic",
    "C27_overlapping_refuted"
   ],
   "note": "All claims for disjoint groups, as stated; panics characterised exactly. For overlapping groups (outside the claim) idempotence is refuted."
  },
  {
   "property": "C28",
   "status": "partial",
   "theorems": [
    "C28_merge_preserves_partial",
    "C28_two_level",
    "C28_nested_set_lost_refuted",
    "C28_reduced",
    "C28_kept_partial",
    "C28_separable_kept",
    "C28_exact"
   ],
   "note": "Satisfaction is preserved if no inner quorum set that is reduced to a group can be satisfied without the group (C28_kept_partial); for each inner quorum set this is also necessary (C28_exact). C28_reduced says exactly which quorum sets are reduced. In particular it holds when every inner quorum set with own inner sets has validators of two groups (includes all quorum sets of nesting depth two). Refuted in general: nested inner sets are dropped."
  },
  {
   "property": "C29",
   "status": "proved",
   "theorems": [
    "C29_describe",
    "C29_analysis_results"
   ],
   "note": "All results; the mean is the correctly rounded quotient and lies between min and max as long as sum and count are at most 2^53."
  },
  {
   "property": "C30",
   "status": "partial",
   "theorems": [
    "C30_accessors",
    "C30_minimal_quorums",
    "C30_involved_nodes_refuted",
    "C30_merged_by_group",
    "C30_after_harmless_calls",
    "C30_set_into_vec"
   ],
   "note": "unwrap, into_vec_vec and without_nodes report original ids; involved_nodes of a result does not (refuted). merged_by_group is covered under C26."
  },
  {
   "property": "C31",
   "status": "proved",
   "theorems": [
    "C31_public_keys",
    "C31_group_names",
    "C31_quorum_set_public_keys",
    "C31_quorum_set_group_names"
   ],
   "note": "All results, with and without groupings; also for pretty quorum sets."
  },
  {
   "property": "C32",
   "status": "proved",
   "theorems": [
    "C32_find_symmetric_clusters"
   ],
   "note": "All FBASs with in-range ids."
  },
  {
   "property": "C33",
   "status": "proved",
   "theorems": [
    "C33_find_symmetric_top_tier"
   ],
   "note": "All FBASs with in-range ids."
  },
  {
   "property": "C34",
   "status": "partial",
   "theorems": [
    "C34_total",
    "C34_keys",
    "C34_slices",
    "C34_minimal_quorums",
    "C34_canonical",
    "C34_twice_refuted",
    "C34_twice_iff",
    "C34_twice_all_relevant_partial",
    "C34_settles"
   ],
   "note": "Nodes, slices, minimal quorums by key, independence of the listing order: all FBASs with distinct keys. Idempotence is refuted (removing irrelevant nodes can make a relevant node unsatisfiable); it holds exactly when all nodes of the standard form are relevant, and repeated application always settles within the number of nodes, keeping the minimal quorums."
  },
  {
   "property": "C35",
   "status": "partial",
   "theorems": [
    "C35_never_panics_refuted",
    "C35_groups",
    "C35_never_panics_partial",
    "C35_membership",
    "C35_from_json"
   ],
   "note": "All node lists whose labels can be cleaned (others panic, exactly characterised)."
  },
  {
   "property": "C36",
   "status": "partial",
   "theorems": [
    "C36_cleaned",
    "C36_refuted",
    "C36_total_partial",
    "C36_panics_iff",
    "C36_unambiguous"
   ],
   "note": "Refuted: panics for names without other characters than commas and for names ending in a non-ASCII character; proved for all other names, panics exactly characterised."
  },
  {
   "property": "C37",
   "status": "proved",
   "theorems": [
    "C37_least",
    "C37_overlap"
   ],
   "note": "All n from 1 to 2^53, with IEEE double arithmetic (Flocq)."
  },
  {
   "property": "C38",
   "status": "proved",
   "theorems": [
    "C38_at_least_one",
    "C38_ceiling",
    "C38_fraction",
    "C38_not_finite"
   ],
   "note": "All doubles including infinities and NaN, n up to 2^53; result saturates at usize::MAX as in Rust."
  },
  {
   "property": "C39",
   "status": "proved",
   "theorems": [
    "C39_ideal",
    "C39_no_panic"
   ],
   "note": "Every k, initial generic FBAS and stream of random numbers; up to 2^53 nodes (exact f64 conversions). Growth also cannot panic."
  },
  {
   "property": "C40",
   "status": "partial",
   "theorems": [
    "C40_panic",
    "C40_total",
    "C40_super_safe",
    "C40_no_panic_partial",
    "C40_name_taken_refuted"
   ],
   "note": "Proved for every run that returns. Runs return if node names are generic; from other FBASs a new node name can be taken already and the code panics (witness). C40_panic: growth with a configurator that always returns panics exactly if the name of a new node is taken."
  },
  {
   "property": "C41",
   "status": "proved",
   "theorems": [
    "C41_reevaluation",
    "C41_growth",
    "C41_no_panic"
   ],
   "note": "As stated, for every function in the place of the configurator. Also the whole log of simulate_growth, and no panic unless the configurator panics."
  },
  {
   "property": "C42",
   "status": "partial",
   "theorems": [
    "C42_random_exact",
    "C42_global_rank_exact",
    "C42_local",
    "C42_faithful_partial",
    "C42_global_rank_partial",
    "C42_random_partial",
    "C42_random_refuted",
    "C42_global_rank_refuted",
    "C42_fixed_point",
    "C42_random_never_stable"
   ],
   "note": "Locality for all seven configurators. Right reports for Dummy, Ideal, SuperSafe, AllNeighbors, HigherTierNeighbors, and for GlobalRank unless its top tier is empty and no relative threshold is given; for Random with conditions. False otherwise, with witnesses. Fixed points for all local and faithful configurators. C42_random_exact: when Random reports a change and when it changes something, exactly. C42_global_rank_exact: the same for GlobalRank."
  },
  {
   "property": "C43",
   "status": "partial",
   "theorems": [
    "C43_configure",
    "C43_panic",
    "C43_every_choice",
    "C43_growth_partial",
    "C43_threshold_refuted"
   ],
   "note": "One call and whole growth simulations, every weight list and stream of random numbers; panics are characterised and every admissible choice is possible. The threshold is as requested if at least 2 validators are desired; with 1 it stays 0 (witness)."
  },
  {
   "property": "C44",
   "status": "partial",
   "theorems": [
    "C44_all_sizes",
    "C44_full_mesh",
    "C44_tiered_partial",
    "C44_empty_tier_refuted"
   ],
   "note": "Full mesh for all sizes. Tiered mesh for all lists of positive sizes; refuted for an empty tier between others. C44_all_sizes says which links there are for every list of sizes."
  },
  {
   "property": "C45",
   "status": "partial",
   "theorems": [
    "C45_exact",
    "C45_written_and_read_partial",
    "C45_undirected_partial",
    "C45_directed_refuted",
    "C45_isolated_refuted",
    "C45_comment_refuted"
   ],
   "note": "Exact description of the graph read after writing, for every graph with valid ids; it is the same graph exactly if the graph is undirected, loop-free, has ascending links and its last node has a link (C45_exact). Refuted for directed graphs (links are reversed), isolated last nodes and comments with line breaks."
  },
  {
   "property": "C46",
   "status": "proved",
   "theorems": [
    "C46_isomorphic",
    "C46_every_order"
   ],
   "note": "All shuffles; also every renumbering is the outcome of some shuffle."
  },
  {
   "property": "C47",
   "status": "proved",
   "theorems": [
    "C47_small_world"
   ],
   "note": "All outcomes of the random choices, all valid probabilities."
  },
  {
   "property": "C48",
   "status": "partial",
   "theorems": [
    "C48_scale_free_partial",
    "C48_one_initial_node_refuted",
    "C48_too_many_initial_nodes"
   ],
   "note": "All outcomes; m0=1 with n>=2 always panics (refuted), otherwise as stated, plus clique and attachment degrees. m0>n panics."
  },
  {
   "property": "C49",
   "status": "proved",
   "theorems": [
    "C49_in_degrees",
    "C49_out_degrees",
    "C49_undirected",
    "C49_connected_nodes",
    "C49_invalid_ids"
   ],
   "note": "As stated; invalid ids panic."
  },
  {
   "property": "C50",
   "status": "proved",
   "theorems": [
    "C50_ranking",
    "C50_admissible"
   ],
   "note": "All FBASs with in-range ids and at most 2^53 nodes; also shows that the real ranking is an admissible rank_sort oracle."
  },
  {
   "property": "C51",
   "status": "partial",
   "theorems": [
    "C51_tasks",
    "C51_loaded",
    "C51_repeated_label_refuted"
   ],
   "note": "Label by label and in order, for every map. Loading keeps the last row of each label, so of rows with equal labels all but one are dropped (refuted)."
  },
  {
   "property": "C52",
   "status": "proved",
   "theorems": [
    "C52_minimal_quorums",
    "C52_minimal_blocking_sets",
    "C52_minimal_splitting_sets",
    "C52_symmetric_top_tier",
    "C52_symmetric_clusters",
    "C52_analysis"
   ],
   "note": "The three searches return the same lists for any two admissible orders (ext_ok), without conditions on the FBAS beyond ids in range. Splitting sets: for the minimal quorums found by the library, which is how Analysis calls it. Also for symmetric clusters (up to order) and for whole call sequences on Analysis (conditions of C20)."
  },
  {
   "property": "C53",
   "status": "partial",
   "theorems": [
    "C53_minimal_quorums",
    "C53_minimal_blocking_sets_partial",
    "C53_minimal_splitting_sets_partial",
    "C53_quorum_intersection",
    "C53_relabelled_splitting_sets",
    "C53_relabelled_blocking_sets_partial",
    "C53_repetition_refuted",
    "C53_listing_order_refuted"
   ],
   "note": "Minimal quorums and the quorum intersection verdict: unconditional. Splitting sets: every FBAS under an exact renaming of ids (listing order kept). Blocking sets: the same without repeated validators, refuted with them. With reordered validators splitting sets are refuted when a threshold cannot be met; under the conditions of C17/C18 all results correspond."
  },
  {
   "property": "C54",
   "status": "proved",
   "theorems": [
    "C54_fbas",
    "C54_groupings",
    "C54_repeated_fields",
    "C54_missing_fields"
   ],
   "note": "All JSON trees. JSON text syntax and serde_json's recursion limit of 128 are not modelled."
  },
  {
   "property": "C55",
   "status": "proved",
   "theorems": [
    "C55_groupings_round_trip",
    "C55_read_groups"
   ],
   "note": "As stated, on JSON trees."
  },
  {
   "property": "C56",
   "status": "proved",
   "theorems": [
    "C56_reading"
   ],
   "note": "As stated."
  },
  {
   "property": "C57",
   "status": "proved",
   "theorems": [
    "C57_degrees",
    "C57_panics"
   ],
   "note": "As stated."
  },
  {
   "property": "C58",
   "status": "proved",
   "theorems": [
    "C58_all_neighbors",
    "C58_full_mesh"
   ],
   "note": "As stated."
  },
  {
   "property": "C59",
   "status": "proved",
   "theorems": [
    "C59_top_tier",
    "C59_global_rank",
    "C59_scores"
   ],
   "note": "As stated; top tier and quorums for every threshold >= 1. Scores are IEEE doubles (Flocq)."
  },
  {
   "property": "C60",
   "status": "proved",
   "theorems": [
    "C60_scores_used",
    "C60_higher_tier",
    "C60_symmetric_stable"
   ],
   "note": "As stated."
  },
  {
   "property": "C61",
   "status": "proved",
   "theorems": [
    "C61_graph_scores",
    "C61_fbas_scores",
    "C61_untrusted"
   ],
   "note": "Both implementations against the formula per receiving node, with IEEE doubles (Flocq), for graphs without repeated links and FBASs with ids in range."
  },
  {
   "property": "C62",
   "status": "partial",
   "theorems": [
    "C62_fresh",
    "C62_update",
    "C62_incremental",
    "C62_complete",
    "C62_refused",
    "C62_repeated_label_refuted",
    "C62_failure_refuted"
   ],
   "note": "Runs whose analyses succeed, for existing rows with distinct labels; the comparison with a full run also needs inputs with distinct labels and an earlier run over some of the same inputs that succeeded. A run is complete iff all analyses it needs succeed. What the clock measures is a parameter of every run, rows are compared without it. That rows survive writing and reading CSV is C75. With repeated labels an update drops rows (refuted). An update in which an analysis panics loses existing rows (refuted)."
  },
  {
   "property": "C63",
   "status": "partial",
   "theorems": [
    "C63_file_name",
    "C63_label",
    "C63_naming_scheme",
    "C63_inputs",
    "C63_panic",
    "C63_error_refuted",
    "C63_ignored_refuted"
   ],
   "note": "Names, labels, inputs, pairing and panics for all lists of paths (UTF-8 names). The error is also reported if two organizations files have the same label, although all names are recognized (refuted as stated). The ignored string is removed only where it is a whole part, the documentation says it is filtered out (refuted)."
  },
  {
   "property": "C64",
   "status": "partial",
   "theorems": [
    "C64_row_partial"
   ],
   "note": "All fields; durations are what the clock measured. Needs: a quorum exists; unique public keys; symmetric clusters without repetitions, with satisfiable thresholds (C17) and splittable or rigid (C18); labels of ISPs and countries that can be cleaned (C36); organizations without common members. The average is exact up to one rounding if sums are below 2^53. The hash function is a parameter."
  },
  {
   "property": "C65",
   "status": "proved",
   "theorems": [
    "C65_fbas",
    "C65_nodes",
    "C65_groups"
   ],
   "note": "Spec_Json.v says what a document means, with relations on the values of the fields of a name. The theorems start at the JSON tree; texts are the subject of C73. C65_fbas combines C65_nodes with fbas_from_raw, about which C08 speaks. C65_refused lists refused documents."
  },
  {
   "property": "C66",
   "status": "partial",
   "theorems": [
    "C66_report_partial",
    "C66_groups"
   ],
   "note": "Partial because of the conditions of C17 and C18 (sane_clusters, splittable_clusters), because the alternative check panics without any quorum, and because the groups of an organizations file must be disjoint. Without merging, a minimal quorum can be listed repeatedly unless the clusters are distinct. Symmetric clusters with merging are those of C32 merged with merge_quorum_set, about which C28 speaks. The disjoint quorums of the alternative check are printed without merging their members. If the nodes come from the standard input, --merge-by-isp and --merge-by-country merge nothing and hide the organizations. C66_groups: ISPs and countries never overlap."
  },
  {
   "property": "C67",
   "status": "partial",
   "theorems": [
    "C67_same_values_partial",
    "C67_results_only",
    "C67_options_refuted"
   ],
   "note": "C67_same_values_partial has the conditions of C66 for both runs. C67_results_only needs none. Refuted in general: for a node whose quorum set has an empty inner quorum set, the top tier is printed correctly with --get-minimal-quorums and as the empty set with --get-minimal-blocking-sets --dont-check-quorum-intersection (cf. C20_history_refuted)."
  },
  {
   "property": "C68",
   "status": "partial",
   "theorems": [
    "C68_counts_partial",
    "C68_merged_refuted",
    "C68_numbers",
    "C68_top_tier_number",
    "C68_verdict"
   ],
   "note": "C68_counts_partial: the number in the comment is always the number of sets of nodes, under the conditions of C66. Refuted with merging: the comment says 3 minimal quorums below a list with one. Without any condition: C68_numbers (the number is that of the sets shown if nothing is merged, else at least that), C68_top_tier_number, C68_verdict."
  },
  {
   "property": "C69",
   "status": "proved",
   "theorems": [
    "C69_rows",
    "C69_refused",
    "C69_incremental",
    "C69_order_refuted"
   ],
   "note": "Sizes up to 2^53. The rows of an updated file are a permutation of those of a complete run; C69_order_refuted shows that the order of rows of the same size can differ. What a computed row says is part of C69_rows (sizes of at least 2, see C70). What the clock measures is a parameter of every run, rows are compared without it. CSV texts: C75."
  },
  {
   "property": "C70",
   "status": "partial",
   "theorems": [
    "C70_ideal_row_partial",
    "C70_stellar_row",
    "C70_ideal_fbas",
    "C70_stellar_fbas",
    "C70_single_node_refuted"
   ],
   "note": "All sizes up to 2^53 nodes (or organizations); for the plain FBAS from 2 nodes on. With one node the FBAS does have a symmetric top tier and the row reports 2 minimal blocking sets although there is one (refuted). The mean is exact if number times size is at most 2^53."
  },
  {
   "property": "C71",
   "status": "partial",
   "theorems": [
    "C71_no_panic",
    "C71_unreadable",
    "C71_simulated",
    "C71_printed_partial",
    "C71_missing_refuted"
   ],
   "note": "All policies; up to 2^53 nodes; numbers that fit into 64 bits. The printed FBAS is read as the simulated one (same numbering, quorum sets equal up to order) if the graph has no more nodes than the FBAS; otherwise validators that do not exist are printed as missing and dropped when read, with unchanged thresholds (refuted), but the quorums stay the same (proved). For the symmetry enforcing policy the quorum sets are bounded from both sides: what the iteration reaches after as many steps as there are nodes, and what it ever reaches."
  },
  {
   "property": "C72",
   "status": "partial",
   "theorems": [
    "C72_generated_partial",
    "C72_panics",
    "C72_isolated_refuted",
    "C72_piped"
   ],
   "note": "Barabasi-Albert with 0 < m <= m0, 2 <= m0 <= n and Watts-Strogatz with even 2 <= k <= n; other arguments panic (exactly characterised in C85) or give isolated nodes, which are lost in the text (refuted). How a floating point number is formatted is a parameter, assumed to be free of newlines. C72_piped covers every policy that uses a graph, with default options and up to 2^53 nodes."
  },
  {
   "property": "C73",
   "status": "partial",
   "theorems": [
    "C73_grammar",
    "C73_read_fbas",
    "C73_read_groupings",
    "C73_written",
    "C73_round_trip",
    "C73_any_fbas_partial",
    "C73_readable_iff",
    "C73_deep_refuted",
    "C73_pretty",
    "C73_shortest"
   ],
   "note": "Texts as lists of bytes; the parts of serde_json that are used are modelled (escapes, surrogates, numbers, duplicate fields, recursion limit). Reading succeeds exactly for documents of the grammar in Spec_JsonText (independent of the reader) that describe nodes with quorum sets nested at most 62 deep. False without this limit: an FBAS whose quorum sets are nested 63 deep can be written but not read back (C73_deep_refuted); exactly these cannot be read (C73_readable_iff). Assumed about serde_json: values of unknown fields are skipped without a depth limit and may contain unpaired surrogates; whether -0 is an integer depends on its version and is a parameter. No text of the same document is shorter than what to_json_string returns (C73_shortest). C73_pretty: the layout of to_json_string_pretty, byte by byte."
  },
  {
   "property": "C74",
   "status": "partial",
   "theorems": [
    "C74_results",
    "C74_unambiguous",
    "C74_lines_partial",
    "C74_report_partial",
    "C74_several_lines_refuted",
    "C74_pretty_clusters",
    "C74_shortest"
   ],
   "note": "Output as bytes. How floating point numbers are formatted is a parameter (JSON numbers with fraction or exponent, or null; the format of serde_json is one: C76_json), durations are arbitrary texts without line breaks. C74_lines_partial: all results except symmetric clusters with --pretty, which are printed on several lines (C74_several_lines_refuted). C74_report_partial has the conditions of C66. Thresholds of 2^64 and more are not claimed to be readable. C74_pretty_clusters, C74_shortest: line breaks and blanks of printed results."
  },
  {
   "property": "C75",
   "status": "proved",
   "theorems": [
    "C75_records",
    "C75_read",
    "C75_strict",
    "C75_round_trip",
    "C75_fresh",
    "C75_update",
    "C75_incremental",
    "C75_refused",
    "C75_interrupted",
    "C75_resume",
    "C75_experiments",
    "C75_resume_experiments",
    "C75_changed_total_refuted",
    "C75_nothing_left_refuted"
   ],
   "note": "Texts as bytes; csv 1.1 is modelled by its automaton and its rules for quoting and types (C75_records: the automaton against an independent grammar). Numbers of rows fit into usize, labels are UTF-8. Two points that depend on the version of csv (whether hexadecimal numbers are read, whether a byte order mark is skipped) are parameters. The rows read from a file that was cut off are the first rows, except perhaps for the total duration of the last one (C75_changed_total_refuted shows that a different duration can be read), and a file may be cut off so that it is refused (C75_nothing_left_refuted); results do not depend on durations. Conditions on labels and inputs as in C62, sizes up to 2^53 as in C69. Analyses in which a number exceeds usize are excluded."
  },
  {
   "property": "C76",
   "status": "proved",
   "theorems": [
    "C76_parse",
    "C76_round_trip",
    "C76_shortest",
    "C76_json"
   ],
   "note": "Neither ryu nor the standard library is part of the repository: both are modelled by what they are documented to do, ryu as a search for the shortest decimal, reading as division with correct rounding (Flocq). Proved about this model: at most 17 digits are needed, the text denotes the number, reading is correct rounding for all texts of the grammar in Spec_FloatText."
  },
  {
   "property": "C77",
   "status": "partial",
   "theorems": [
    "C77_equal",
    "C77_order",
    "C77_hash",
    "C77_equal_results",
    "C77_lookup_refuted",
    "C77_standard_text",
    "C77_cached",
    "C77_reordered",
    "C77_standard_sets",
    "C77_results_partial"
   ],
   "note": "Hashing is modelled as the sequence of values written into the hasher. Proved without conditions: equality, order, hash, equal results for equal FBASs, identity of texts of standard forms, the cache (including that nothing panics). Public keys are distinct for the correspondence by key. C77_results_partial needs the conditions of C17 and C18 on symmetric clusters of the standard form (C77_standard_sets, about the sets themselves, does not). C77_lookup_refuted: equal FBASs may answer get_node_id differently, because Eq ignores the table of keys and Fbas::shrunken fills it with generic names."
  },
  {
   "property": "C78",
   "status": "partial",
   "theorems": [
    "C78_smallest_partial",
    "C78_smallest_refuted",
    "C78_failures_partial",
    "C78_evil_partial",
    "C78_no_splitting_sets_refuted",
    "C78_groups_partial"
   ],
   "note": "Under the conditions of C17 and C18 on the standard form, in which the example's analysis is exact. C78_smallest_refuted: without any quorum the example panics, since no blocking sets are listed. C78_no_splitting_sets_refuted: for an FBAS with a single minimal quorum the example says that 0 more nodes need to become evil although no number of evil nodes splits it; C78_evil_partial therefore assumes that some splitting set exists for the count. The digest (SHA3) and the printed sentences are not modelled."
  },
  {
   "property": "C79",
   "status": "proved",
   "theorems": [
    "C79_sizes",
    "C79_empty_set",
    "C79_minimal_sets",
    "C79_reduced_groups"
   ],
   "note": "The tables of all results of an Analysis are ascending (C29_analysis_results), so C79 applies to them."
  },
  {
   "property": "C80",
   "status": "partial",
   "theorems": [
    "C80_remove_non_minimal",
    "C80_nonintersecting_quorums",
    "C80_splitting_sets",
    "C80_symmetric_overflow",
    "C80_same_answers",
    "C80_minimal_quorums",
    "C80_minimal_blocking_sets",
    "C80_empty_list_refuted",
    "C80_no_repetition_partial",
    "C80_analysis_partial",
    "C80_repetition_refuted",
    "C80_overflow_refuted"
   ],
   "note": "The debug build never gives another answer than the release build (C80_same_answers, no condition). Both agree for every sequence of calls if no relevant node mentions a relevant node twice and the thresholds of relevant nodes are below 2^63; relevant nodes are those the analysis starts with (doubling is checked for overflow in a debug build). nonintersecting quorums and remove_non_minimal never panic; splitting sets only because of such thresholds; minimal quorums panic exactly if one is listed twice, blocking sets, if the list is not empty, exactly if it is not minimal. With a repeated validator, or with a threshold from 2^63 on, the debug build panics (refuted)."
  },
  {
   "property": "C81",
   "status": "proved",
   "theorems": [
    "C81_outcome",
    "C81_so_far",
    "C81_ends",
    "C81_possible",
    "C81_bulk_analyzer",
    "C81_one_thread_possible",
    "C81_experiment"
   ],
   "note": "Every schedule of a pool with any number of threads and any number of tasks handed over in advance. par-map 0.1 is modelled by its documented behaviour (order is kept, panics are passed on); what the clock measures may differ with every run of a task. The contents of the input files do not change during the run."
  },
  {
   "property": "C82",
   "status": "proved",
   "theorems": [
    "C82_report",
    "C82_panics",
    "C82_same_values"
   ],
   "note": "All results of fbas_analyzer for every FBAS that can be read; the only panic is characterised exactly. The parts that are conditional are those whose general form is refuted under C17, C18 and C67."
  },
  {
   "property": "C83",
   "status": "proved",
   "theorems": [
    "C83_row",
    "C83_fresh",
    "C83_complete"
   ],
   "note": "Rows of bulk_fbas_analyzer for every FBAS that can be read. The parts that are conditional are those whose general form is refuted under C17 and C18."
  },
  {
   "property": "C84",
   "status": "partial",
   "theorems": [
    "C84_text",
    "C84_quorum",
    "C84_ranked",
    "C84_ranked_share",
    "C84_star_refuted",
    "C84_report",
    "C84_in_a_row",
    "C84_ring_refuted"
   ],
   "note": "C84_in_a_row covers all policies with graphs; that there is a quorum is shown for all policies, for GlobalRank if some node is ranked above the average (satisfiable_policy), and C84_ranked says exactly when. C84_ring_refuted and C84_star_refuted show graphs in which no node is (every rank is the average, so the list of better nodes is empty and the threshold 0); for the ring the alternative check panics. Floating point numbers in the report are printed with json_float_text of C76; durations are a parameter."
  },
  {
   "property": "C85",
   "status": "proved",
   "theorems": [
    "C85_scale_free_panics",
    "C85_small_world_panics",
    "C85_full",
    "C85_empty",
    "C85_generator_panics",
    "C85_nodes_lost",
    "C85_proper_accepted"
   ],
   "note": "The debug assertions are included in the model. beta is represented by the integer that gen_bool compares with, or by None if it is not a probability."
  },
  {
   "property": "C86",
   "status": "proved",
   "theorems": [
    "C86_lines",
    "C86_reading",
    "C86_rejected"
   ],
   "note": "C86_lines (the lines of a text are unique), C86_reading, C86_rejected (panic iff some line says nothing). Texts that end with a carriage return are excluded since str::lines treats them differently in different versions of Rust. Memory is not bounded in the model: an id close to 2^64 is accepted."
  },
  {
   "property": "C87",
   "status": "partial",
   "theorems": [
    "C87_results",
    "C87_messages",
    "C87_unreadable",
    "C87_groups",
    "C87_choice_refuted"
   ],
   "note": "C87_messages says exactly which lines are written and in which order; C87_groups links the announced groups to those the results are merged by. C87_choice_refuted: with nodes from STDIN the tool announces that it will only merge by country, then that it will not merge, and ignores the organizations file. Trees instead of files as in C66; what a panic prints is not modelled."
  },
  {
   "property": "C88",
   "status": "partial",
   "theorems": [
    "C88_results",
    "C88_simulator",
    "C88_generator_results",
    "C88_generator",
    "C88_printed_partial",
    "C88_isolated_refuted"
   ],
   "note": "C88_printed_partial excludes graphs with isolated nodes: C88_isolated_refuted (as C72_isolated_refuted) announces three nodes and prints a text that describes none."
  },
  {
   "property": "C89",
   "status": "proved",
   "theorems": [
    "C89_results",
    "C89_always",
    "C89_bulk_analyzer",
    "C89_experiment",
    "C89_order_refuted"
   ],
   "note": "For every schedule: each task says its line at most once and before its row is written (C89_always, also with a panic); if all rows are written, there is exactly one line for every distinct label (size and run) of the old rows. The order of lines is not that of rows (refuted)."
  },
  {
   "property": "C90",
   "status": "partial",
   "theorems": [
    "C90_same_partial",
    "C90_two_level",
    "C90_exact",
    "C90_weakened_refuted",
    "C90_shown_refuted"
   ],
   "note": "Proved if each inner quorum set that is reduced to a group is satisfied by the group and not without it, and the quorum set itself is not reduced to a group with inner sets left (C90_same_partial); in particular for quorum sets of depth two with inner thresholds that can be met (C90_two_level). For the inner quorum sets the condition is necessary (C90_exact). Refuted in general: a threshold of three of three becomes one of two when the validators next to an inner quorum set are of one group (C90_weakened_refuted). Users see this: C90_shown_refuted, a symmetric cluster shown as one of two although a group is in every quorum."
  }
 ]
}