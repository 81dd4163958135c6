{"id": "C01", "title": "Quorum set satisfaction is the nested threshold rule", "statement": "QuorumSet::is_quorum_slice(S) is true iff the threshold is at least 1 and at least `threshold` of the entries of the quorum set are satisfied, where a validator entry is satisfied if it is in S and an inner quorum set entry if it is recursively satisfied. A threshold of 0 is never satisfied. Adding nodes to S never turns true into false.", "quantifier": "every quorum set (any nesting depth, duplicate entries, any threshold) and every node set", "why_tests_cant": "unbounded nesting and sizes; take()-based counting has boundary cases at every threshold", "anchors": ["src/core_types/quorum_set.rs: QuorumSet::is_quorum_slice"]}
{"id": "C02", "title": "is_quorum decides quorums", "statement": "Fbas::is_quorum(S) is true iff S is non-empty and each member of S has its quorum set satisfied by S; the union of two quorums is a quorum; the call panics only when S has an id that is no node.", "quantifier": "every FBAS and every node set", "why_tests_cant": "all FBASs and all subsets of nodes", "anchors": ["src/core_types/fbas.rs: Fbas::is_quorum, Node::is_quorum_slice"]}
{"id": "C03", "title": "Satisfiable nodes are exactly the nodes of some quorum", "statement": "find_satisfiable_nodes(S, fbas) splits S into two disjoint parts; the first is the union of all quorums contained in S (hence the largest quorum inside S, or empty), the second is the rest. Fbas::satisfiable_nodes and unsatisfiable_nodes are the case S = all nodes.", "quantifier": "every FBAS and every node set", "why_tests_cant": "greatest-fixpoint claim over all sub-quorums", "anchors": ["src/analysis/preprocessing.rs: find_satisfiable_nodes, Fbas::satisfiable_nodes, Fbas::unsatisfiable_nodes", "src/analysis/quorums.rs: contains_quorum"]}
{"id": "C04", "title": "to_quorum_slices enumerates a complete family of slices", "statement": "Every set returned by QuorumSet::to_quorum_slices satisfies the quorum set, and every node set satisfying the quorum set is a superset of at least one returned set. If no node occurs twice in the quorum set, the returned sets are exactly the minimal satisfying sets, each once.", "quantifier": "every quorum set and every node set", "why_tests_cant": "combinatorial explosion; nested sets, zero thresholds and unsatisfiable inner sets", "anchors": ["src/core_types/quorum_set.rs: QuorumSet::to_quorum_slices"]}
{"id": "C05", "title": "contained_nodes and contains_duplicates see through nesting", "statement": "QuorumSet::contained_nodes is the set of validators mentioned at any depth; contains_duplicates is true iff some validator is mentioned at least twice across all depths; satisfaction depends on no other nodes.", "quantifier": "every quorum set", "why_tests_cant": "unbounded nesting", "anchors": ["src/core_types/quorum_set.rs: contained_nodes, contains_duplicates, contained_nodes_with_duplicates"]}
{"id": "C06", "title": "Node ids and public keys stay in bijection while an FBAS is built", "statement": "Starting from Fbas::new, after any sequence of add_node, add_generic_node and swap_quorum_set calls that do not panic, ids are 0..number_of_nodes-1 in insertion order, get_node_id(pk) is the unique id with that public key or None, and adding an existing public key panics; building with add_generic_node alone never panics.", "quantifier": "every sequence of builder calls", "why_tests_cant": "unbounded histories", "anchors": ["src/core_types/fbas.rs: Fbas::add_node, add_generic_node, get_node_id, get_quorum_set, swap_quorum_set, new_generic_unconfigured"]}
{"id": "C07", "title": "swap_quorum_set changes one quorum set only", "statement": "swap_quorum_set(id, q) returns the previous quorum set, get_quorum_set(id) then returns q, every other node, all ids and all public keys are unchanged, and swapping back restores the FBAS.", "quantifier": "every FBAS, id and quorum set", "why_tests_cant": "frame condition over all nodes", "anchors": ["src/core_types/fbas.rs: swap_quorum_set, get_quorum_set"]}
{"id": "C08", "title": "Reading an FBAS resolves keys and ignores listing order", "statement": "The FBAS read from parsed JSON has one node per input node in input order; all validator ids are valid ids of nodes with the listed public keys (when keys are unique); unknown validators are dropped while thresholds are kept; permuting validators or inner quorum sets in the input gives an equal FBAS.", "quantifier": "every parsed node list", "why_tests_cant": "all permutations and nestings", "anchors": ["src/io/core_types.rs: Fbas::from_raw, Node::from_raw, QuorumSet::from_raw"]}
{"id": "C09", "title": "Writing and re-reading an FBAS gives the same FBAS", "statement": "from_raw(to_raw(f)) equals f for every FBAS f that was itself read from input with unique public keys.", "quantifier": "every FBAS obtained by reading, with unique keys", "why_tests_cant": "round trip over all inputs", "anchors": ["src/io/core_types.rs: to_raw, from_raw"]}
{"id": "C10", "title": "strongly_connected_components partitions nodes by mutual trust", "statement": "Fbas::strongly_connected_components returns pairwise disjoint sets covering exactly all nodes, and two nodes are in the same set iff each can reach the other by following quorum set membership.", "quantifier": "every FBAS", "why_tests_cant": "all graphs", "anchors": ["src/analysis/preprocessing.rs: partition_into_strongly_connected_components, Fbas::strongly_connected_components"]}
{"id": "C11", "title": "relevant_nodes loses no quorum structure", "statement": "Every minimal quorum lies inside a single one of the disjoint components that make up Fbas::relevant_nodes; each such component contains a quorum; relevant_nodes consists of satisfiable nodes only; there is a quorum iff relevant_nodes is non-empty.", "quantifier": "every FBAS", "why_tests_cant": "all FBASs, all minimal quorums", "anchors": ["src/analysis/preprocessing.rs: Fbas::relevant_nodes", "src/analysis/sets.rs: find_sets"]}
{"id": "C12", "title": "find_minimal_quorums returns exactly the minimal quorums", "statement": "A node set is in the result of find_minimal_quorums(fbas) iff it is a quorum no proper subset of which is a quorum; hence every quorum is a superset of a returned set. The call does not panic.", "quantifier": "every FBAS with valid validator ids, every branch order", "why_tests_cant": "exponential search with pruning, symmetric-cluster shortcut", "anchors": ["src/analysis/quorums.rs: find_minimal_quorums, minimal_quorums_finder, minimal_quorums_finder_step, is_minimal_for_quorum, to_minimal_quorums", "src/analysis/sets.rs: find_minimal_sets"]}
{"id": "C13", "title": "Result lists are duplicate-free and ordered by size", "statement": "find_minimal_quorums, find_minimal_blocking_sets and find_minimal_splitting_sets return lists without duplicates in which no set contains another, ordered by increasing size and lexicographically within one size.", "quantifier": "every FBAS with valid validator ids", "why_tests_cant": "all FBASs", "anchors": ["src/analysis/sets.rs: find_minimal_sets, remove_non_minimal_x, is_set_of_minimal_node_sets"]}
{"id": "C14", "title": "has_quorum_intersection is right", "statement": "Analysis::new(fbas).has_quorum_intersection() is true iff the FBAS has at least one quorum and every two quorums share a node.", "quantifier": "every FBAS with valid validator ids", "why_tests_cant": "quantifies over all pairs of quorums", "anchors": ["src/analysis/front_end.rs: has_quorum_intersection", "src/analysis/sets.rs: all_intersect"]}
{"id": "C15", "title": "find_nonintersecting_quorums is sound and complete", "statement": "For an FBAS with at least one quorum: if Some(v) is returned, v has at least two members, all are quorums and they are pairwise disjoint; if None is returned every two quorums intersect.", "quantifier": "every FBAS with valid validator ids", "why_tests_cant": "search with a pick bound and pruning", "anchors": ["src/analysis/quorums.rs: find_nonintersecting_quorums, nonintersecting_quorums_finder, nonintersecting_quorums_finder_step"]}
{"id": "C16", "title": "The alternative quorum intersection check agrees with the regular one", "statement": "Analysis::has_quorum_intersection_via_alternative_check returns (has_quorum_intersection(), _) and never panics; when it says false it delivers two disjoint quorums of the analyzed FBAS in original ids.", "quantifier": "every FBAS with valid validator ids, at any point of an Analysis history", "why_tests_cant": "two different exponential algorithms must agree everywhere", "anchors": ["src/analysis/front_end.rs: has_quorum_intersection_via_alternative_check"]}
{"id": "C17", "title": "find_minimal_blocking_sets returns exactly the minimal blocking sets", "statement": "A node set is in the result iff it intersects every quorum and no proper subset of it does.", "quantifier": "every FBAS with valid validator ids", "why_tests_cant": "exponential search, per-cluster product, symmetric-cluster shortcut", "anchors": ["src/analysis/blocking_sets.rs: find_minimal_blocking_sets, minimal_blocking_sets_finder, minimal_blocking_sets_finder_step, to_blocking_sets, is_minimal_for_blocking_set"]}
{"id": "C18", "title": "find_minimal_splitting_sets returns exactly the minimal splitting sets", "statement": "For an FBAS enjoying quorum intersection and given its minimal quorums, a node set is in the result iff it is minimal among the intersections of two different minimal quorums.", "quantifier": "every FBAS with valid validator ids and quorum intersection", "why_tests_cant": "search with two heuristics, symmetric-cluster shortcut", "anchors": ["src/analysis/splitting_sets.rs: find_minimal_splitting_sets, splitting_sets_finder_step, is_slice_intersection, to_splitting_sets, has_potential"]}
{"id": "C19", "title": "The top tier is the union of minimal quorums and of minimal blocking sets", "statement": "Analysis::top_tier() is the set of nodes occurring in minimal quorums, which is also the set of nodes occurring in minimal blocking sets.", "quantifier": "every FBAS, whichever result was computed first", "why_tests_cant": "duality over all hitting sets", "anchors": ["src/analysis/front_end.rs: top_tier, top_tier_shrunken"]}
{"id": "C20", "title": "Analysis results do not depend on the order of calls", "statement": "For any sequence of method calls on one Analysis, each call returns the same (unshrunken) answer as on a fresh Analysis and no call panics, although caches are filled and ids re-shrunk on the way.", "quantifier": "every FBAS with valid validator ids and every finite sequence of Analysis method calls", "why_tests_cant": "unbounded call histories over hidden cached state", "anchors": ["src/analysis/front_end.rs: Analysis, cached_computation, shrink_id_space_to_top_tier"]}
{"id": "C21", "title": "Shrinking preserves quorums", "statement": "In Fbas::shrunken(ids), a set is a quorum iff the corresponding original set (a subset of ids) is a quorum of the original FBAS.", "quantifier": "every FBAS, every id set to keep, every node set", "why_tests_cant": "all subsets, all quorum sets", "anchors": ["src/core_types/shrinking.rs: Fbas::shrunken, QuorumSet::shrunken"]}
{"id": "C22", "title": "Shrinking and unshrinking ids are inverse and order preserving", "statement": "unshrink_set after shrink_set is the identity on subsets of the kept ids and shrink_set after unshrink_set is the identity on sets of new ids; both preserve subset relations, sizes and order; reshrink_sets equals unshrinking with the old manager then shrinking with the new one; shrink_set panics iff an id was not kept.", "quantifier": "all kept id sets and node sets", "why_tests_cant": "all sets", "anchors": ["src/core_types/shrinking.rs: ShrinkManager, shrink_set, unshrink_set, reshrink_sets"]}
{"id": "C23", "title": "all_intersect and involved_nodes", "statement": "all_intersect(v) is true iff every two entries of v (at different positions) share a node, despite its size-based quick check; involved_nodes(v) is the union of all entries.", "quantifier": "every list of node sets", "why_tests_cant": "quick check must never be wrong", "anchors": ["src/analysis/sets.rs: all_intersect, involved_nodes"]}
{"id": "C24", "title": "remove_non_minimal_node_sets keeps exactly the minimal sets", "statement": "The result of remove_non_minimal_node_sets(v) (and NodeIdSetVecResult::minimal_sets) contains a set iff it is in v and no other set of v is a proper subset of it; no duplicates; ordered by size then lexicographically.", "quantifier": "every list of node sets", "why_tests_cant": "all lists", "anchors": ["src/analysis/sets.rs: remove_non_minimal_node_sets, remove_non_minimal_node_sets_from_buckets, is_set_of_minimal_node_sets", "src/analysis/results.rs: minimal_sets"]}
{"id": "C25", "title": "Removing failed nodes from blocking and splitting sets answers the right question", "statement": "minimal_blocking_sets().without_nodes(F).minimal_sets() is exactly the minimal sets B such that B together with F intersects every quorum; contains_empty_set is true iff F alone already does. The same holds for splitting sets.", "quantifier": "every FBAS, every set F of node ids", "why_tests_cant": "all failure sets", "anchors": ["src/analysis/results.rs: without_nodes, minimal_sets, contains_empty_set"]}
{"id": "C26", "title": "Merging results by group answers the group-level question", "statement": "minimal_blocking_sets().merged_by_group(g).minimal_sets() is exactly the minimal sets of groups (by representative id) whose members taken together form a blocking set.", "quantifier": "every FBAS, every grouping into disjoint groups", "why_tests_cant": "all groupings", "anchors": ["src/analysis/results.rs: merged_by_group", "src/analysis/merge_by_group.rs: merge_node_sets"]}
{"id": "C27", "title": "Groupings are consistent", "statement": "For disjoint groups, merge_node gives two nodes the same id iff they are equal or in the same group, is idempotent, and get_by_member/get_by_name return the group containing the node / with that name.", "quantifier": "every FBAS and every list of groups", "why_tests_cant": "all groupings", "anchors": ["src/core_types/groupings.rs: Groupings::new, get_by_member, get_by_name", "src/analysis/merge_by_group.rs: merge_node, merge_node_set"]}
{"id": "C28", "title": "merge_quorum_set preserves satisfaction", "statement": "If a node set satisfies a quorum set then the merged node set satisfies the merged quorum set.", "quantifier": "every grouping, quorum set and node set", "why_tests_cant": "nested collapsing rules", "anchors": ["src/analysis/merge_by_group.rs: merge_quorum_set"]}
{"id": "C29", "title": "describe reports true statistics", "statement": "For a result of n sets: histogram has max+1 entries, entry k is the number of sets of size k, the entries sum to n; min and max are the extreme sizes (0 when empty), the mean is sum/n and lies between them, and the number of distinct nodes is the size of the union.", "quantifier": "every result", "why_tests_cant": "all lists of sets", "anchors": ["src/analysis/results.rs: describe, minmaxmean, min, max, mean, histogram"]}
{"id": "C30", "title": "Result accessors speak original node ids", "statement": "unwrap, into_vec_vec, without_nodes, merged_by_group and involved_nodes of a NodeIdSetVecResult obtained from an Analysis all report ids of the analyzed FBAS.", "quantifier": "every FBAS and Analysis result", "why_tests_cant": "id-space mix-ups only show for particular node layouts", "anchors": ["src/analysis/results.rs: NodeIdSetVecResult::involved_nodes, unwrap, into_vec_vec", "src/io/results.rs: into_pretty_vec_vec"]}
{"id": "C31", "title": "Pretty results name the right nodes", "statement": "into_pretty_vec_vec lists, for each set in order, the public keys (or group names) of exactly its members in increasing id order.", "quantifier": "every result, FBAS and grouping", "why_tests_cant": "all results", "anchors": ["src/io/results.rs: into_pretty_vec, into_pretty_vec_vec, to_public_keys, to_grouping_names"]}
{"id": "C32", "title": "find_symmetric_clusters returns only and all symmetric clusters", "statement": "Each returned quorum set q is the quorum set of exactly the nodes contained in q; conversely every satisfiable quorum set q whose contained nodes all use q is returned exactly once. More than one entry implies two disjoint quorums.", "quantifier": "every FBAS with valid validator ids", "why_tests_cant": "all FBASs", "anchors": ["src/analysis/symmetric_clusters.rs: find_symmetric_clusters, find_symmetric_clusters_in_node_set, find_symmetric_cluster_in_consensus_cluster"]}
{"id": "C33", "title": "find_symmetric_top_tier", "statement": "If Some(q) is returned, all top tier nodes have quorum set q, q contains the whole top tier and every quorum intersects the nodes of q; if the top tier nodes all have one quorum set q that contains exactly them, Some(q) is returned.", "quantifier": "every FBAS with valid validator ids", "why_tests_cant": "all FBASs", "anchors": ["src/analysis/symmetric_clusters.rs: find_symmetric_top_tier", "src/analysis/front_end.rs: symmetric_top_tier"]}
{"id": "C34", "title": "Standard form is canonical", "statement": "to_standard_form keeps exactly the relevant nodes sorted by public key, does not depend on the order in which nodes (or validators) are listed, has the same minimal quorums (by public key), and applying it twice changes nothing.", "quantifier": "every FBAS with unique keys", "why_tests_cant": "all renumberings", "anchors": ["src/analysis/preprocessing.rs: to_standard_form"]}
{"id": "C35", "title": "Grouping by ISP or country partitions the labelled nodes", "statement": "isps_from_raw_nodes / countries_from_raw_nodes yields groups with distinct, sorted, cleaned names; each node carrying a label is in exactly the group of its cleaned label, in input order; unlabelled nodes are in none.", "quantifier": "every parsed node list", "why_tests_cant": "all inputs", "anchors": ["src/io/groupings.rs: isps_from_raw_nodes, countries_from_raw_nodes"]}
{"id": "C36", "title": "Cleaning group names never fails", "statement": "remove_special_chars_from_grouping_name returns for every name that name without commas and without one trailing full stop.", "quantifier": "every string", "why_tests_cant": "all strings incl. empty and non-ASCII", "anchors": ["src/io/groupings.rs: remove_special_chars_from_grouping_name"]}
{"id": "C37", "title": "67% threshold is exact", "statement": "calculate_67p_threshold(n) is the least t with 3t >= 2n+1, for every n >= 1 up to 2^53, in spite of floating point; two sets of t out of n nodes always share more than a third of the nodes.", "quantifier": "every n", "why_tests_cant": "floating point rounding at large n", "anchors": ["src/simulation/qsc/mod.rs: calculate_67p_threshold"]}
{"id": "C38", "title": "Relative threshold is at least one and the ceiling of n*x", "statement": "calculate_x_threshold(n, x) >= 1 always and equals max(1, ceil(n*x)) with the product rounded to double precision.", "quantifier": "every n and x", "why_tests_cant": "float domain", "anchors": ["src/simulation/qsc/mod.rs: calculate_x_threshold"]}
{"id": "C39", "title": "IdealQsc simulations give optimally safe and live systems", "statement": "After simulate_growth(k>=1) with IdealQsc from any FBAS of generic nodes, under every shuffle, all n nodes have the 67% quorum set over all nodes, quorums are exactly the node sets of size >= t, there is quorum intersection, and blocking sets are exactly the sets of size > floor((n-1)/3).", "quantifier": "every initial size, growth amount and shuffle order", "why_tests_cant": "random schedules", "anchors": ["src/simulation/qsc/ideal.rs", "src/simulation/mod.rs: simulate_growth"]}
{"id": "C40", "title": "SuperSafeQsc simulations have one quorum", "statement": "After simulate_growth(k>=1) with SuperSafeQsc from any FBAS, under every shuffle, the only quorum is the set of all nodes.", "quantifier": "every initial FBAS, growth amount and shuffle order", "why_tests_cant": "random schedules", "anchors": ["src/simulation/qsc/super_safe.rs"]}
{"id": "C41", "title": "Reevaluation stops only when stable or out of rounds", "statement": "simulate_global_reevaluation(max) makes at most max rounds and returns the number made; if it returns fewer than max the last round changed nothing; each round visits each node exactly once; the monitor log is exactly Start, then per round a round marker followed by one change event per node, then Finish(rounds).", "quantifier": "every configurator, FBAS, max and sequence of shuffles", "why_tests_cant": "random schedules", "anchors": ["src/simulation/mod.rs: simulate_global_reevaluation, simulate_global_reevaluation_round", "src/simulation/monitors.rs"]}
{"id": "C42", "title": "Configurators report Change iff the quorum set changed", "statement": "configure(node, fbas) changes at most the quorum set of that node, and returns Change iff that quorum set changed, so that a stable report means a fixed point.", "quantifier": "every configurator, FBAS and node", "why_tests_cant": "all states", "anchors": ["src/simulation/qsc/*.rs: configure"]}
{"id": "C43", "title": "RandomQsc builds quorum sets of the requested size", "statement": "From an unconfigured or earlier RandomQsc-configured node, after configure the node's validators are distinct, in range, contain the node itself and number min(max(size,1), n) at least; the threshold is as requested; for every outcome of the random choices.", "quantifier": "every FBAS, size, threshold, weights, random outcomes", "why_tests_cant": "random choices", "anchors": ["src/simulation/qsc/random.rs"]}
{"id": "C44", "title": "Mesh constructors build the documented graphs", "statement": "new_full_mesh(n) links every two distinct nodes; new_tiered_full_mesh(sizes) links each node to exactly the other nodes of its tier and all nodes of the next higher tier.", "quantifier": "every n, every list of tier sizes", "why_tests_cant": "all size lists incl. zeros", "anchors": ["src/simulation/graph.rs: new_full_mesh, new_tiered_full_mesh"]}
{"id": "C45", "title": "AS-relationship text round trip", "statement": "from_as_rel_string(to_as_rel_string(g)) is g for graphs with sorted duplicate-free links.", "quantifier": "every graph", "why_tests_cant": "all graphs", "anchors": ["src/io/graph.rs: from_as_rel_string, to_as_rel_string, get_edge_from_as_rel_line"]}
{"id": "C46", "title": "Shuffling a graph is an isomorphism", "statement": "Graph::shuffled yields a graph isomorphic to the original for every shuffle; degrees and undirectedness are preserved.", "quantifier": "every graph, every shuffle", "why_tests_cant": "random", "anchors": ["src/simulation/graph.rs: shuffled, is_undirected, get_in_degrees, get_out_degrees"]}
{"id": "C47", "title": "Small world graphs keep their edge count", "statement": "For even k < n, new_random_small_world(n,k,beta) yields an undirected loop-free graph with exactly n*k/2 edges for every outcome of the random choices.", "quantifier": "every n, k and random outcomes", "why_tests_cant": "random choices", "anchors": ["src/simulation/graph.rs: new_random_small_world"]}
{"id": "C48", "title": "Scale free graphs have the expected edges", "statement": "For 0<m<=m0<=n, new_random_scale_free(n,m0,m) does not panic and yields an undirected loop-free graph with m0(m0-1)/2 + (n-m0)m edges for every outcome of the random choices.", "quantifier": "every n, m0, m and random outcomes", "why_tests_cant": "random choices", "anchors": ["src/simulation/graph.rs: new_random_scale_free"]}
{"id": "C49", "title": "Degree queries are consistent", "statement": "get_in_degrees(i) counts the links to i, the sums of in and out degrees agree, is_undirected is true iff links are symmetric, and get_connected_nodes is the set of nodes with at least one incoming or outgoing link.", "quantifier": "every graph with valid ids", "why_tests_cant": "all graphs", "anchors": ["src/simulation/graph.rs: get_in_degrees, get_out_degrees, is_undirected, get_connected_nodes"]}
{"id": "C50", "title": "Ranking never breaks sorting", "statement": "rank_nodes produces no NaN for any FBAS, so sort_by_rank never panics and returns a permutation of its input in non-increasing score order.", "quantifier": "every FBAS and node list", "why_tests_cant": "100 rounds of float arithmetic on arbitrary graphs", "anchors": ["src/analysis/preprocessing.rs: rank_nodes, sort_by_rank"]}
{"id": "C51", "title": "Bulk update never repeats or drops results", "statement": "make_sorted_tasklist(inputs, existing) contains every existing output unchanged exactly once, an analysis task for exactly those inputs whose label has no existing output, nothing else, sorted by label.", "quantifier": "every input list and every map of existing outputs", "why_tests_cant": "all inputs", "anchors": ["src/bin/bulk_fbas_analyzer.rs: make_sorted_tasklist, load_existing_outputs"]}
{"id": "C52", "title": "Results do not depend on heuristic orders", "statement": "find_minimal_quorums, find_minimal_blocking_sets and find_minimal_splitting_sets return the same list whatever order the rank heuristic and the component decomposition use.", "quantifier": "every two admissible orders, every FBAS", "why_tests_cant": "all orders", "anchors": ["src/analysis/preprocessing.rs: sort_by_rank, partition_into_strongly_connected_components"]}
{"id": "C53", "title": "Renumbering nodes renumbers results", "statement": "If two FBASs differ only by a permutation of node ids then the minimal quorums, blocking sets, splitting sets and the quorum intersection verdict correspond under that permutation.", "quantifier": "every FBAS and permutation", "why_tests_cant": "all permutations", "anchors": ["src/analysis/quorums.rs", "src/analysis/blocking_sets.rs", "src/analysis/splitting_sets.rs"]}
{"id": "C54", "title": "JSON input: order of fields and unknown fields do not matter", "statement": "Reading an FBAS or groupings from JSON gives the same result if the fields of objects are listed in another order or fields of unknown names are added, at any depth; objects with a repeated known field or without a required field are rejected.", "quantifier": "every JSON tree", "why_tests_cant": "all trees and permutations", "anchors": ["src/io/core_types.rs: RawNode, RawQuorumSet", "src/io/groupings.rs: RawGrouping"]}
{"id": "C55", "title": "Groupings are read by public key and survive writing", "statement": "Reading groupings keeps names and order and turns the listed public keys into the ids of the nodes with these keys, dropping unknown ones; writing groupings to JSON and reading them for the same FBAS gives the same groupings.", "quantifier": "every FBAS with consistent keys, every list of groups of its nodes", "why_tests_cant": "all inputs", "anchors": ["src/io/groupings.rs: Groupings::from_raw, to_raw"]}
{"id": "C56", "title": "AS-relationship files are read as documented", "statement": "For every text made of blank lines, comment lines and relation lines a|b|0... or a|b|-1..., with or without a line break at the end, from_as_rel_string yields the graph whose links are exactly b->a for each relation line and also a->b for each peering line, listed in ascending order without repetition, with one node more than the largest id mentioned.", "quantifier": "every list of lines, ids, further columns and comments", "why_tests_cant": "all texts", "anchors": ["src/io/graph.rs: from_as_rel_string, get_edge_from_as_rel_line"]}
{"id": "C57", "title": "Small world rewiring keeps nodes connected", "statement": "For even k < n, in the result of new_random_small_world(n,k,beta) every node has at least k/2 links for every outcome of the random choices; for beta = 0 it is exactly the ring lattice; for odd k and for k > n it panics.", "quantifier": "every n, k, probability and random outcomes", "why_tests_cant": "random choices", "anchors": ["src/simulation/graph.rs: new_random_small_world"]}
{"id": "C58", "title": "AllNeighborsQsc trusts exactly the neighbors", "statement": "From unconfigured generic nodes, under every shuffle, simulate_growth(k>=1) with AllNeighborsQsc over a graph without repeated links does not panic and gives each connected node the flat quorum set over itself and its neighbors in ascending order, with the threshold calculated from their number, and leaves others unconfigured. On a full mesh of n >= 2 nodes grown to n nodes this is the configuration of IdealQsc.", "quantifier": "every graph, relative threshold, initial size, growth amount and shuffle order", "why_tests_cant": "all graphs and shuffles", "anchors": ["src/simulation/qsc/graph_based/all_neighbors.rs: AllNeighborsQsc", "src/simulation/mod.rs: simulate_growth"]}
{"id": "C59", "title": "GlobalRankQsc trusts exactly the top tier", "statement": "GlobalRankQsc::new never panics for graphs without repeated links; rank scores are never NaN or negative; the top tier is the ascending list of nodes that score above average. After growth, nodes with neighbors have the flat quorum set over the top tier, others stay unconfigured, and if the threshold t is at least 1 the quorums are exactly the nonempty sets of nodes with neighbors that contain t top tier nodes.", "quantifier": "every graph up to 2^53 nodes, relative threshold, growth amount and shuffle order", "why_tests_cant": "floating point scores of all graphs, all shuffles", "anchors": ["src/simulation/qsc/graph_based/global_ranking_based.rs: GlobalRankQsc", "src/simulation/graph.rs: get_rank_scores"]}
{"id": "C60", "title": "HigherTierNeighborsQsc trusts higher tiers, else the own tier", "statement": "Without symmetry enforcing, after growth each connected node has the flat quorum set over itself and its neighbors with at least twice its score, or, if there are none, its neighbors for which neither score is twice the other. With symmetry enforcing, whenever reevaluation ends stable, quorum sets consist of these and in addition of all nodes listed by those of them that list the node.", "quantifier": "every graph, score list, relative threshold, growth amount and shuffle order", "why_tests_cant": "all graphs and orders of changes", "anchors": ["src/simulation/qsc/graph_based/relative_tierness_based.rs: HigherTierNeighborsQsc"]}
{"id": "C61", "title": "Rank scores are page rank without dampening", "statement": "In each round each node receives from each node that trusts it that node's last score divided by the number of nodes it trusts, summed in node order in double precision. rank_nodes(ids) is the result of 100 rounds from 1/len(ids), where only nodes in ids give and receive. get_rank_scores starts from 1/n and stops after the first round in which no score moves by max(1/n^2, 0.00001) or more, or after max(2n, 1000) rounds.", "quantifier": "every FBAS, node list and graph without repeated links", "why_tests_cant": "all graphs", "anchors": ["src/analysis/preprocessing.rs: rank_nodes", "src/simulation/graph.rs: get_rank_scores"]}
{"id": "C62", "title": "Bulk runs report every input once and updates equal full runs", "statement": "Without --update, a run whose analyses all succeed writes, sorted by label, exactly one row per input, and an existing output file is never touched. With --update, every existing row is kept unchanged, each input whose label has no row is analyzed and gets one, and updating the output of an earlier run writes the same rows (durations aside) as analyzing all inputs anew. No run loses rows.", "quantifier": "every file system, every list of paths and every existing output", "why_tests_cant": "all histories of runs", "anchors": ["src/bin/bulk_fbas_analyzer.rs: main, make_sorted_tasklist, load_existing_outputs, bulk_do, write_csv"]}
{"id": "C63", "title": "Bulk inputs and labels follow the documented naming scheme", "statement": "The label of a file is its name without .json and without the underscore separated parts nodes, organizations and the ignored string. Each .json file whose name does not contain organizations becomes one input, in order, with the organizations file of the same label if there is one. An error is reported iff some file name does not end with .json.", "quantifier": "every list of paths and every ignored string", "why_tests_cant": "all names", "anchors": ["src/bin/bulk_fbas_analyzer.rs: extract_inputs, extract_nodes_paths, extract_organizations_paths_by_label, build_inputs, extract_file_name, extract_label"]}
{"id": "C64", "title": "Rows of the bulk analyzer report the properties of the FBAS", "statement": "The row of an input contains whether the FBAS has quorum intersection, the size of its top tier, and the smallest, largest and average sizes of its minimal quorums, blocking sets and splitting sets; the same for its organizations, ISPs and countries where these are known, and empty fields otherwise; and the hash of its standard form.", "quantifier": "every input whose files can be read", "why_tests_cant": "all FBASs", "anchors": ["src/bin/bulk_fbas_analyzer.rs: analyze, maybe_merge_sets, maybe_load_organizations, maybe_load_isps, maybe_load_countries"]}
{"id": "C65", "title": "JSON documents are read as their fields say, all others are refused", "statement": "Reading an FBAS or a list of groups succeeds for exactly the documents that follow the schema (known fields with values of their types at most once, required fields present, thresholds between 0 and 2^64 - 1, null or nothing for missing optional values, objects or arrays of the fields), and the result has the values of the fields.", "quantifier": "every JSON tree", "why_tests_cant": "all trees, in particular all ill-formed ones", "anchors": ["src/io/core_types.rs: RawNode, RawQuorumSet, RawGeoData", "src/io/groupings.rs: RawGrouping"]}
{"id": "C66", "title": "The command line tool reports the requested properties of the FBAS", "statement": "A run prints, in this order, the number of nodes, the number of groups if nodes are merged, the symmetric clusters, the minimal quorums (if requested), whether there is quorum intersection (unless switched off; two disjoint quorums if there is none and the alternative check is used), the minimal blocking sets, the minimal splitting sets (if requested) and, if any of these lists was requested, the top tier; as ids, as names or as statistics. With merging, sets of groups take the place of sets of nodes; countries are preferred to ISPs and ISPs to organizations.", "quantifier": "every command line, every document with nodes and with organizations, in a file or on the standard input", "why_tests_cant": "all FBASs and all combinations of options", "anchors": ["src/bin/fbas_analyzer.rs: main, extract_main_todos, extract_groupings_todos, report_*, find_and_report_*, check_and_report_if_has_quorum_intersection, Output", "src/io/results.rs: AnalysisResult"]}
{"id": "C67", "title": "Options of the command line tool decide what is reported, not what it says", "statement": "Two runs with the same input, merging and form of output report the same value for each result they have in common (apart from the choice of disjoint quorums). With --results-only a run prints the same results in the same order and no comments.", "quantifier": "every pair of command lines with the same input", "why_tests_cant": "all inputs and pairs of options", "anchors": ["src/bin/fbas_analyzer.rs: main, Output::comment, Output::result", "src/analysis/mod.rs: Analysis"]}
{"id": "C68", "title": "Comments of the command line tool agree with the results", "statement": "Next to each list of sets, a comment gives the number of the sets; next to the top tier, a comment gives its size; a comment says that all quorums intersect iff this is so.", "quantifier": "every command line and every FBAS", "why_tests_cant": "all FBASs", "anchors": ["src/bin/fbas_analyzer.rs: find_and_report_minimal_quorums, find_and_report_minimal_blocking_sets, find_and_report_minimal_splitting_sets, report_top_tier_uncondensed, check_and_report_if_has_quorum_intersection"]}
{"id": "C69", "title": "The performance experiment writes one row per requested or known experiment", "statement": "A run of the performance experiment writes its rows ordered by top tier size, exactly one for each pair of size and run number that is requested or already in the output file (of several known rows the last), keeps known rows as they are, computes the others, never fails for requested sizes, and refuses to run only if a file would be overwritten or a file to be updated is missing. Updating the output of a smaller run gives the same rows as one complete run.", "quantifier": "every size limit, number of runs, kind of FBAS and existing output", "why_tests_cant": "all sizes and histories; the largest size limits what can be executed", "anchors": ["src/bin/bulk_performance_experiment.rs: main, generate_inputs, load_existing_outputs, make_sorted_tasklist, analyze_or_reuse"]}
{"id": "C70", "title": "The FBASs of the performance experiment have the intended quorums and the rows report their numbers", "statement": "The generated FBAS has as quorums exactly the sets with more than two thirds of the nodes (Stellar-like: with two thirds of the nodes of more than two thirds of the organizations), has quorum intersection and no symmetric top tier, and a row gives the number of minimal quorums, minimal blocking sets and minimal splitting sets, which are binomial coefficients, and the common size of these sets.", "quantifier": "every top tier size", "why_tests_cant": "all sizes", "anchors": ["src/bin/bulk_performance_experiment.rs: make_almost_ideal_fbas, make_almost_ideal_stellarlike_fbas, analyze", "src/simulation/qsc/mod.rs: calculate_67p_threshold"]}
{"id": "C71", "title": "The simulator prints an FBAS of the requested size in which every node is configured as its policy says", "statement": "A run of the simulator fails exactly if the graph cannot be read or does not suffice (global rank: fewer nodes than requested; fame-weighted: too few linked nodes). Otherwise it prints an FBAS with the requested number of nodes (by default as many as the graph has), named n0, n1, ..., and the quorum set of every node, also of those from before growth, is as its policy prescribes for the final number of nodes. Reading the printed JSON gives back the simulated FBAS, and in any case one with the same quorums.", "quantifier": "every policy and its options, every input text, every number of initial and later nodes, every stream of random numbers", "why_tests_cant": "infinitely many graphs, sizes and random choices", "anchors": ["src/bin/qsc_simulator.rs: main, parse_qsc_config, parse_graph_path", "src/simulation/mod.rs: Simulator", "src/io/core_types.rs: to_json_string, from_json_str, to_raw"]}
{"id": "C72", "title": "The graph generator prints a graph of the requested size and kind that the simulator accepts", "statement": "For sensible arguments the graph generator prints (or writes to the requested file) a text that begins with a comment naming the algorithm and its arguments and that is read as a simple graph with the requested number of nodes, the number of edges of the model and no isolated nodes, equal to the generated graph up to a renaming of nodes (none with --dont-shuffle). Every policy of the simulator accepts this text and yields an FBAS with as many nodes.", "quantifier": "every algorithm, its arguments, every destination, every stream of random numbers", "why_tests_cant": "infinitely many arguments and random choices", "anchors": ["src/bin/graph_generator.rs: main, apply_graph_gen_alg", "src/io/graph.rs: to_as_rel_string, from_as_rel_string", "src/bin/qsc_simulator.rs: main"]}
{"id": "C73", "title": "JSON texts are read as RFC 8259 says and what is written is read back", "statement": "from_json_str gives an FBAS exactly for the texts that are JSON documents by RFC 8259 (UTF-8, any layout, any escapes, unknown fields ignored) whose value describes nodes, and the FBAS is the described one. Groupings likewise. to_json_string and to_json_string_pretty write JSON documents (to_json_string the shortest possible), and reading either of them back gives an FBAS with the same nodes, quorum sets and ids. to_json_string_pretty returns the text of to_json_string with a line break after each opening bracket and comma and before each closing bracket outside of strings (unless nothing is between the brackets), two blanks per open bracket at the start of a line, and a blank after each colon.", "quantifier": "every text and every FBAS", "why_tests_cant": "infinitely many texts and FBASs", "anchors": ["src/io/core_types.rs: from_json_str, to_json_string, to_json_string_pretty", "src/io/groupings.rs: organizations_from_json_str, isps_from_json_str, countries_from_json_str"]}
{"id": "C74", "title": "The text printed by the command line tool says what the analysis found, one line per result", "statement": "Every result is printed as 'name: ' followed by a JSON document with exactly the found ids, names, quorum sets or statistics; different results are printed differently; every result and every duration takes exactly one line, so that the output can be processed line by line. From the texts of the input files to the text on the standard output, the report is the one of C66. Symmetric clusters with names are laid out as in C73; all other results except for statistics take the shortest text of their document.", "quantifier": "every input text, every combination of options, every result", "why_tests_cant": "infinitely many inputs and results; names can contain any characters", "anchors": ["src/io/results.rs: AnalysisResult, PrettyQuorumSet", "src/bin/fbas_analyzer.rs: Output, main", "src/core_types/quorum_set.rs: Serialize"]}
{"id": "C75", "title": "The CSV files of the bulk programs say the computed rows, can be read back, and runs can be continued from them", "statement": "The bulk analyzer and the performance experiment write CSV texts in which every label, number and floating point number can be recovered exactly, whatever characters labels contain. A file is accepted for an update exactly if it is CSV whose columns (found by their names) have values of the right form, and then the rows are those that it says; other files are refused and left alone. Runs with texts give the results of runs with rows (C62, C69). If a run was interrupted while it wrote its file, then going on from what was written either is refused or gives the results of a run from the start.", "quantifier": "every text, every list of rows, every place at which a text is cut off, every list of inputs", "why_tests_cant": "infinitely many texts, labels and floating point numbers", "anchors": ["src/bin/bulk_fbas_analyzer.rs: OutputDataPoint, load_data_points, write_csv, main", "src/bin/bulk_performance_experiment.rs: write_csv, main"]}
{"id": "C76", "title": "Floating point numbers in outputs denote exactly the computed numbers", "statement": "The text of a floating point number in CSV or JSON outputs is read back as the same number (also infinities and NaN in CSV); no shorter decimal is, and no decimal as short is closer. A text is read as the nearest double of the number that it denotes, ties to even, and only texts of the documented form are read. In JSON such numbers are never written like integers.", "quantifier": "every double precision number and every text", "why_tests_cant": "2^64 numbers, infinitely many texts", "anchors": ["src/bin/fbas_analyzer.rs: Output", "src/bin/bulk_fbas_analyzer.rs: write_csv, load_data_points", "src/bin/bulk_performance_experiment.rs: write_csv"]}
{"id": "C77", "title": "Results can be reused for FBASs that are equal in standard form", "statement": "FBASs are equal, hash equally and compare as equal exactly if their lists of nodes are the same, and the order is a total order by nodes (key, then threshold, validators, inner quorum sets). Equal FBASs have equal analysis results. Two standard forms have the same JSON text (whose digest identifies them) only if they are the same. With a cache keyed by the standard form, each FBAS gets the results of its own standard form, nothing is analyzed twice, and an FBAS that only lists its nodes in another order is answered from the cache. Named by public key, the results for the standard form are those of the FBAS itself: quorum intersection, top tier, minimal blocking sets, minimal splitting sets.", "quantifier": "every FBAS, every sequence of FBASs looked up in a cache", "why_tests_cant": "a wrong reuse needs two FBASs that collide; all pairs of FBASs and all histories of the cache", "anchors": ["src/core_types/fbas.rs: Hash, Ord, PartialEq for Fbas", "src/core_types/quorum_set.rs: derives of QuorumSet", "examples/results_reuse.rs: main, do_analysis"]}
{"id": "C78", "title": "The post-analysis of results counts the nodes that are still missing", "statement": "As in examples/results_reuse.rs: the first listed blocking set is a smallest one; after the failure of some nodes the reported number is the least number of further failures that block all quorums; with evil nodes the tool says that quorum intersection is lost exactly if they split the FBAS, and otherwise reports the least number of nodes that have to join them; merged by organization, the minimum is the least number of organizations (and nodes without organization) that together block all quorums.", "quantifier": "every FBAS, every list of failing or evil nodes, every list of disjoint organizations", "why_tests_cant": "all subsets of nodes that could fail", "anchors": ["examples/results_reuse.rs: main", "src/analysis/results.rs: without_nodes, minimal_sets, min, contains_empty_set, merged_by_group"]}
{"id": "C79", "title": "Sizes, emptiness and minimal sets of results; groupings of reduced FBASs", "statement": "len, is_empty, min, max and contains_empty_set describe the sets in original ids; minimal_sets keeps exactly the sets that contain no other one, in the documented order, also while ids are still shrunken. Groupings::shrunken keeps names and order of groups and exactly the remaining members, and sets of nodes belong to as many groups as before.", "quantifier": "every result, every FBAS, every set of kept nodes, every grouping into disjoint groups", "why_tests_cant": "all lists of sets and all tables of ids", "anchors": ["src/analysis/results.rs: NodeIdSetVecResult::len, is_empty, min, max, contains_empty_set, minimal_sets", "src/core_types/shrinking.rs: Groupings::shrunken, Grouping::shrunken"]}
{"id": "C80", "title": "Debug assertions and overflow checks of the analysis", "statement": "The debug_assert!s of the analysis (lists of sets are minimal and without duplicates, selection and antiselection are disjoint) never fail and doubling a threshold never overflows, so that a debug build gives the same answers as a release build; in no case does it give a different answer.", "quantifier": "every FBAS, every sequence of Analysis calls, every ranking and SCC order", "why_tests_cant": "all FBASs and all sequences of calls; tests run debug builds on few networks only", "anchors": ["src/analysis/sets.rs: find_minimal_sets, remove_non_minimal_x, remove_non_minimal_node_sets_from_buckets, is_set_of_minimal_node_sets", "src/analysis/quorums.rs: nonintersecting_quorums_finder_step", "src/analysis/splitting_sets.rs: splitting_threshold"]}
{"id": "C81", "title": "Bulk programs with several threads", "statement": "With --jobs n, n > 0, every schedule of the threads ends, never deadlocks, never runs more than n analyses at once, and writes the same rows in the same order as a run with one thread, apart from measured durations; if an analysis panics, exactly the rows before it are written.", "quantifier": "every list of tasks, every number of threads, every interleaving of starting, finishing and writing", "why_tests_cant": "all interleavings of threads", "anchors": ["src/bin/bulk_fbas_analyzer.rs: bulk_do, analyze_or_reuse, write_csv", "src/bin/bulk_performance_experiment.rs: bulk_do, analyze_or_reuse"]}
{"id": "C82", "title": "Command line reports for any FBAS", "statement": "For every input that can be read, fbas_analyzer finishes with a report for every choice of options, except that it panics exactly if --alternative-quorum-intersection-check is used and there is no quorum. Numbers of nodes, symmetric clusters, minimal quorums and quorum intersection are right for every FBAS; sets listed as blocking always block; listed blocking sets, splitting sets and the top tier are exact under the conditions of C17 and C18 or if something that needs the minimal quorums comes before the blocking sets. Such values do not depend on the other options.", "quantifier": "every readable document of nodes, every choice of options, groups that do not overlap, every ranking and SCC order", "why_tests_cant": "all FBASs, also degenerate ones, and all combinations of options", "anchors": ["src/bin/fbas_analyzer.rs: main, report_overview, find_and_report_symmetric_clusters, find_and_report_minimal_quorums, check_and_report_if_has_quorum_intersection, find_and_report_minimal_blocking_sets, find_and_report_minimal_splitting_sets, report_top_tier_uncondensed", "src/analysis/mod.rs: Analysis"]}
{"id": "C83", "title": "Bulk analyzer rows for any FBAS", "statement": "For every input that can be read, bulk_fbas_analyzer writes a row: whether there is quorum intersection, the size of the top tier and the sizes of minimal quorums are right for every FBAS, also merged by organizations, ISPs and countries; sizes of blocking sets belong to sets that block, and they and the sizes of splitting sets are exact under the conditions of C17 and C18. A run whose inputs can all be read is complete.", "quantifier": "every readable document of nodes with unique keys, organizations that do not overlap, every ranking and SCC order, every clock", "why_tests_cant": "all FBASs, also degenerate ones, and all groupings", "anchors": ["src/bin/bulk_fbas_analyzer.rs: main, bulk_do, analyze, maybe_merge_sets", "src/analysis/mod.rs: Analysis"]}
{"id": "C84", "title": "graph_generator, qsc_simulator and fbas_analyzer in a row", "statement": "The text that graph_generator prints can be read by qsc_simulator for every policy that uses a graph, and the text that qsc_simulator prints can be read by fbas_analyzer; what is read is the simulated FBAS. fbas_analyzer then prints the report of C82 for it and panics exactly if the alternative check is used and there is no quorum. There is a quorum if thresholds do not ask for more nodes than there are, for every policy except GlobalRank. With GlobalRank there is a quorum exactly if as many nodes ranked above the average as the threshold says (at least one) exist and have links. Not so: that there always is one (rings, in which all nodes rank equally, lead to an FBAS without quorums), and that the hub of a star ranks above the average.", "quantifier": "every graph algorithm with arguments that leave no node isolated, every policy with a graph, every random stream, all options of the analyzer that read from STDIN, every ranking and SCC order", "why_tests_cant": "all graphs, random streams and options, as texts", "anchors": ["src/bin/graph_generator.rs: main", "src/bin/qsc_simulator.rs: main, parse_qsc_config", "src/bin/fbas_analyzer.rs: main", "src/io/core_types.rs: to_json_string_pretty", "src/simulation/qsc/graph_based/global_ranking_based.rs: GlobalRankQsc"]}
{"id": "C85", "title": "Every choice of arguments of the random graph constructors and of graph_generator", "statement": "Whether new_random_scale_free, new_random_small_world and graph_generator panic depends on the arguments only: Barabasi-Albert exactly unless 0 < m <= m0 <= n and m0 > 1 (or n = 1); Watts-Strogatz exactly for odd k, k > n, or an invalid probability with k > 0. Small worlds with k = n are full meshes whatever is rewired, those with k = 0 have no links. For accepted arguments that lead to graphs without links, the text of graph_generator is read as a graph without nodes; all other accepted arguments are those of C72.", "quantifier": "all arguments, all random streams, shuffled or not, file or STDOUT", "why_tests_cant": "all arguments and random streams", "anchors": ["src/simulation/graph.rs: new_random_scale_free, new_random_small_world, shuffled", "src/bin/graph_generator.rs: main, apply_graph_gen_alg", "src/io/graph.rs: to_as_rel_string, from_as_rel_string"]}
{"id": "C86", "title": "Which texts are AS relationship files, and what they say", "statement": "Graph::from_as_rel_string reads a text iff each of its lines is empty, begins with '#', or has two node ids and a kind (0 for peering, -1 for a customer) in its first three columns, where numbers may have leading zeros and a plus sign; the graph then has exactly the links that the lines say and the least number of nodes above all ids. Every other text is a panic.", "quantifier": "every text that does not end with a carriage return", "why_tests_cant": "all texts, also malformed ones", "anchors": ["src/io/graph.rs: from_as_rel_string, get_edge_from_as_rel_line"]}
{"id": "C87", "title": "Messages of the command line tool are true", "statement": "On the standard error output the tool says where it reads the nodes from, how many it loaded, which merging option it follows if several are given (countries before ISPs before organizations), whether it merges nodes, and by how many groups; nothing else, in this order, and nothing after a step that failed. The announced groups are those by which the reported sets are merged. If a message says by what nodes are merged, they are merged by that. Messages do not influence the results.", "quantifier": "every combination of options and all inputs, also unreadable ones", "why_tests_cant": "all inputs and options; the repository checks two messages", "anchors": ["src/bin/fbas_analyzer.rs: main, load_fbas, maybe_load_organizations, maybe_load_isps, maybe_load_countries, extract_groupings_todos"]}
{"id": "C88", "title": "Messages of the simulator and the graph generator are true", "statement": "The simulator says where it reads a graph from iff the policy needs one, how many nodes the graph that was read has, that the simulation starts iff the graph could be read, and that it finished iff there is a result. The generator announces the number of nodes iff it prints the graph, and reading the printed text gives a graph with that number of nodes. Messages do not influence the results.", "quantifier": "all arguments, inputs and random choices", "why_tests_cant": "all graphs and arguments, all outcomes of random choices", "anchors": ["src/bin/qsc_simulator.rs: main, parse_graph_path, parse_qsc_config", "src/bin/graph_generator.rs: main"]}
{"id": "C89", "title": "Messages about reused results", "statement": "A bulk run in update mode announces on the standard error output exactly once every result that it reuses - the bulk analyzer by label, the performance experiment by size and run -, before the row is written and whatever the threads do, and nothing else; the messages change no row.", "quantifier": "every number of threads, every schedule, every list of inputs and of old rows", "why_tests_cant": "schedules of threads are not under control of a test and messages on the standard error output are not tested", "anchors": ["src/bin/bulk_fbas_analyzer.rs: analyze_or_reuse, bulk_do", "src/bin/bulk_performance_experiment.rs: analyze_or_reuse, bulk_do"]}
{"id": "C90", "title": "merge_quorum_set keeps the meaning of quorum sets for whole groups", "statement": "A set of nodes that contains, with each node, all nodes of its group satisfies a quorum set if and only if the merged node set satisfies the merged quorum set.", "quantifier": "every grouping, quorum set and set of whole groups", "why_tests_cant": "nested quorum sets of any depth and all ways of collapsing inner quorum sets and thresholds", "anchors": ["src/analysis/merge_by_group.rs: merge_quorum_set", "src/analysis/merge_by_group.rs: merge_node_set"]}
