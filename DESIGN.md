# Formal model of fbas_analyzer in Rocq/Coq 8.16.1

Sources: `/repo` (read as text). Model, specification and proofs: `rocq/theories`.

## Conventions

* `NodeIdSet` (`bit_set::BitSet`) is a binary number `N`; bit `i` is set iff node `i` is a member.
  Hence Leibniz equality is set equality, as for `BitSet`'s `Eq`. Iteration is in ascending order,
  `Ord` is lexicographic on that iteration.
* `usize`/`u64` are `nat` (unbounded). No overflow is modelled, except of doubled thresholds. See "Not modelled".
* Panics (`assert!`, `unwrap`, index out of bounds) that can be reached with valid ids are values
  `Panic` of the type `res`. The release profile is modelled: a `debug_assert!` does nothing (`M_Debug` models the analysis of a debug build).
* `&mut` arguments are threaded as state, so a forgotten "undo" in the backtracking searches is visible.
* Library parts with many admissible behaviours are *oracles*, universally quantified in the theorems:
  the order of the components from `pathfinding::strongly_connected_components` (record `ext`, predicate
  `ext_ok`) and the node order of `sort_by_rank` (any permutation), random choices of `rand`.
  `std_ext` is a concrete instance, proved admissible (so the hypothesis is met), used to run examples.
* `wf_fbas f`: all validator ids mentioned are ids of nodes. `Fbas::from_json*` always gives such an FBAS;
  on others the code panics with an index error.

## Files

* `BitSet`, `ListUtil` - sets as `N`, `combinations`, `multi_cartesian_product`, sorting.
* `M_*.v` - the model, function by function, each definition citing file and lines; no proofs.
* `Spec.v` - definitions of the notions of the FBAS literature (slice, quorum, minimal quorum, blocking,
  splitting, ...) as `Prop`s that do not use the model's algorithms.
* `P_*.v` - lemmas. `Th_*.v` - one theorem per claim (`exact lemma`), non-vacuity examples, `Print Assumptions`.

## Plan per property

| id | modelled | proof |
|----|----------|-------|
| C01 | `is_quorum_slice` with `take` | induction on nested quorum sets against inductive `slice` |
| C02 | `is_quorum` incl. index panic | from C01 |
| C03 | `find_satisfiable_nodes` loop with fuel | loop invariant: every quorum inside survives |
| C04 | `to_quorum_slices` with itertools semantics | nested induction; minimality for duplicate-free |
| C05 | `contained_nodes*` | nested induction |
| C06 | builder state machine | invariant over operation lists; decimal names injective |
| C07 | same | update lemmas |
| C08 | `from_raw` | sort canonicity under permutation |
| C09 | `to_raw`, `from_raw` | nested induction, sortedness invariant |
| C10 | SCC oracle + filter | from oracle specification |
| C11 | `relevant_nodes` | a successor-closed part of a quorum is a quorum |
| C12 | search, symmetric shortcut | search invariant, any order |
| C13 | `find_minimal_sets` sorting | sortedness, no duplicates, antichains (`P_ListOrder`). Expected to fail for duplicate validators, except for splitting sets |
| C14 | `has_quorum_intersection` | from C12 + C23 |
| C15 | nonintersecting search | invariant over the search tree; pick bound n/2 |
| C16 | front end | from C14, C15. Expected to fail: panics without quorums |
| C17 | blocking search, symmetric shortcut, product | duality. Expected to fail for duplicates and for unsatisfiable inner sets |
| C18 | splitting search, heuristics, symmetric shortcut | Expected to fail for some nested symmetric clusters |
| C19 | `top_tier` | hitting set duality |
| C20 | `Analysis` as state machine | invariant over call sequences. Expected to fail where C17 fails |
| C21, C22 | shrinking | renaming lemmas |
| C23, C24 | `sets.rs` | list induction |
| C25, C26 | results post processing | from C17, C18 semantics |
| C27, C28 | groupings, merging | induction. C28 expected to fail; exact condition in `Th_Merging.v` |
| C90 | merging, the other direction | induction; fails when a quorum set collapses although inner sets are left |
| C29-C31 | results | list induction. C30 expected to fail for `involved_nodes` |
| C32, C33 | symmetric clusters | closed subset of a component is the component |
| C34 | standard form | canonical sorting. Idempotence expected to fail; then: exactly when it holds, and that repeating it settles (node count decreases) |
| C35, C36 | io/groupings | list induction. C36 expected to fail (empty, non-ASCII) |
| C37, C38 | thresholds | Flocq binary64 rounding |
| C39-C43 | simulation | invariants under arbitrary shuffles / choices |
| C44-C49 | graphs | invariants; C44, C45, C48 expected to fail in corner cases |
| C50 | rank as binary64 | no-NaN invariant with Flocq |
| C51 | bulk task list | list induction |
| C52, C53 | core | corollaries of exactness; for exact renamings of ids (`relabelling`) equivariance of every step of the search, without the conditions of C17/C18 |
| C54 | derived `Deserialize` on JSON trees | reading fields commutes; induction on trees |
| C55 | groupings `from_raw`, `to_raw` | list induction |
| C56 | AS relationship text | splitting lemmas, invariant over lines |
| C57 | small world graphs | invariant: each node owns k/2 links |
| C58-C60 | graph based configurators | what every visit establishes and keeps |
| C61 | rank scores | scores pushed along links equal scores collected per node |
| C62 | bulk runs | sorted lists that correspond label by label correspond entry by entry |
| C63 | bulk inputs | splitting lemmas; counting recognized files |
| C64 | bulk rows | invariant of the analysis, merged results |
| C65 | io/core_types, io/groupings | fields of a name, induction on JSON trees |
| C66-C68 | command line tool | invariant of the analysis; printed values are functions of the listed sets |
| C69 | performance experiment: rows | the task list as a map from experiments |
| C70 | performance experiment: FBASs | counting the slices of the quorum set, its dual and its splitter; no symmetric cluster is left. Expected to fail for one node |
| C71 | simulator as a program | every visited node gets what its policy says, whatever came before; policies panic only for lack of nodes; printed names of nodes that do not exist are dropped when read. Expected to fail for graphs with more nodes than the FBAS |
| C72 | graph generator as a program | C45-C48, C57 for the text; no isolated nodes, so that nothing is lost; composition with C71. Expected to fail for isolated nodes |
| C73 | JSON texts: used parts of serde_json | reader correct and complete for the grammar, with fuel by length; printed text by induction on trees. Expected to fail for deep nesting |
| C74 | texts printed by the command line tool | documents of the grammar of C73; strings are escaped, so no line breaks; injectivity from the unambiguity of the grammar. Expected to fail for pretty symmetric clusters |
| C75 | CSV texts | automaton against a grammar of records; quoted fields by induction; columns by name; cutting a written text leaves whole lines and one partial record. Expected to fail: durations cut off |
| C76 | texts of floating point numbers | reading = correct rounding (Flocq division); 17 digits separate doubles; search for the shortest decimal |
| C77 | comparing, hashing, reusing | structural induction for order and hash; standard form keeps quorums by key, so everything defined from quorums; invariant of the cache |
| C78 | post-analysis of the example | results without nodes are minimal for 'together with these nodes'; least sizes carried over by key; merged results and by_groups |
| C79 | sizes, minimal sets, shrunken groupings | unshrinking preserves size, inclusion and order; images under equivalent maps have equal sizes |
| C80 | debug assertions and overflow checks | the debug functions are below the release ones in the order "panics or is the same"; listed sets are sorted antichains; quorums, blocking sets and splitting sets of shrunken FBASs have no repetitions if the relevant nodes mention no relevant node twice |
| C81 | threads | invariant: written rows, tasks in the pool and upcoming tasks are the task list; work left decreases with every event |
| C82, C83 | analyzers on any FBAS | the calls of both programs form harmless histories (C17, C18 refute the rest); merging keeps properties that larger sets share |
| C84 | three programs in a row, as texts | what is printed is a document of small, flat quorum sets; all nodes together satisfy flat quorum sets whose thresholds fit |
| C85 | all arguments of graph generation | case analysis over the arguments; with `k = n` there is nothing to choose, with `k = 0` nothing to rewire |
| C86 | reading any text as an AS relationship file | decimal numerals as an inductive relation, equal to Coq's `uint_of_string` by Horner's rule; the lines of a text as a relation; the fold keeps `read_inv` (C56) |
| C87 | messages of `fbas_analyzer` on the standard error output | a text together with a result that may be a panic; a relation between the text and the list of messages, decimal numerals as in C74; case analysis over the options |
| C88 | messages of `qsc_simulator` and `graph_generator` | as C87; a policy can be made iff its graph can be read (C71), sizes of generated graphs (C72) |
| C89 | messages of the bulk programs about reused results | the pool of C81 with the tasks that have finished, in the order in which they did; tasks that reuse are those of the old rows (C51, C69) |

"Expected to fail": the code is believed to violate the statement. Then `..._refuted` exhibits a concrete
input computed in the model and `..._partial` proves the statement under the exact missing condition.

## Trusted base

* Coq 8.16.1's kernel (including `vm_compute`, used in examples and counterexamples).
* That the model says what the code does. Every definition cites the lines it models.
* The specification files `Spec.v`, `Spec_Analysis.v`, `Spec_Groupings.v`, `Spec_Renumber.v`, `Spec_IO.v`, `Spec_Json.v`, `Spec_JsonText.v`, `Spec_SimGraph.v`, `Spec_GraphIO.v`, `Spec_Simulation.v`, `Spec_Rank.v`, `Spec_Bulk.v`, `Spec_Cli.v`, `Spec_CliText.v`, `Spec_Performance.v`, `Spec_Csv.v`, `Spec_Debug.v`, `Spec_ReuseMessages.v`, `Spec_Merging.v`, `Spec_Growth.v`, `Spec_FloatText.v`, `Spec_CsvFile.v`, `Spec_Bins.v`, `Spec_Reuse.v`, `Spec_Histories.v`, `Spec_Parallel.v`, `Spec_CliAny.v`, `Spec_BulkAny.v`, `Spec_Pipeline.v`, `Spec_CliCount.v`, `Spec_AsRel.v`, `Spec_Layout.v`, `Spec_Messages.v`, the predicate `ext_ok` in `M_Ext.v`.
* `Print Assumptions` is run after every theorem. All theorems are "Closed under the global context", except those
  of `Th_Float.v` (C29, C37, C38, C50) and most of `Th_Simulation.v` (C39-C43, C58-C60)
  and `Th_Rank.v` (C61) and part of `Th_Bulk.v` (C62, C64) and most of `Th_Cli.v` (C66-C68) and `Th_CliText.v` (C74) and `Th_Performance.v` (C69, C70) and `Th_Csv.v` (C75) and `Th_FloatText.v` (C76) and part of `Th_Bins.v` (C71, C72_piped) and part of `Th_Parallel.v` (C81) and `Th_CliAny.v` (C82) and `Th_BulkAny.v` (C83) and `Th_Pipeline.v` (C84) and part of `Th_Repeat.v` (C68) and part of `Th_Messages.v` (C87, C88) and part of `Th_ReuseMessages.v` (C89) and part of `Th_Growth.v` (C40, C42), which mention the double precision numbers of Flocq and therefore the axioms
  of Coq's standard library real numbers: `ClassicalDedekindReals.sig_forall_dec`, `ClassicalDedekindReals.sig_not_dec`,
  `FunctionalExtensionality.functional_extensionality_dep`, `Classical_Prop.classic`. No axiom is added by this project.

## Modelled

| file in /repo/src | model |
|---|---|
| `core_types/{core_types,sets,fbas...}` | `M_Core`, `M_Sets` |
| `core_types/shrinking.rs` | `M_Shrinking`, `M_Groupings` |
| `core_types/groupings.rs`, `analysis/merge_by_group.rs` | `M_Groupings` |
| `analysis/preprocessing.rs` | `M_Preprocessing`; ranking in `M_Float` |
| `analysis/{quorums,blocking...,splitting...,symmetric...}` | `M_Quorums`, `M_Blocking`, `M_Splitting` |
| `analysis/front_end.rs` | `M_FrontEnd` |
| `analysis/results.rs`, `io/results.rs` | `M_FrontEnd`, `M_Groupings`, `M_Float` (mean) |
| thresholds of `simulation/qsc/mod.rs` | `M_Float` |
| `io/core_types.rs`, `io/groupings.rs`, `to_standard_form` | `M_IO` (JSON as trees), `M_JsonText` (JSON as text: used parts of serde_json; values of unknown fields are skipped without depth limit and may have unpaired surrogates; whether `-0` is an integer is a parameter) |
| `simulation/graph.rs` (scores in `M_Simulation`) and the used parts of `rand` (any stream of random numbers) | `M_SimGraph` (debug assertions included) |
| `simulation/{mod,monitors}.rs`, `simulation/qsc/` | `M_Simulation` (shuffles and choices from any stream of random numbers) |
| `io/graph.rs` (text, not files) | `M_GraphIO` (a carriage return at the very end of the text is dropped, as older versions of Rust do; C86 leaves such texts out) |
| `bin/bulk_fbas_analyzer.rs` | `M_Bulk` (files as JSON trees, the CSV file as its rows; `M_Csv` has the texts of CSV files, that is, the used parts of csv 1.1, with two version dependent points as parameters; what the clock measures is a parameter; paths are UTF-8; the hash function is a parameter; results arrive in the order of tasks, which `M_Parallel` justifies) |
| `bin/fbas_analyzer.rs`, `AnalysisResult` of `io/results.rs` | `M_Cli` (parsed options; output as the values behind the printed lines and the comments; no durations, no verbosity), `M_Messages` (messages on the standard error output, also of `bin/qsc_simulator.rs` and `bin/graph_generator.rs`; not the log, not what a panic prints, not the messages of the bulk programs about reused results), `M_CliText` (input and output as texts; the texts of floating point numbers and durations are parameters; `M_FloatText` has the format of floating point numbers of ryu, as used by serde_json and csv, and `f64::from_str`, both by their documented behaviour) |
| `bin/bulk_performance_experiment.rs` | `M_Performance` (as in `M_Bulk`) |
| `bin/qsc_simulator.rs`, `bin/graph_generator.rs` | `M_Bins`, `M_Pipeline` (the printed text) (parsed options; readable texts are given; JSON as trees; how a floating point number is formatted is a parameter) |
| `Hash`, `Ord`, `PartialEq` of FBASs; `/repo/examples/results_reuse.rs` | `M_Reuse` (hashing as the values written into the hasher; a cache used for any sequence of FBASs; the numbers and names behind the printed sentences; not the SHA3 digest) |
| `debug_assert!`s in `analysis/sets.rs` and `analysis/quorums.rs`, the overflow check of the doubled threshold in `analysis/splitting_sets.rs`, and all functions that reach them | `M_Debug` |
| `bulk_do` of both bulk programs with `--jobs` | `M_Parallel` (par-map by its documented behaviour; events of a schedule are given as a list), `M_ReuseMessages` (what is said about reused results) |

## Not modelled

* Logging, command line parsing, file access.
* Integer overflow of `usize`, except where a threshold is doubled (`doubled` in `M_Splitting`): numbers are unbounded. In the analysis, thresholds are the only numbers not bounded by the available memory, and they are added to or multiplied nowhere else. Conversions between `usize` and `f64` are modelled.
* Memory limits and running time.

## Seeded wrong programs

`seeded/LOG.jsonl` has one line per wrong program. `failed_theorems` are the theorems whose proofs, or the proofs of
lemmas they use, no longer go through after the edit. A proof that fails does not show that its statement is false;
where we found that a statement stayed true although the claim was broken, the line has a note.
