# Formal model of Mt-KaHyPar in Rocq (Coq 8.16.1)

The source is `/repo` (read as text, never built). The model lives in `rocq/theories`; every model definition cites the file
and lines it transcribes. (This file is generated by `tools/design.py` from `tools/design_head.md`, `tools/design_tail.md`,
`tools/claims.py` and the output of `Print Assumptions`.)

## Layout

* `Spec.v` (hypergraph, partition, block weight, pin count, connectivity, cut / km1 / soed, balance), `TargetSpec.v` (distances and Steiner
  trees), and small specification sections at the top of other files (`extracted` in `Extract.v`, grammars in `IORead*.v`, `prefix` in
  `Rollback.v`, ...): what the English properties talk about, written without the code's algorithms.
* Model files transcribe the code function by function; `*Proofs.v` and the second half of the other files contain the lemmas;
  theorems that answer a property start with its id (`C24_...`). Beside each theorem an `Example ex_Cxx` (or an existence
  theorem) shows a concrete, non-trivial case that meets its hypotheses.
* Names with `_refuted_` prove that a tempting stronger reading of the property is false of the code as it is (a finding), always next
  to the strongest reading that could be proved.

## Modelling conventions

* Node, hyperedge and block ids are `nat`; weights and gains are `Z`, unbounded unless the property is about overflow or wrap-around, in
  which case the wrap is written out (`mod 2^32`, `mod 2^64`, int32 range checks).
* Arrays are total functions with point update; ids outside the array are excluded by an explicit guard: an operation whose
  release-build behaviour would be undefined (violated `ASSERT`, out-of-bounds access, division by zero, out-of-range conversion)
  returns `None` (or a distinct fault value). Theorems state either that `None` cannot occur or what holds when it does not.
* Concurrency: interleaving small-step semantics; each atomic read-modify-write, atomic load/store and lock operation is one step; any
  thread may take the next step. Memory is sequentially consistent: weak-memory reorderings of the relaxed accesses are not modelled.
* `tbb::parallel_for` / `parallel_reduce` / `parallel_scan` are modelled by arbitrary orders (permutations) or arbitrary
  split/join trees, and the theorems quantify over them.
* Floating point: where a property depends on it (`Weights.v`, `Api.v`), IEEE double arithmetic through Flocq's rounding operator (no NaN / infinity).
* `std::sort` is an arbitrary sorting function where ties matter, otherwise insertion sort (the result is unique).

## Properties: what is modelled and how it is proved

| id | property | theorems (file) | model and proof | status |
|---|---|---|---|---|
| C01 | Block weights are exact | `C01_block_weights_exact` (PropsA) | PartitionedHypergraph operations as state transformers; induction over API histories (invariant `consistent`) | proved |
| C02 | Pin counts and connectivity are exact | `C02_pin_counts_and_connectivity_exact` (PropsA) | as C01: pin counts, connectivity sets, border-node query. Note: isBorderNode: by design false above degree 100000; statement restricted accordingly | proved |
| C03 | A rejected move has no effect, an accepted move moves exactly one node | `C03_move_frame` (PropsA) | frame of changeNodePart: only the moved node, two block weights and the pin counts of incident hyperedges change | proved |
| C04 | Concurrent moves leave consistent data (all schedules) | `C04_concurrent_moves_consistent` (PropsA) | interleaving semantics of changeNodePart (Conc.v), any number of threads; invariant relating counters to the in-flight threads; quiescent states are consistent and equal the replay of the reported results. Note: sequentially consistent interleavings; also identifies the final assignment with the replay of the reported results | proved |
| C05 | Concurrent moves never overload a block (all schedules) | `C05_concurrent_moves_balanced` (PropsA) | same semantics; a block above its limit is always covered by in-flight reservations. Note: at every reachable state | proved |
| C06 | Attributed gains sum to the change of the objective (all schedules) | `C06_attributed_gains_sum` (PropsA) | potential argument over the log of SynchronizedEdgeUpdates per hyperedge | proved |
| C07 | km1 gain cache is exact and predicts the objective change | `C07_km1_gain_cache_exact` (PropsA)<br>`C07_dirty_only_moved` (PropsA) | closed form of penalty and benefit terms is an invariant of initialization + deltaGainUpdate | proved |
| C08 | cut gain cache is exact and predicts the objective change | `C08_cut_gain_cache_exact` (PropsA) | as C07 for the cut gain cache | proved |
| C09 | soed gain cache is exact and predicts the objective change | `C09_soed_gain_cache_exact` (PropsA) | as C07 for the soed gain cache | proved |
| C10 | Gain cache entries of unmoved nodes stay exact under every schedule | `C10_km1_cache_concurrent` (PropsA)<br>`C10_cut_cache_concurrent` (PropsA)<br>`C10_soed_cache_concurrent` (PropsA) | gain cache micro operations interleaved with the moves; pending operations are accounted for in the invariant | proved |
| C11 | Objective functions mean what the documentation says | `C11_metrics_exact` (Metrics)<br>`C11_objective_relations` (Metrics) | metrics as reductions over arbitrary split trees | proved |
| C12 | Reported contribution of a restored hyperedge matches the objective | `C12_contribution_exact` (Metrics)<br>`C12_contribution_cut_is_soed` (Metrics)<br>`C12_refuted_for_cut` (Metrics) | contribution(): exact for km1/soed/steiner; the cut version is refuted. Note: finding for cut stated and proved | proved |
| C13 | Packed pin counters behave as an array of counters | `C13_packed_counters_are_counters` (PinCounts) | bit-level codec of packed pin counts over integers mod 2^64 | proved |
| C14 | Connectivity sets behave as sets | `C14_connectivity_sets_are_sets` (ConSet)<br>`C14_elements_sorted` (ConSet)<br>`C14_iteration_refuted_for_large_index` (ConSet) | bit-level connectivity sets; iterator. Note: finding: 32-bit index product | proved |
| C15 | Sparse (large-k) pin counts behave like dense ones | `C15_sparse_pin_counts_are_a_map` (SparsePC) | SparsePinCounts inline/external lists as a finite map | proved |
| C16 | Thread-local delta partition is the partition with the local moves applied | `C16_overlay_is_faithful` (Delta)<br>`C16_clear` (Delta) | DeltaPartitionedHypergraph overlay; simulation relation with the partition that would result | proved |
| C17 | Thread-local delta view never confuses two hyperedges | `C17_overlay_keys_unique` (Delta)<br>`C17_refuted_beyond_32_bits` (Delta) | hash keys of the overlay. Note: finding: 32-bit key product | proved |
| C18 | Contraction preserves weight and node mapping | `C18_contraction_weights` (ContractProofs) | StaticHypergraph::contract, every schedule as explicit input. Note: every schedule; vertex ids unbounded with one reserved id | proved |
| C19 | Contraction preserves the objective | `C19_contraction_objective` (ContractProofs) | objective of a coarse partition equals the objective of its projection. Note: needs non-empty hyperedges and a complete coarse partition | proved |
| C20 | Contraction yields a well-formed hypergraph | `C20_contraction_wellformed` (ContractProofs) | well-formedness of the coarse hypergraph | proved |
| C21 | Fixed vertices survive coarsening | `C21_fixed_vertices_concurrent` (Fixed)<br>`C21_uncontract_restores` (Fixed2)<br>`C21_projection_static` (Fixed2)<br>`C21_refuted_zero_weight` (Fixed2) | FixedVertexSupport with interleaved contract calls. Note: finding: not if the total fixed weight is zero | proved |
| C22 | Fixed vertices end in their block | `C22_fixed_vertices_enforced` (Fixed2)<br>`C22_refuted_zero_weight` (Fixed2) | enforcement of fixed vertices after partitioning. Note: finding: not if the total fixed weight is zero | proved |
| C23 | Fixed vertex input is validated | `C23_add_fixed_vertices` (Fixed2) | API entry for fixed vertices | proved |
| C24 | Recursive bipartitioning assigns every node to a block of its range | `C24_recursive_bipartitioning` (RB)<br>`C24_always_completes` (RBExamples) | inductive relation `rb` over all bipartitions and all task interleavings; induction over the recursion; existence of runs by well-founded induction on k. Note: rb is a relation over all bipartitions and all interleavings of the recursive tasks; C24_always_completes shows that runs exist for every input | proved |
| C25 | Cut-net splitting/removal makes recursive bipartitioning objectives additive | `C25_km1_additive` (RBCost)<br>`C25_cut_additive` (RBCost)<br>`C25_soed_additive` (RBCost)<br>`C25_recursive_bipartitioning` (RBCost)<br>`C25_rb_objectives` (RBCost)<br>`C25_extract_any_schedule` (RBExamples)<br>`C25_extract_quiet` (RBExamples)<br>`C25_refuted_concurrent_extract` (RBExamples)<br>`C25_refuted_keeps_cut_edge` (RBExamples)<br>`C25_soed_overflow` (RBExamples) | hyperedge-wise additivity lemma, then induction over `rb`; refutations by concrete interleavings. Note: with cut-net splitting for every schedule; for the cut objective under the hypothesis that no move is in progress while a block is extracted; C25_refuted_* show that this hypothesis is needed in the code as it is | proved |
| C26 | FM rollback recomputes the true gains of a move sequence | `C26_recalculated_gains_exact` (RollbackProofs)<br>`C26_each_hyperedge_once` (RollbackProofs)<br>`C26_iteration_covers` (RollbackProofs) | gain recalculation of a global move sequence; per-hyperedge case analysis by first-in/last-out/remaining pins. Note: hyperedge selection as with iter_moves_on_recalc; the other branch (all ids) is covered if it only visits enabled hyperedges | proved |
| C27 | FM rollback keeps the best balanced prefix | `C27_best_balanced_prefix` (Scan)<br>`C27_split_independent` (Scan)<br>`C27_parallel_rollback_round` (SeqRollback)<br>`C27_sequential_rollback_round` (SeqRollback) | best prefix scan under any split tree of tbb::parallel_scan; sequential variant. Note: both rollback variants; requires non-negative node weights | proved |
| C28 | Reverting moves restores the prefix partition | `C28_revert_restores_prefix` (Revert) | parallel revert as a concurrent run of Conc.v. Note: all interleavings of the reverting moves | proved |
| C29 | Restored isolated nodes are assigned and balanced | `C29_isolated_nodes_restored` (RestoreProofs) | bin packing of isolated nodes; induction over the restored nodes. Note: Greedy bin packing of restored isolated nodes: all assigned, heaviest first, each into a block with the largest remaining capacity, weights exact, connectivity unchanged, overload at most (k-1)/k of one restored node's weight; balanced for weights <= 1. | proved |
| C30 | Removing and restoring hyperedges is lossless | `C30_remove_restore_hyperedges` (EdgeRemoval)<br>`C30_all_restored` (EdgeRemoval)<br>`C30_restore_in_partition` (RestoreProofs) | swap-based incidence arrays, history invariant. Note: Swap-based incidence arrays after any history of removals and restorations; restoring in a partition in any order and with any schedule keeps exact bookkeeping. | proved |
| C31 | mt_kahypar_improve_partition returns a consistent partition of the complete hypergraph for every num_vcycles >= 1 | `C31_improve_consistent` (RestoreProofs)<br>`C31_zero_vcycles_nothing_removed` (RestoreProofs)<br>`C31_refuted_zero_vcycles` (RestoreExamples)<br>`C31_refuted_zero_vcycles_weights` (RestoreExamples)<br>`C31_refuted_other_modes` (RestoreExamples) | composition of preprocessing, V-cycles and postprocessing. Note: num_vcycles >= 1 in mode direct proved for all V-cycle results obtained through the API; num_vcycles = 0 and other modes refuted by concrete runs. | proved |
| C32 | Reading a number accepts exactly the representable ones | `C32_read_number` (IORead) | digit parser with 64-bit bound. Note: every digit string and bound | proved |
| C33 | hMetis files are read as written | `C33_hmetis_read` (IORead2)<br>`C33_refuted_comment_between_weights` (IORead3) | hMetis reader over byte strings against an independent grammar, any number of ranges. Note: every file of an independently stated grammar, every number of ranges; finding: a comment between vertex weights is rejected | proved |
| C34 | Reading a file never reads outside the mapped file | `C34_no_access_outside_file` (IOSafe)<br>`C34_refuted_page_multiple` (IOSafe) | every read of the memory-mapped file has its offset checked. Note: every byte string, every number of ranges, both readers; finding: files whose size is a page multiple are read one byte behind the mapping | proved |
| C35 | Partition files round-trip | `C35_read_partition` (PartFile)<br>`C35_partition_roundtrip` (PartFile)<br>`C35_refuted_garbage_accepted` (PartFile) | partition files. Note: all partitions and all whitespace separated integer files; finding: a non-integer or overflowing entry silently ends the file | proved |
| C36 | Hypergraph construction validates input and is schedule independent | `C36_construct` (Construct)<br>`C36_adjacency_array` (Construct)<br>`C36_refuted_max_vertices` (Construct) | parallel CSR construction; prefix sums and fetch-add positions in any order. Note: every schedule of the parallel construction; finding: n = 2^32-1 passes the overflow check but the vertex array size wraps to 0 | proved |
| C37 | Graph construction validates input and stores both directions consistently | `C37_construct_graph` (GraphConstruct)<br>`C37_create_graph` (GraphConstruct)<br>`C37_graph_from_hyperedges` (GraphConstruct)<br>`C37_schedule_independent` (GraphConstruct)<br>`C37_refuted_parallel_edges` (GraphConstruct) | graph construction including the in-place permutation. Note: static graphs; every schedule, every outcome of std::sort among equal targets; the cycle-chasing permutation loop is proved to terminate and be correct; finding: with parallel edges the order of incident edges depends on the schedule | proved |
| C38 | Block weight limits are computed as documented and are feasible | `C38_uniform_limits` (Weights)<br>`C38_individual_limits` (Weights)<br>`C38_node_weight_limit` (Weights)<br>`C38_refuted_overflow` (Weights) | IEEE doubles through Flocq's rounding operator. Note: IEEE double arithmetic via the Flocq rounding operator (real-number axioms of the standard library); finding: the sum of individual limits is accumulated in int and overflows | proved |
| C39 | Balance check means what it says | `C39_balance_check` (Metrics)<br>`C39_imbalance` (Metrics) | balance check and imbalance | proved |
| C40 | Context parameters are validated and read back | `C40_unchanged_on_error` (Api)<br>`C40_objective` (Api)<br>`C40_verbose` (Api)<br>`C40_num_blocks` (Api)<br>`C40_not_a_number` (Api)<br>`C40_refuted_negative_blocks` (Api)<br>`C40_refuted_fraction` (Api) | parameter strings. Note: all strings; decimal part of strtod modelled (hexadecimal, inf and nan are not); findings: negative, zero and fractional block counts and trailing garbage are accepted and never rejected later | proved |
| C41 | Preset compatibility is enforced | `C41_partition` (Compat)<br>`C41_improve` (Compat)<br>`C41_create` (Compat)<br>`C41_preset_roundtrip` (Compat) | preset/type compatibility table. Note: all presets, data structures and contexts; all optional features compiled in | proved |
| C42 | Distances in the target graph are shortest path lengths | `C42_distances_are_shortest_paths` (TargetGraph)<br>`C42_refuted_parallel_edges` (TargetGraph) | Floyd-Warshall as written, 32-bit distances. Note: simple target graphs (no self loops, no parallel edges of different weight), pairwise distances below kInvalidDistance; finding: with parallel edges the last one wins | proved |
| C43 | Querying a distance does not change the connectivity set | `C43_queries_leave_set_unchanged` (TargetIndex)<br>`C43_index_injective` (TargetIndex)<br>`C43_index_in_table` (TargetIndex) | bit-set queries and table index | proved |
| C44 | A node is owned by at most one FM search | `C44_single_owner` (Tracker)<br>`C44_refuted_many_tasks` (Tracker) | interleaving semantics of node acquisition. Note: all interleavings and any number of rounds, including the reset of the 32-bit search ids; finding: with more than 20 tasks the id reserve is exceeded | proved |
| C45 | Move ids are unique and dense | `C45_move_ids` (Tracker)<br>`C45_round_ok` (Tracker) | interleaving semantics of move numbering. Note: all interleavings and rounds; C45_round_ok discharges the precondition of the rollback theorems | proved |
| C46 | Parallel prefix sums equal sequential prefix sums | `C46_parallel_prefix_sum` (PrefixSum)<br>`C46_tbb_prefix_sum` (PrefixSum) | parallel prefix sum under any split/join order. Note: every split/join order of the scan | proved |
| C47 | Priority queue returns a maximum-priority element | `C47_priority_queue` (PQ) | d-ary heap with handles. Note: any arity >= 2, several heaps sharing one handle array; integer keys, comp = less; 32-bit position overflow not modelled | proved |
| C48 | Concurrent moves cannot deadlock and always finish | `C48_no_deadlock` (PropsA)<br>`C48_moves_terminate` (PropsA) | deadlock freedom and a decreasing measure for Conc.v | proved |
| C49 | Metis files are read as written | `C49_metis_read` (IORead3)<br>`C49_refuted_missing_line` (IORead3) | Metis reader against an independent grammar. Note: every file of an independently stated grammar, every number of ranges; finding: a missing vertex line is rejected or accepted depending on the number of threads | proved |
| C50 | Precomputed Steiner tree weights are optimal | `C50_precomputed_steiner_trees` (Steiner)<br>`C50_enumerator_complete` (Steiner)<br>`C50_refuted_two_blocks` (Steiner) | Dreyfus-Wagner as written, against the minimum over all connecting edge sets. Note: finding: mt_kahypar_steiner_tree precomputes for 4 blocks even if k = 2, where the enumerator loop never ends | proved |
| C51 | Distances of large block sets are within a factor of two of the optimum | `C51_mst_two_approximation` (Mst)<br>`C51_mst_between_opt_and_twice_opt` (Mst) | Prim's algorithm as written, 2-approximation | proved |
| C52 | Block set distances do not depend on earlier or concurrent queries | `C52_answers_history_independent` (Mst)<br>`C52_distance_within_factor_two` (Mst)<br>`C52_refuted_more_than_64_blocks` (Mst) | the cached distance query is a function. Note: finding: more than 64 blocks collide in the cache key | proved |
| C53 | Disconnected target graphs are rejected, connected ones accepted | `C53_connectivity_check` (TargetIndex) | connectivity test of the target graph | proved |
| C54 | A partitioning call returns a partition of the complete input hypergraph | `C54_partition_covers_input` (RestoreProofs) | composition of preprocessing, an arbitrary API-conforming partitioner and postprocessing. Note: Composition of sanitize, any partitioner working through the partition API, and postprocessing; includes objective decomposition. forceFixedVertexAssignment is modelled in Fixed.v separately. | proved |
| C55 | Parallel coarsening only merges nodes of the same community | `C55_clusters_respect_communities` (Cluster) | small-step interleaving semantics of matchVertices, one atomic access per step; invariant. Note: sequentially consistent interleavings of atomic accesses; the proposed partner is arbitrary within the community | proved |
| C56 | Parallel coarsening never hangs | `C56_clustering_terminates` (ClusterLive)<br>`C56_clustering_never_stuck` (ClusterLive) | ranking function plus an argument on the functional graph of partners: if all threads spin, some thread leaves the loop (cycle: its smallest node; otherwise: last node of a path). Note: no infinite weakly fair execution without new calls; a thread inside a call can always step | proved |
| C57 | Clusters exceed the maximum node weight by at most one node per additional thread | `C57_cluster_weight_bound` (ClusterWeight)<br>`C57_cluster_weight_sequential` (ClusterWeight)<br>`C57_refuted_exact_limit` (ClusterExact) | invariant counting the weight on its way to a cluster. Note: bound attained by C57_refuted_exact_limit | proved |
| C58 | A coarsening pass reports the clusters it built | `C58_clustering_exact` (ClusterExact)<br>`C58_sequential_clustering_exact` (ClusterExact)<br>`C58_refuted_double_join` (ClusterExact)<br>`C58_refuted_self_join` (ClusterExact)<br>`C58_refuted_representative` (ClusterExact) | ownership invariant; refutations by concrete interleavings. Note: exactness under the stated hypothesis; refutations show it is needed | proved |
| C59 | A V-cycle starts from the given partition | `C59_vcycle_starts_from_partition` (VCycle) | composition of C55 with C18-C20 by induction over the passes. Note: multilevel (non n-level) V-cycles with the multilevel coarsener | proved |
| C60 | Interleaving rebalancing moves yields a sequence the rollback can handle | `C60_interleaved_sequence` (UncRound)<br>`C60_searches_deliver` (UncRound)<br>`C60_ready_for_rollback` (UncRound)<br>`C60_round_quality` (UncRound) | functional model of the merge loop (any order), the recursive insertion (fuel proved sufficient) and renumbering; invariant: emitted ++ todo ++ remaining is a permutation of all moves, tracked weights are the block weights of the prefix. Note: Preconditions are delivered by the concurrent searches (C60_searches_deliver, from the tracker model of C44/C45) and by the rebalancer (C61); the bodies of the parallel merge loop touch disjoint memory and are executed one after another in any order. | proved |
| C61 | The parallel rebalancer only repairs, and reports exactly what it did | `C61_rebalancer` (RebalanceThms)<br>`C61_reported_moves` (RebalanceThms)<br>`C61_calls_legal` (RebalanceThms)<br>`C61_gain_caches` (RebalanceThms)<br>`C61_gives_up_without_candidates` (RebalanceThms) | interleaving semantics of the rebalancer tasks on top of the changeNodePart semantics; node claims as an ownership invariant, overload flags via the committed weight of a block, move ids by a permutation invariant; projection to C05/C06/C10. Note: Sequentially consistent memory; priority queues and target selection are arbitrary choices. It is not claimed that the rebalancer always reaches balance. | proved |
| C62 | Deterministic coarsening does not depend on the schedule | `C62_pass_deterministic` (DetThms)<br>`C62_one_subround_deterministic` (DetThms)<br>`C62_refuted_fixed_vertices` (DetExamples) | each parallel loop is the relation of all its interleavings (ParLoop.v); par_fold: commuting remaining effects give the closed form of the final state, which is symmetric in the nodes; the sorted vector is unique. Note: positive node weights; floating point scores abstract; fixed vertices: one sub-round only (refuted beyond) | proved |
| C63 | Deterministic coarsening keeps its limits and counts its clusters | `C63_pass_valid` (DetThms)<br>`C63_refuted_fixed_block_limit` (DetExamples)<br>`C63_refuted_zero_weight` (DetExamples) | invariant SI between sub-rounds (recorded = actual cluster weights, stale propositions only target grown clusters); refutations by executing the model. Note: positive node weights | proved |
| C64 | Deterministic label propagation never makes a partition worse | `C64_never_worse` (DetLPProps)<br>`C64_completes` (DetLPProps)<br>`C64_revert_loop_ends` (DetLPProps)<br>`C64_refuted_overloaded` (DetLPProps)<br>`C64_example` (DetLPProps) | applying a batch of moves of distinct nodes in any interleaving is a legal changeNodePart history (exact deltas by C05); a batch with negative exact gain is reverted; stage 1 by block-pair budgets, stage 2 by the invalidation loop, whose overload test is a loop invariant and whose number of valid moves decreases. Note: every interleaving; exact gain; terminates; balance preserved; unsigned division bug on overloaded input refuted | proved |
| C65 | Deterministic label propagation does not depend on the schedule | `C65_deterministic` (DetLPProps)<br>`C65_active_nodes` (DetLPProps)<br>`C65_subround_function` (DetLPProps) | the propositions depend only on the partition before the sub-round; the result of an interleaved batch is its closed form; the activation loop is an atomic set insertion, so the queue is a permutation, and the next iteration sees it as a set. Note: two arbitrary interleavings give the same partition and gain | proved |
| C66 | The swap prefixes of two blocks are the longest balanced ones | `C66_recursive_is_sequential` (DetLPProps)<br>`C66_maximal_prefixes` (DetLPProps)<br>`C66_refuted_overloaded` (DetLPProps) | the recursive search equals the sequential one by strong induction on the lengths, using monotone cumulative weights; maximality because feasible pairs are closed under componentwise maximum. Note: recursive = sequential = componentwise maximal | proved |
| C67 | The deterministic rebalancer reports exactly what it did, stops, and does not depend on the schedule | `C67_rebalancer` (DetRebProps)<br>`C67_completes` (DetRebProps)<br>`C67_deterministic` (DetRebProps)<br>`C67_sequential` (DetRebProps)<br>`C67_round` (DetRebProps)<br>`C67_refuted_worse` (DetRebProps)<br>`C67_example` (DetRebProps) | candidates of a round are a function of the partition; each block's sorted vector is unique; concurrent execution of moves of distinct nodes as in C64; overloaded blocks are never targets, so the prefix rule gives the weight after the round; refutation by executing the sequential function. Note: every interleaving; hypergraph version | proved |
| C68 | The Jet afterburner computes exact gains under every schedule | `C68_afterburner_exact` (AfterburnerProps)<br>`C68_deterministic` (AfterburnerProps)<br>`C68_completes` (AfterburnerProps)<br>`C68_total_gain` (AfterburnerProps)<br>`C68_example` (AfterburnerProps)<br>`C68_refuted_soed` (AfterburnerProps) | per hyperedge: induction over the sorted movers with the pin counts of the partition in which all earlier candidates have moved, two-pin hyperedges by cases; per loop: invariant 'stored gain plus pending additions = sum over claimed hyperedges'; telescoping over the sorted candidates for the total; refutation for soed by a concrete instance. Note: exact for cut and km1; for soed only if there are no two-pin hyperedges (the code counts their weight once: C68_refuted_soed) | proved |
| C69 | Deterministic Jet never returns a worse partition | `C69_never_worse` (JetProps)<br>`C69_round` (JetProps)<br>`C69_example` (JetExamples)<br>`C69_refuted_return` (JetExamples) | invariant over rounds: best metrics belong to the best partition (current or saved), which is acceptable iff the flag says so and is not worse than the input; rollback reproduces the saved partition; the moves of a round by C68; refutation of the stronger reading of the return value by a concrete run. Note: gain functions, negative gain factor, improvement threshold and imbalance are arbitrary functions; the gain cache is not initialized | proved |
| C70 | Deterministic Jet is deterministic and ends | `C70_deterministic` (JetProps)<br>`C70_completes` (JetProps) | the round is a function of the partition, locks and flags (C67, C68, concurrent moves); lockstep induction over two runs; termination by lexicographic induction: balanced flag, objective or number of weight vectors with smaller imbalance, remaining rounds | proved |
| C71 | The best move of a node is computed exactly | `C71_gain_exact` (GainCompProps)<br>`C71_best_block` (GainCompProps)<br>`C71_rebalance_move` (GainCompProps)<br>`C71_example` (GainCompProps) | per objective: the precomputed scores are the sums over the hyperedges of the change of the edge cost (connectivity sets, pin counts); loop invariants of the scans over scores and over non-adjacent blocks: the current choice is feasible, exact and not worse than all blocks seen, for every coin. Note: km1, cut and soed; Steiner tree gains are not modelled | proved |
| C72 | Sequential label propagation never returns a worse partition | `C72_never_worse` (LPProps)<br>`C72_completes` (LPProps)<br>`C72_example` (LPProps) | contracts for the move loop (exact delta by the attributed gains, C71 gives d <= 0), the rebalancer (C61) and the rollback; invariant over rounds: the stored old blocks are the current blocks for all initialised nodes; a failed round is undone exactly because the union of moved and appended nodes covers all changes. Note: hypergraphs; sequential execution; the improvement threshold and the imbalance are arbitrary functions | proved |
| C73 | Parallel label propagation keeps the partition data consistent under every schedule | `C73_parallel` (LPParProps)<br>`C73_constrained` (LPParProps)<br>`C73_calls_legal` (LPParProps)<br>`C73_flags_in_bounds` (LPParProps)<br>`C73_refuted_quality` (LPParProps)<br>`C73_refuted_rollback` (LPParProps) | LPPool.v is a pool of tasks over a list of nodes whose changeNodePart calls run step by step on the machine of Conc.v without its guards; LPPoolThms.v proves the invariant that gives the guards (each node owned by at most one task, the node is where the task thinks it is, weights in flight accounted); LPPar.v instantiates it with moveVertex (any target and gain that passes the tests, since the reads race) and with the rollback; LPParProps.v plugs both and the rebalancer of C61 into the round structure of C72. The two refutations are evaluated executions.. Note: All interleavings of the parallel loops of label propagation (moves, their reverts, activation), any number of threads, composed with the parallel rebalancer of C61 over all rounds. The usage contract of concurrent moves is proved, not assumed. Two refutations with concrete executions of the code as it is: quality can get worse; a node can be rolled back by two tasks at once, which corrupts the block weights (C73_parallel therefore excludes rollbacks with a repeated node). | proved |
| C74 | Multi-try k-way FM never returns a worse partition, whatever its concurrent searches do | `C74_fm_never_worse` (FMThms)<br>`C74_searches` (FMThms)<br>`C74_round_never_fails` (FMThms)<br>`C74_example` (FMExample) | FMRound.v is the product of the tracker machine (Tracker.v) and the pool of step-by-step changeNodePart calls (LPPool.v), with insertMove between the weight update and the hyperedge loop; an invariant over every reachable state links node status, local moves, calls in progress and recorded moves, gives the contract of changeNodePart and, when all tasks have returned, that the recorded sequence replays to the partition; FMRefine.v composes rounds with the rebalancer (C61), the interleaving (C60) and both rollbacks (C26-C28); FMExample.v runs a two-thread round through a sound executable version of the machine. Simplified: the gain cache values, priority queues and delta partition of the searches are replaced by arbitrary choices; only the advanced rebalancer is used. Note: for every interleaving and every choice of the searches; at most 20 tasks per round (more: C44_refuted_many_tasks) | proved |
| C75 | Flow-based refinement never makes a partition worse and never overloads a block | `C75_flow_never_worse` (FlowApplyProps)<br>`C75_call_outcome` (FlowApplyProps)<br>`C75_gain_cache` (FlowApplyProps)<br>`C75_cached_gains` (FlowApplyProps)<br>`C75_example` (FlowApplyProps) | FlowApply.v models applyMoves statement by statement (weight deltas, block-wise weight update with undo loop, application with improvement and new cut hyperedges, rollback) over the sequential partition model; since applyMoves runs under a lock an execution is a list of calls with arbitrary sequences. Invariant: tracked weights = block weights <= limits, which makes the failing rollback impossible; the outcome of a call is characterised exactly by the partition the sequence leads to; the gain cache trace is a session of C07-C09.. Note: the flow computations themselves are arbitrary; total weight below 2^31, non-negative node weights | proved |
| C76 | Deterministic flow refinement: concurrent application equals isolated application | `C76_matching` (DetFlowProps)<br>`C76_new_blocks` (DetFlowProps)<br>`C76_schedule_independent` (DetFlowProps)<br>`C76_refine` (DetFlowProps)<br>`C76_deterministic` (DetFlowProps)<br>`C76_completes` (DetFlowProps)<br>`C76_example` (DetFlowProps) | `DetFlow.v` runs one task per block pair on the machine of `Conc.v` without its guards; `DetFlowThms.v` proves an invariant: the updates logged by a task are exactly those of its sequence applied alone (`slog`), because the pin counts of a block are only changed by the task of its pair; `DetFlowProps.v` concludes. Whole refinement: `det_flow`, scheduling decisions and flow results as an arbitrary function of the partition and the reports.. Note: Application of the results and metric bookkeeping of deterministic flow refinement under every interleaving; flow computation arbitrary. | proved |
| C77 | Deterministic flow refinement schedules every active block pair exactly once per round, in matchings | `C77_round` (ParticipationProps)<br>`C77_maximal` (ParticipationProps)<br>`C77_stops` (ParticipationProps)<br>`C77_sorting_deterministic` (ParticipationProps)<br>`C77_report_sound` (ParticipationProps)<br>`C77_refuted_lost_activation` (ParticipationProps)<br>`C77_example` (ParticipationProps) | Model of the scheduler (Participation.v): the active pairs, counters, processed flags and the greedy matching as in the code. Invariant: the counter of a block is the number of its active pairs that are not processed; the lists contain exactly the active pairs. Induction over the blocks of one matching (maximality: every block with a pair left is visited or the matching is full, k/2 pairs) and over the requests of the round. reportResults is modelled at the level of loads and stores of the word of a vector<bool>; the lost update is a concrete pair of executions with different next rounds.. Note: Scheduling of block pairs proved for the round as a whole; the determinism of the activation under concurrent reports is refuted (lost update in a std::vector<bool>). | proved |
| C78 | The quotient graph of flow refinement lists every cut hyperedge for the block pairs it joins | `C78_initialize` (QuotientProps)<br>`C78_initialize_lists` (QuotientProps)<br>`C78_deterministic` (QuotientProps)<br>`C78_flow` (QuotientProps)<br>`C78_adjacent_blocks_scheduled` (QuotientProps)<br>`C78_refuted_late_addition` (QuotientProps)<br>`C78_example` (QuotientProps) | Model (Quotient.v): push_back and fetch_add are atomic steps, the loops are all interleavings of their iterations. Lemma: for every interleaving the list of a pair is a permutation of its old content and everything the iterations push for it, the weight grows by what they add. Initialization: the connectivity set is duplicate free and consists of the blocks with pins (C01). Preservation: every block a hyperedge touches after a matching (or sequence) but not before is among the reported ones (C75, C76), so an unlisted pair of blocks has a new one. The refutation is a concrete execution.. Note: Exactness after initialization and completeness through both flow schedulers; completeness under arbitrary timing of the additions in the non-deterministic scheduler is refuted. | proved |
| C79 | Incident nets of the dynamic hypergraph survive any contraction/uncontraction history | `C79_incident_nets` (INAProps)<br>`C79_uncontract_reports` (INAProps)<br>`C79_restored` (INAProps)<br>`C79_members` (INAProps)<br>`C79_example` (INAProps)<br>`C79_refuted_recontract` (INAProps)<br>`C79_refuted_vcycle` (INAProps)<br>`C79_refuted_stale_flag` (INAProps) | INA.v models the header pointers, entries and versions; INASpec.v is an independent forest-of-histories specification (legal operations, nets, members). INALoop/INARep/INAOps*/INAThms prove a representation invariant (ring = member list, iterator ring = non-empty members, entry array sorted by removal version) preserved by each operation, framed to the tree it touches. Theorems: incident nets and degree, reports of restoreIncidentNets, full restoration; refuted: contracting again after an uncontraction without reset, reset with removed hyperedges (n-level V-cycles), stale flag of removeEdge.. Note: atomic steps per list operation; versions unbounded | proved |
| C80 | The batch uncontraction hierarchy is complete, ordered and gap-free for every thread schedule | `C80_complete` (BatchProps)<br>`C80_parent_first` (BatchProps)<br>`C80_sibling_order` (BatchProps)<br>`C80_positions` (BatchProps)<br>`C80_example` (BatchProps)<br>`C80_refuted_batch_size` (BatchProps) | Batch.v models the sorted child lists, the version roots, the grouping by interval and every atomic step of a thread with the shared assigner; BatchSort/BatchThr: per-thread invariant for arbitrary batch indices >= the required one; BatchSys: invariant of the shared counters over all interleavings; BatchProps: completeness by induction on the depth, order, positions. The doc claim that positions stay below max_batch_size is refuted.. Note: priority queue pops any element; racy minimum of local indices is any smaller value | proved |
| C81 | Pins, pin counts and footprints of a hyperedge survive n-level contraction and batch uncontraction | `C81_contract` (DynEdgeProps)<br>`C81_footprint` (DynEdgeProps)<br>`C81_parallel_nets_found` (DynEdgeProps)<br>`C81_pins` (DynEdgeProps)<br>`C81_pin_counts` (DynEdgeProps)<br>`C81_restored` (DynEdgeProps)<br>`C81_connectivity_unchanged` (DynEdgeProps)<br>`C81_callbacks` (DynEdgeProps)<br>`C81_example` (DynEdgeProps)<br>`C81_order_needed` (DynEdgeProps)<br>`C81_refuted_second_vcycle` (DynEdgeProps) | the incidence array slots, the valid size and the pin counts are modelled operation by operation; an invariant over the contraction sequence characterises valid and invalid pins by the case flags; an invariant over the batches characterises the pins of stage b; the image of the representative map is computed separately. Note: Per hyperedge, every operation under the hyperedge lock. Refuted: the footprint is not restored by uncontraction or reset(), so in a second V-cycle identical nets can be missed (C81_refuted_second_vcycle). | proved |
| C82 | Gain caches stay exact during n-level batch uncontraction | `C82_km1` (DynGainProps)<br>`C82_cut` (DynGainProps)<br>`C82_soed` (DynGainProps)<br>`C82_km1_means` (DynGainProps)<br>`C82_example` (DynGainProps)<br>`C82_cut_single_pin` (DynGainProps) | DynGain.v models each callback as the list of its atomic additions to the cache, as a function of the pins and pin counts at that moment; DynGainThms.v proves that one callback adds exactly the difference of the hyperedge's contribution before and after the step, for all three caches; DynGainRun.v adds this up along the interleavings of C81 (a restored pin always finds another pin of its block); DynGainProps.v sums over hyperedges and permutations of the additions.. Note: Penalty/benefit terms with the multipliers of C07-C09. The Steiner-tree gain cache is not covered. | proved |
| C83 | Removing and restoring single-pin and identical nets is lossless (n-level) | `C83_restorable` (NetRemovalProps)<br>`C83_complete` (NetRemovalProps)<br>`C83_objective` (NetRemovalProps)<br>`C83_three_objectives` (NetRemovalProps)<br>`C83_inverse` (NetRemovalProps)<br>`C83_history` (NetRemovalProps)<br>`C83_restore_objective` (NetRemovalProps)<br>`C83_gain_cache` (NetRemovalProps)<br>`C83_pin_counts` (NetRemovalProps)<br>`C83_representative_pins` (NetRemovalProps)<br>`C83_example` (NetRemovalProps)<br>`C83_refuted_stale_footprint` (NetRemovalProps) | NetRemoval.v models the bucket loops literally (valid flags, break on a different hash, weight written after the inner loop) for any bucket order and any sorted bucket; NetRemovalThms.v characterises the result (induction over the loops, then over buckets); NetRemovalProps.v derives the objective, the inverse, nested histories, pin counts and gain caches, and with C81 that the representative has its old pins again at restore time.. Note: Buckets run one after the other in any order (they share no net). | proved |
| C84 | Concurrent contraction registration and execution (n-level coarsening) | `C84_no_deadlock` (RegTreeProps)<br>`C84_contractions` (RegTreeProps)<br>`C84_weights` (RegTreeProps)<br>`C84_assertions` (RegTreeProps)<br>`C84_pending` (RegTreeProps)<br>`C84_all_done` (RegTreeProps)<br>`C84_forest` (RegTreeProps)<br>`C84_tree` (RegTreeProps)<br>`C84_single_thread` (RegTreeProps)<br>`C84_refuted_cycle` (RegTreeProps)<br>`C84_refuted_hang` (RegTreeProps)<br>`C84_example` (RegTreeProps) | RegTree.v: transition system with one program counter per thread (27 points; every lock operation, unlocked read and tree write is one step), unbounded threads, started calls with arbitrary pairs, version increments at quiescence. RegTreeSpec.v: legal sequential contraction sequences, forest, cycle. RegTreeInv*.v: 15-part inductive invariant (lock ownership, facts protected by held locks, counter = open children with in-flight corrections, stale pairs exceed the weight limit, one executor per contracted node, intervals, a responsible thread for every contraction that is ready). RegTreeForest.v: forest invariant when final checks are serialised. Cycle and hang: an explicit 4-thread schedule, evaluated, plus an invariant over all continuations.. Note: No fixed vertices; sequentially consistent memory. The acyclicity claim without serialised final checks is refuted (cycle and hang). | proved |
| C85 | The gain cache survives the parallel refiners | `C85_cache_survives_refinement` (CacheRefineThms)<br>`C85_example` (CacheRefineThms) | CacheRefine.v: each refiner as a relation on (partition, cache) built from the existing small-step models (label propagation pool LPPool/LPPar, rebalancer Rebalance.v, deterministic flows DetFlow.v, concurrent changeNodePart Conc.v), now keeping the cache and the sets of marked nodes; sequences of refiners by reflexive-transitive closure.  CacheRefineThms.v: simulation - the steps do not read penalty terms, so C10's invariant also holds from a cache with out-of-date entries, which stay confined to the old ones and the moved nodes; invariants - every accepted move's node has its flag set when the task has left the call (label propagation), is in _was_moved (flows) or in the move list (rebalancer); repair restores exactness; induction over the sequence.. Note: all three cached objectives; the steiner tree gain cache is not covered | proved |
| C86 | The n-level hierarchy gives every hyperedge and node its original state back | `C86_pins` (RoundtripThms)<br>`C86_pin_counts` (RoundtripThms)<br>`C86_restored` (RoundtripThms)<br>`C86_connectivity_unchanged` (RoundtripThms)<br>`C86_node_weights` (RoundtripWt)<br>`C86_weights_restored` (RoundtripWt)<br>`C86_block_weights` (RoundtripWt)<br>`C86_example` (RoundtripEx) | The models of C84 (contraction protocol), C80 (batch hierarchy) and C81 (pins of a hyperedge) are run together: a hyperedge is contracted inside the protocol runs, the batches are those of a finished batch construction on the resulting tree. An invariant of the combined runs orders the contractions of a hyperedge by version and contraction interval; with the sibling order and parent-first theorems of C80 this gives the order condition of C81. Weights: the tree's weights are sums over children; a batch of uncontractions in any order keeps the sums.. Note: Combines the models of C80, C81 and C84. Simplified: the incident nets of a node are the hyperedges containing it (the lists themselves are C79); final cycle checks do not overlap (as in C84, whose refuted theorems show what happens otherwise); no fixed vertices. C86_example runs two threads contracting concurrently, a second pass, the batch construction and both batches. | proved |
| C87 | Deep multilevel partitioning goes through consistent numbers of blocks and ends with exactly k blocks | `C87_tree` (DeepTree)<br>`C87_level_of_blocks` (DeepTree)<br>`C87_next_blocks` (DeepTree)<br>`C87_max_blocks` (DeepTree)<br>`C87_children` (DeepTree)<br>`C87_threads` (DeepCtl)<br>`C87_blocks` (DeepCtl)<br>`C87_terminates` (DeepCtl) | Deep.v models the tree, the number of blocks of an uncoarsening step and the recursion as an inductive relation over all level sizes; DeepTree.v computes the levels in closed form and DeepCtl.v proves the thread distribution, the number of blocks of each call by mutual induction, and termination by induction on the threads.. Note: Integers are unbounded (k * contraction limit and the sums of block weights are 32 bit or size_t in the code); the sizes of the levels are arbitrary increasing numbers, refinement between extensions is arbitrary and does not change the number of blocks. With fewer nodes than one contraction limit get_maximum_number_of_blocks returns k (C87_max_blocks); a recursive call always has more than two. | proved |
| C88 | Extending the number of blocks keeps block weights and adds exactly the cuts of the bipartitions to the objective | `C88_extract_all` (Extend)<br>`C88_extension` (ExtendProps)<br>`C88_tree_extension` (ExtendProps) | Extend.v models the extraction of all blocks (counters, streams, construction) and proves it yields induced sub-hypergraphs for every order; ExtendProps.v expresses the pins of each new block by those of the old one and the sides of the bipartition, and derives weights, connectivity and objective per hyperedge.. Note: The partition is at rest during the extraction (as in the code); community ids are not modelled; bipartitions are arbitrary complete ones. The nodes are moved concurrently with changeNodePart (one move per node, see the properties of concurrent moves); the theorem is about the resulting assignment. | proved |
| C89 | Initial partitioning keeps the best partition that any run computed | `C89_comparison` (IPPool)<br>`C89_refuted_weak_order` (IPPool)<br>`C89_selects_best` (IPPool)<br>`C89_schedule_independent` (IPPool)<br>`C89_infeasible` (IPPool)<br>`C89_example` (IPPool)<br>`C89_refuted_determinism` (IPPool)<br>`C89_refuted_torn_read` (IPPool) | IPPool.v: the comparison is proved equal to a separate preference relation; a fold with it keeps a maximal element; in deterministic mode the most preferred run is always inserted and never evicted, whatever the heap does, and for infeasible runs some entry of the population is as balanced as every earlier commit. Note: Heap and sort are modelled as arbitrary rearrangements because the comparison does not meet their contract; the read before the lock returns one complete earlier entry (C89_refuted_torn_read shows that this is needed). | proved |
| C90 | One-to-one mapping onto a target graph | `C90_local_search` (KLMapThms)<br>`C90_weights` (KLMapThms)<br>`C90_exact` (KLMapThms)<br>`C90_terminates` (KLMapThms)<br>`C90_choice` (GreedyMap)<br>`C90_greedy` (GreedyMap)<br>`C90_processor_left` (GreedyMap)<br>`C90_greedy_example` (GreedyMap)<br>`C90_hypotheses` (GreedyMap)<br>`C90_refuted_fixed` (GreedyMap)<br>`C90_refuted_greedy` (GreedyMap)<br>`C90_refuted_balanced_choice` (GreedyMap)<br>`C90_refuted_seed` (GreedyMap) | KLMap.v models the gain with its marks, the lazy queue, rollback and the loop over passes; KLMapThms.v proves that the gain is the change of the cost (only hyperedges with exactly one of the two nodes count), carries the chain of swaps through a pass and proves termination by a lexicographic measure; GreedyMap.v models the construction with an abstract queue and proves it complete and injective by an invariant. Note: Distances of the target graph are an arbitrary function of the set of blocks (Steiner trees: C50); priority queues pop any element; the theorems about the greedy construction are about its result for a seed that is not fixed (C90_refuted_greedy shows that this is needed). | proved |
| C91 | Applying a block mapping only renames blocks and never makes the objective worse | `C91_block_graph` (MapApply)<br>`C91_mapping` (MapApply)<br>`C91_map_to_target_graph` (MapApply)<br>`C91_refuted_small` (MapApply)<br>`C91_refuted_shared` (MapApply)<br>`C91_refuted_weight_zero` (MapApply)<br>`C91_example` (MapApply) | MapApply.v composes the models of contraction (Contract.v, C18-C20), greedy mapping and local search (C90): rank/select shows that block_mapping inverts the renumbering of contract; contraction preserves the weighted sum of any function of pin sets; one-to-one results are injective renamings. Refutations by computation.. Note: Fixed vertices excluded (C90_refuted_fixed shows what happens to them); the comparison of greedy results is over-approximated | proved |
| C92 | The growing hash map is a finite map | `C92_map` (DynMap)<br>`C92_order` (DynMap)<br>`C92_example` (DynMap)<br>`C92_flat` (FlatMap)<br>`C92_flat_example` (FlatMap) | DynMap.v models the table with timestamps, the linear probing, operator[], grow, rehash and clear. Invariant: live positions point injectively to entries with distinct keys, every key is reached from its hash over live positions, and one position is free (pigeonhole), so probing ends. Simulation by the specification map. FlatMap.v: the same specification for the variant with entries in place (DynamicFlatMap), which rehashes in the order of the positions.. Note: DynamicSparseMap and DynamicFlatMap with the base class; the timestamp is unbounded; freeInternalData not modelled | proved |
| C93 | The fixed-size hash map is a finite map while it is not full | `C93_map` (FixedMap)<br>`C93_refuted_full` (FixedMap)<br>`C93_example` (FixedMap) | FixedMap.v uses the table and the probing invariant of DynMap.v (C92) without growth; the number of entries is bounded by the number of keys of the specification map. The refutation is an induction over the fuel of the search in a full table of capacity 2.. Note: the timestamp is unbounded; freeInternalData followed by a use is not modelled | proved |
| C94 | The sparse map over a fixed universe is a finite map in uninitialised memory | `C94_map` (SparseSet)<br>`C94_order` (SparseSet)<br>`C94_memory` (SparseSet)<br>`C94_refuted_memory` (SparseSet)<br>`C94_example` (SparseSet) | SparseSet.v models the two arrays with arbitrary initial contents; the invariant is that the sparse array points back to each of the first size() dense entries; the representation is related to a specification map of the operations.. Note: setMaxSize, freeInternalData not modelled; refuted: elements whose size is not a multiple of 8 bytes (none in use) do not fit into the requested memory; the move assignment (SparseMap::operator=) sets _size = 0, so the moved-to map is empty | proved |

## Findings (proved about the model, i.e. behaviours of the code as it is)

| where | finding | theorem |
|---|---|---|
| gains `contribution()` for cut | returns the soed instead of the cut contribution | `C12_refuted_for_cut` |
| connectivity sets, delta partition keys | 32-bit products `he * blocks`, `u * k + i` wrap for large inputs | `C14_iteration_refuted_for_large_index`, `C17_refuted_beyond_32_bits` |
| fixed vertices | lost if the total weight of all fixed vertices is 0 | `C21_refuted_zero_weight`, `C22_refuted_zero_weight` |
| recursive bipartitioning, objective cut, k >= 4 | extraction of a block while the sibling task moves nodes can write out of bounds or keep a cut hyperedge | `C25_refuted_concurrent_extract`, `C25_refuted_keeps_cut_edge` |
| recursive bipartitioning, soed | doubling of weights >= 2^30 leaves int32 | `C25_soed_overflow` |
| improve with `num_vcycles = 0`, LARGE_K in deep mode | removed nodes and hyperedges are never restored | `C31_refuted_*` |
| hMetis / Metis / partition readers | comment between weights rejected; missing vertex line accepted or not depending on thread count; garbage silently ends a partition file; one byte read behind a mapping of a page-multiple size | `C33_refuted_*`, `C49_refuted_*`, `C35_refuted_*`, `C34_refuted_page_multiple` |
| construction | 2^32-1 vertices pass the overflow check; incident edge order of parallel edges depends on the schedule | `C36_refuted_max_vertices`, `C37_refuted_parallel_edges` |
| block weight limits | sum of individual limits overflows `int` | `C38_refuted_overflow` |
| context parameters | negative, zero, fractional block counts and trailing garbage accepted | `C40_refuted_*` |
| target graph | last parallel edge wins; enumerator does not terminate for k = 2; more than 64 blocks collide in the cache key | `C42_refuted_parallel_edges`, `C50_refuted_two_blocks`, `C52_refuted_more_than_64_blocks` |
| parallel FM | more than 20 tasks exceed the reserve of search ids | `C44_refuted_many_tasks` |
| parallel clustering | resolving a cyclic matching dependency joins twice (weight and contracted nodes counted twice), a node can join itself (node count wraps around), a cluster can lose its representative; concurrent joins exceed the weight limit | `C58_refuted_double_join`, `C58_refuted_self_join`, `C58_refuted_representative`, `C57_refuted_exact_limit` |
| deterministic coarsening | with fixed vertices the result depends on the schedule and fixed blocks become heavier than allowed (failed `contractWithoutChains` only asserted); with nodes of weight 0 the number of clusters is miscounted | `C62_refuted_fixed_vertices`, `C63_refuted_fixed_block_limit`, `C63_refuted_zero_weight` |
| deterministic label propagation | on an overloaded partition: a negative budget divided by 3 involvements as unsigned gives the bound 1431655765 and the overloaded block grows; the prefix search misses feasible prefixes; by reading: `num_sub_rounds = 0` divides by zero, many sub-rounds give empty ranges (debug assertion `first_bucket < last_bucket`) | `C64_refuted_overloaded`, `C66_refuted_overloaded` |
| deterministic rebalancer | two overloaded blocks fill the same target, which ends up more overloaded than the input, and the call returns true; by reading: `_block_has_only_heavy_vertices` survives between calls (and a change of k), so the result depends on earlier calls | `C67_refuted_worse` |
| deterministic Jet | for soed the afterburner counts the weight of a two-pin hyperedge once instead of twice and accepts moves that worsen the objective; a repaired imbalance is not reported by the return value | `C68_refuted_soed`, `C69_refuted_return` |
| parallel label propagation | the objective can get worse (debug assertion `delta >= 0`); a node that was moved, moved back and then moved by the rebalancer is entered twice in the rollback list, two tasks roll it back and block weights and pin counts are wrong from then on | `C73_refuted_quality`, `C73_refuted_rollback` |
| parallel FM | the searches and the rollback use the limits of `setupMaxPartWeights` (max_part_weights scaled by rollback_balance_violation_factor) while the rebalancer of an unconstrained round uses max_part_weights itself; the presets use factor 1, where both agree (the model takes one limit vector) | by reading, see C74 |
| deterministic flow refinement | `reportResults` writes elements of a std::vector<bool> (64 blocks per word) from the tasks of a parallel_for: an activation can be lost, the refiner is not deterministic | `C77_refuted_lost_activation` |
| flow refinement | a search that adds its new cut hyperedges while another one has applied a sequence it will undo reads a connectivity set without the vacated block: the hyperedge is not listed for a pair of blocks it joins and is missing from later flow problems of this pair | `C78_refuted_late_addition` |
| deterministic flow refinement | the vectors of the ParticipationScheduler keep the size of the constructor when k changes (resizeDataStructuresForCurrentK) | by reading, see C77 |
| n-level partitioning | a V-cycle resets the version numbers of the incident net lists while single-pin and large hyperedges are still removed: the final restore enables these hyperedges but does not put them back into the incident nets of their pins (the workaround in multilevel.cpp works on a fresh, empty remover) | `C79_refuted_vcycle` |
| dynamic hypergraph | `removeEdge`/`removeLargeEdge` never clear the flag in the thread-local bitset: after a restore, the next removal takes the old hyperedge out again | `C79_refuted_stale_flag` |
| n-level uncoarsening | a batch can exceed max_batch_size without bound (the documented guarantee fails): contraction intervals are compared as closed, so contractions onto one node that directly follow each other form one group, and groups are never split | `C80_refuted_batch_size` |
| n-level V-cycles | the footprint (hash) of a hyperedge is updated by contraction but not by uncontraction nor by reset() (dynamic_hypergraph.h:940-944): in a second V-cycle identical nets can have different footprints and are then not merged | C81_refuted_second_vcycle |
| Contraction tree (n-level coarsening) | Two concurrent registrations whose nodes are disjoint can both pass the final cycle check before either enters its contraction: the contraction tree gets a cycle (v->w->r->d->v in the proof). Its nodes are never contracted and a later registration that reaches the cycle loops forever while holding two node locks. Serialising the section contraction_tree.h:427-455 removes the problem (proved). | C84_refuted_cycle, C84_refuted_hang (contraction_tree.h:427-440) |
| deep multilevel | `get_maximum_number_of_blocks` returns the final k for hypergraphs with fewer nodes than one contraction limit (the loop falls through), unreachable only because a recursive call has more than two | `C87_max_blocks` |
| initial partitioning | the comparison of results is not a strict weak order (two infeasible results with equal imbalance and different objectives are incomparable), but it is used for `std::sort`, `pop_heap` and `push_heap` | C89_refuted_weak_order (initial_partitioning_data_container.h:68-80) |
| initial partitioning, deterministic mode | if no run is feasible, the selected partition depends on the order in which the runs are committed | C89_refuted_determinism |
| initial partitioning, deterministic mode | `commit` copies the first entry of the population without holding the lock (a data race); a copy with mixed fields can drop the best run | C89_refuted_torn_read (line 499) |
| one-to-one mapping | if the seed node of the greedy mapping contains a fixed vertex, nothing enters its queue: nodes not connected to fixed ones keep block -1, their cost is not counted, so this mapping can win and is applied (invalid block ids) | C90_refuted_greedy (greedy_mapping.cpp:179) |
| one-to-one mapping | if a block is empty, `repairEmptyBlocks` builds the contracted hypergraph without fixed vertices, and the mapping moves fixed vertices; with the two-phase approach this happens after `forceFixedVertexAssignment`, so the result violates them | C90_refuted_fixed (initial_mapping.cpp:206, partitioner.cpp:371-382) |
| one-to-one mapping, individual block weights | `best_is_balanced` is updated before the test `is_balanced && !best_is_balanced`, which is therefore never true: a processor that is too small is chosen although a larger one is free | C90_refuted_balanced_choice (greedy_mapping.cpp:225-226) |
| initial mapping, more blocks than nodes | with k > #nodes the contraction uses the identity, but `repairEmptyBlocks` takes node i for the i-th nonempty block: the mapped hypergraph has another objective (ASSERT in 213 fails), and if two nodes share a block the entries of the last nodes stay kInvalidHypernode (invalid pins and out-of-bounds accesses) | C91_refuted_small, C91_refuted_shared (initial_mapping.cpp:149-156, 195) |
| initial mapping, weight-zero nodes | a block is taken to be empty if its weight is 0, so a block of weight-zero nodes shifts the renumbering when some block is empty | C91_refuted_weight_zero (initial_mapping.cpp:153) |
| one-to-one mapping, individual block weights | if no free processor is large enough for the seed, the first element of an empty vector is read | C90_refuted_seed (greedy_mapping.cpp:88) |

## Modelled / not modelled

Modelled: `datastructures/` partitioned_hypergraph (all moves, queries, initialization, restore, extract), static_hypergraph and its factory
and contraction, dynamic hypergraph incidence removal/restoration, incident_net_array (n-level contraction and uncontraction of incident nets), the pins of hyperedges and the km1, cut and soed gain caches during batch uncontraction, removal and restoration of single-pin and identical nets, the concurrent registration and execution of contractions (n-level coarsening, without fixed vertices), the gain cache across sequences of parallel refiners, contraction_tree (batch uncontraction hierarchy), mapping (greedy one-to-one mapping, local search), initial_partitioning_data_container (comparison, commit and selection of results), deep_multilevel (numbers of blocks, tree, parallel recursion, extraction of all blocks and application of bipartitions), the whole n-level contraction/uncontraction round trip of a hyperedge and of the node and block weights, static_graph construction, connectivity_set,
pin_count_in_part, sparse_pin_counts, delta_partitioned_hypergraph, fixed_vertex_support, priority_queue; `parallel/parallel_prefix_sum`;
`partition/coarsening/multilevel_coarsener` (clustering protocol), `deterministic_multilevel_coarsener` (one pass), V-cycles, `partition/metrics`, gain caches, attributed gains and rollback of cut / km1 / soed, global_rollback, fm_commons (trackers), multitry_kway_fm (the whole refinement: rounds of concurrent searches, rebalancing, interleaving of the rebalancing moves, rollback, stop rule), fm local search tasks, flows/flow_refinement_scheduler (application and rollback of move sequences, metric and gain cache bookkeeping; not the flow computation), flows/deterministic/deterministic_flow_refinement_scheduler (concurrent application, metrics), deterministic/participation_scheduler, flows/quotient_graph, deterministic/deterministic_jet_refiner (hypergraphs; all but the gain arithmetic), deterministic/deterministic_label_propagation (all but the gain arithmetic of a candidate move and the node permutation), label_propagation/label_propagation_refiner (hypergraphs), gains/gain_computation_base and the km1, cut and soed gain computation, rebalancing/deterministic_rebalancer (hypergraphs), rebalancing/advanced_rebalancer (all but the priority queues and the gain arithmetic),
recursive_bipartitioning, preprocessing removers, partitioner pre-/postprocessing, context weight limits, target graph (shortest paths, Steiner
trees, MST); `io/` hypergraph and partition readers/writers; `lib/` parameter and compatibility checks.

Not modelled (no property claims anything about them): the search heuristics themselves (which node is moved, flow networks,
spectral/community computation, initial partitioners, time limits), the Steiner tree gain
cache, weak memory effects, allocation failure, TBB's and the C++ library's internals, the command line parser, timers and statistics.

## Testing the theorems against wrong programs

`seeded/mutants*.py` list edits of the model; `tools/mutate.py` applies each in a scratch copy and rebuilds, letting broken proofs fail and
continuing past them; `seeded/LOG.jsonl` has one line per attempt with the theorems that failed.

## Trusted base

* Coq 8.16.1's kernel, including the `vm_compute` machine (used for concrete examples and some boolean facts).
* The transcription of the C++ code into the model (by reading only) and the modelling conventions above.
* The axioms below: only axioms of the standard library (real numbers, functional extensionality / classical logic as used by
  `Reals`), for the theorems about floating point, and functional extensionality for some of C62 - C78 and C85. No axioms of this development.

### Assumptions reported by `Print Assumptions`

* Closed under the global context (no axioms): 293 theorems: `C01_block_weights_exact`, `C02_pin_counts_and_connectivity_exact`, `C03_move_frame`, `C04_concurrent_moves_consistent`, `C05_concurrent_moves_balanced`, `C06_attributed_gains_sum`, `C07_km1_gain_cache_exact`, `C07_dirty_only_moved`, `C08_cut_gain_cache_exact`, `C09_soed_gain_cache_exact`, `C10_km1_cache_concurrent`, `C10_cut_cache_concurrent`, `C10_soed_cache_concurrent`, `C11_metrics_exact`, `C11_objective_relations`, `C12_contribution_exact`, `C12_contribution_cut_is_soed`, `C12_refuted_for_cut`, `C13_packed_counters_are_counters`, `C14_connectivity_sets_are_sets`, `C14_elements_sorted`, `C14_iteration_refuted_for_large_index`, `C15_sparse_pin_counts_are_a_map`, `C16_overlay_is_faithful`, `C16_clear`, `C17_overlay_keys_unique`, `C17_refuted_beyond_32_bits`, `C39_balance_check`, `C39_imbalance`, `C48_no_deadlock`, `C48_moves_terminate`, `C26_recalculated_gains_exact`, `C26_each_hyperedge_once`, `C26_iteration_covers`, `C27_best_balanced_prefix`, `C27_split_independent`, `C27_parallel_rollback_round`, `C27_sequential_rollback_round`, `C28_revert_restores_prefix`, `C18_contraction_weights`, `C19_contraction_objective`, `C20_contraction_wellformed`, `C21_fixed_vertices_concurrent`, `C21_uncontract_restores`, `C21_projection_static`, `C21_refuted_zero_weight`, `C22_fixed_vertices_enforced`, `C22_refuted_zero_weight`, `C23_add_fixed_vertices`, `C46_parallel_prefix_sum`, `C46_tbb_prefix_sum`, `C47_priority_queue`, `C44_single_owner`, `C44_refuted_many_tasks`, `C45_move_ids`, `C45_round_ok`, `C36_construct`, `C36_adjacency_array`, `C36_refuted_max_vertices`, `C37_construct_graph`, `C37_create_graph`, `C37_graph_from_hyperedges`, `C37_schedule_independent`, `C37_refuted_parallel_edges`, `C34_no_access_outside_file`, `C34_refuted_page_multiple`, `C32_read_number`, `C33_hmetis_read`, `C33_refuted_comment_between_weights`, `C49_metis_read`, `C49_refuted_missing_line`, `C35_read_partition`, `C35_partition_roundtrip`, `C35_refuted_garbage_accepted`, `C41_create`, `C41_preset_roundtrip`, `C42_distances_are_shortest_paths`, `C42_refuted_parallel_edges`, `C43_queries_leave_set_unchanged`, `C43_index_injective`, `C43_index_in_table`, `C50_precomputed_steiner_trees`, `C50_enumerator_complete`, `C50_refuted_two_blocks`, `C51_mst_two_approximation`, `C51_mst_between_opt_and_twice_opt`, `C52_answers_history_independent`, `C52_distance_within_factor_two`, `C52_refuted_more_than_64_blocks`, `C53_connectivity_check`, `C29_isolated_nodes_restored`, `C30_remove_restore_hyperedges`, `C30_all_restored`, `C30_restore_in_partition`, `C31_improve_consistent`, `C31_zero_vcycles_nothing_removed`, `C31_refuted_zero_vcycles`, `C31_refuted_zero_vcycles_weights`, `C31_refuted_other_modes`, `C54_partition_covers_input`, `C24_recursive_bipartitioning`, `C24_always_completes`, `C25_km1_additive`, `C25_cut_additive`, `C25_soed_additive`, `C25_recursive_bipartitioning`, `C25_rb_objectives`, `C25_extract_any_schedule`, `C25_extract_quiet`, `C25_refuted_concurrent_extract`, `C25_refuted_keeps_cut_edge`, `C25_soed_overflow`, `C55_clusters_respect_communities`, `C56_clustering_terminates`, `C56_clustering_never_stuck`, `C57_cluster_weight_bound`, `C57_cluster_weight_sequential`, `C57_refuted_exact_limit`, `C58_clustering_exact`, `C58_sequential_clustering_exact`, `C58_refuted_double_join`, `C58_refuted_self_join`, `C58_refuted_representative`, `C59_vcycle_starts_from_partition`, `C60_interleaved_sequence`, `C60_searches_deliver`, `C60_ready_for_rollback`, `C60_round_quality`, `C61_rebalancer`, `C61_reported_moves`, `C61_calls_legal`, `C61_gain_caches`, `C61_gives_up_without_candidates`, `C62_refuted_fixed_vertices`, `C63_refuted_fixed_block_limit`, `C63_refuted_zero_weight`, `C64_revert_loop_ends`, `C65_active_nodes`, `C66_recursive_is_sequential`, `C66_maximal_prefixes`, `C66_refuted_overloaded`, `C68_afterburner_exact`, `C68_deterministic`, `C68_completes`, `C68_total_gain`, `C68_example`, `C68_refuted_soed`, `C71_gain_exact`, `C71_best_block`, `C71_rebalance_move`, `C71_example`, `C72_never_worse`, `C72_completes`, `C72_example`, `C73_parallel`, `C73_constrained`, `C73_calls_legal`, `C73_flags_in_bounds`, `C73_refuted_quality`, `C73_refuted_rollback`, `C74_fm_never_worse`, `C74_searches`, `C74_round_never_fails`, `C74_example`, `C75_example`, `C76_completes`, `C77_round`, `C77_maximal`, `C77_stops`, `C77_sorting_deterministic`, `C77_report_sound`, `C77_refuted_lost_activation`, `C77_example`, `C78_initialize`, `C78_initialize_lists`, `C78_adjacent_blocks_scheduled`, `C78_refuted_late_addition`, `C78_example`, `C79_incident_nets`, `C79_uncontract_reports`, `C79_restored`, `C79_members`, `C79_example`, `C79_refuted_recontract`, `C79_refuted_vcycle`, `C79_refuted_stale_flag`, `C80_complete`, `C80_parent_first`, `C80_sibling_order`, `C80_positions`, `C80_example`, `C80_refuted_batch_size`, `C81_contract`, `C81_footprint`, `C81_parallel_nets_found`, `C81_pins`, `C81_pin_counts`, `C81_restored`, `C81_connectivity_unchanged`, `C81_callbacks`, `C81_example`, `C81_order_needed`, `C81_refuted_second_vcycle`, `C82_km1`, `C82_cut`, `C82_soed`, `C82_km1_means`, `C82_example`, `C82_cut_single_pin`, `C83_restorable`, `C83_complete`, `C83_objective`, `C83_three_objectives`, `C83_inverse`, `C83_history`, `C83_restore_objective`, `C83_gain_cache`, `C83_pin_counts`, `C83_representative_pins`, `C83_example`, `C83_refuted_stale_footprint`, `C84_no_deadlock`, `C84_contractions`, `C84_weights`, `C84_assertions`, `C84_pending`, `C84_all_done`, `C84_forest`, `C84_tree`, `C84_single_thread`, `C84_refuted_cycle`, `C84_refuted_hang`, `C84_example`, `C86_pins`, `C86_pin_counts`, `C86_restored`, `C86_connectivity_unchanged`, `C86_node_weights`, `C86_weights_restored`, `C86_block_weights`, `C86_example`, `C87_tree`, `C87_level_of_blocks`, `C87_next_blocks`, `C87_max_blocks`, `C87_children`, `C87_threads`, `C87_blocks`, `C87_terminates`, `C88_extract_all`, `C88_extension`, `C88_tree_extension`, `C89_comparison`, `C89_refuted_weak_order`, `C89_selects_best`, `C89_schedule_independent`, `C89_infeasible`, `C89_example`, `C89_refuted_determinism`, `C89_refuted_torn_read`, `C90_local_search`, `C90_weights`, `C90_exact`, `C90_terminates`, `C90_choice`, `C90_greedy`, `C90_processor_left`, `C90_greedy_example`, `C90_hypotheses`, `C90_refuted_fixed`, `C90_refuted_greedy`, `C90_refuted_balanced_choice`, `C90_refuted_seed`, `C91_block_graph`, `C91_mapping`, `C91_map_to_target_graph`, `C91_refuted_small`, `C91_refuted_shared`, `C91_refuted_weight_zero`, `C91_example`, `C92_map`, `C92_order`, `C92_example`, `C92_flat`, `C92_flat_example`, `C93_map`, `C93_refuted_full`, `C93_example`, `C94_map`, `C94_order`, `C94_memory`, `C94_refuted_memory`, `C94_example`.
* `C62_pass_deterministic`, `C62_one_subround_deterministic`, `C63_pass_valid`, `C64_never_worse`, `C64_completes`, `C64_refuted_overloaded`, `C64_example`, `C65_deterministic`, `C65_subround_function`, `C67_rebalancer`, `C67_completes`, `C67_deterministic`, `C67_sequential`, `C67_round`, `C67_refuted_worse`, `C67_example`, `C69_never_worse`, `C69_round`, `C69_example`, `C69_refuted_return`, `C70_deterministic`, `C70_completes`, `C75_flow_never_worse`, `C75_call_outcome`, `C75_gain_cache`, `C75_cached_gains`, `C76_matching`, `C76_new_blocks`, `C76_schedule_independent`, `C76_refine`, `C76_deterministic`, `C76_example`, `C78_deterministic`, `C78_flow`, `C85_cache_survives_refinement`, `C85_example`: axioms `FunctionalExtensionality.functional_extensionality_dep`.
* `C41_partition`, `C41_improve`: axioms `ClassicalDedekindReals.sig_forall_dec`, `FunctionalExtensionality.functional_extensionality_dep`.
* `C38_uniform_limits`, `C38_individual_limits`, `C38_node_weight_limit`, `C38_refuted_overflow`, `C40_unchanged_on_error`, `C40_objective`, `C40_verbose`, `C40_num_blocks`, `C40_not_a_number`, `C40_refuted_negative_blocks`, `C40_refuted_fraction`: axioms `ClassicalDedekindReals.sig_forall_dec`, `ClassicalDedekindReals.sig_not_dec`, `Classical_Prop.classic`, `FunctionalExtensionality.functional_extensionality_dep`.
