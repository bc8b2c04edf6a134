## Findings (proved about the model, i.e. behaviours of the code as it is)

| where | finding | theorem |
|---|---|---|
| gains `contribution()` for cut | returns the soed instead of the cut contribution | `C12_refuted_for_cut` |
| connectivity sets, delta partition keys | 32-bit products `he * blocks`, `u * k + i` wrap for large inputs | `C14_iteration_refuted_for_large_index`, `C17_refuted_beyond_32_bits` |
| fixed vertices | lost if the total weight of all fixed vertices is 0 | `C21_refuted_zero_weight`, `C22_refuted_zero_weight` |
| recursive bipartitioning, objective cut, k >= 4 | extraction of a block while the sibling task moves nodes can write out of bounds or keep a cut hyperedge | `C25_refuted_concurrent_extract`, `C25_refuted_keeps_cut_edge` |
| recursive bipartitioning, soed | doubling of weights >= 2^30 leaves int32 | `C25_soed_overflow` |
| improve with `num_vcycles = 0`, LARGE_K in deep mode | removed nodes and hyperedges are never restored | `C31_refuted_*` |
| hMetis / Metis / partition readers | comment between weights rejected; missing vertex line accepted or not depending on thread count; garbage silently ends a partition file; one byte read behind a mapping of a page-multiple size | `C33_refuted_*`, `C49_refuted_*`, `C35_refuted_*`, `C34_refuted_page_multiple` |
| construction | 2^32-1 vertices pass the overflow check; incident edge order of parallel edges depends on the schedule | `C36_refuted_max_vertices`, `C37_refuted_parallel_edges` |
| block weight limits | sum of individual limits overflows `int` | `C38_refuted_overflow` |
| context parameters | negative, zero, fractional block counts and trailing garbage accepted | `C40_refuted_*` |
| target graph | last parallel edge wins; enumerator does not terminate for k = 2; more than 64 blocks collide in the cache key | `C42_refuted_parallel_edges`, `C50_refuted_two_blocks`, `C52_refuted_more_than_64_blocks` |
| parallel FM | more than 20 tasks exceed the reserve of search ids | `C44_refuted_many_tasks` |
| parallel clustering | resolving a cyclic matching dependency joins twice (weight and contracted nodes counted twice), a node can join itself (node count wraps around), a cluster can lose its representative; concurrent joins exceed the weight limit | `C58_refuted_double_join`, `C58_refuted_self_join`, `C58_refuted_representative`, `C57_refuted_exact_limit` |
| deterministic coarsening | with fixed vertices the result depends on the schedule and fixed blocks become heavier than allowed (failed `contractWithoutChains` only asserted); with nodes of weight 0 the number of clusters is miscounted | `C62_refuted_fixed_vertices`, `C63_refuted_fixed_block_limit`, `C63_refuted_zero_weight` |
| deterministic label propagation | on an overloaded partition: a negative budget divided by 3 involvements as unsigned gives the bound 1431655765 and the overloaded block grows; the prefix search misses feasible prefixes; by reading: `num_sub_rounds = 0` divides by zero, many sub-rounds give empty ranges (debug assertion `first_bucket < last_bucket`) | `C64_refuted_overloaded`, `C66_refuted_overloaded` |
| deterministic rebalancer | two overloaded blocks fill the same target, which ends up more overloaded than the input, and the call returns true; by reading: `_block_has_only_heavy_vertices` survives between calls (and a change of k), so the result depends on earlier calls | `C67_refuted_worse` |
| deterministic Jet | for soed the afterburner counts the weight of a two-pin hyperedge once instead of twice and accepts moves that worsen the objective; a repaired imbalance is not reported by the return value | `C68_refuted_soed`, `C69_refuted_return` |
| parallel label propagation | the objective can get worse (debug assertion `delta >= 0`); a node that was moved, moved back and then moved by the rebalancer is entered twice in the rollback list, two tasks roll it back and block weights and pin counts are wrong from then on | `C73_refuted_quality`, `C73_refuted_rollback` |
| parallel FM | the searches and the rollback use the limits of `setupMaxPartWeights` (max_part_weights scaled by rollback_balance_violation_factor) while the rebalancer of an unconstrained round uses max_part_weights itself; the presets use factor 1, where both agree (the model takes one limit vector) | by reading, see C74 |
| deterministic flow refinement | `reportResults` writes elements of a std::vector<bool> (64 blocks per word) from the tasks of a parallel_for: an activation can be lost, the refiner is not deterministic | `C77_refuted_lost_activation` |
| flow refinement | a search that adds its new cut hyperedges while another one has applied a sequence it will undo reads a connectivity set without the vacated block: the hyperedge is not listed for a pair of blocks it joins and is missing from later flow problems of this pair | `C78_refuted_late_addition` |
| deterministic flow refinement | the vectors of the ParticipationScheduler keep the size of the constructor when k changes (resizeDataStructuresForCurrentK) | by reading, see C77 |
| n-level partitioning | a V-cycle resets the version numbers of the incident net lists while single-pin and large hyperedges are still removed: the final restore enables these hyperedges but does not put them back into the incident nets of their pins (the workaround in multilevel.cpp works on a fresh, empty remover) | `C79_refuted_vcycle` |
| dynamic hypergraph | `removeEdge`/`removeLargeEdge` never clear the flag in the thread-local bitset: after a restore, the next removal takes the old hyperedge out again | `C79_refuted_stale_flag` |
| n-level uncoarsening | a batch can exceed max_batch_size without bound (the documented guarantee fails): contraction intervals are compared as closed, so contractions onto one node that directly follow each other form one group, and groups are never split | `C80_refuted_batch_size` |
| n-level V-cycles | the footprint (hash) of a hyperedge is updated by contraction but not by uncontraction nor by reset() (dynamic_hypergraph.h:940-944): in a second V-cycle identical nets can have different footprints and are then not merged | C81_refuted_second_vcycle |
| Contraction tree (n-level coarsening) | Two concurrent registrations whose nodes are disjoint can both pass the final cycle check before either enters its contraction: the contraction tree gets a cycle (v->w->r->d->v in the proof). Its nodes are never contracted and a later registration that reaches the cycle loops forever while holding two node locks. Serialising the section contraction_tree.h:427-455 removes the problem (proved). | C84_refuted_cycle, C84_refuted_hang (contraction_tree.h:427-440) |
| deep multilevel | `get_maximum_number_of_blocks` returns the final k for hypergraphs with fewer nodes than one contraction limit (the loop falls through), unreachable only because a recursive call has more than two | `C87_max_blocks` |
| initial partitioning | the comparison of results is not a strict weak order (two infeasible results with equal imbalance and different objectives are incomparable), but it is used for `std::sort`, `pop_heap` and `push_heap` | C89_refuted_weak_order (initial_partitioning_data_container.h:68-80) |
| initial partitioning, deterministic mode | if no run is feasible, the selected partition depends on the order in which the runs are committed | C89_refuted_determinism |
| initial partitioning, deterministic mode | `commit` copies the first entry of the population without holding the lock (a data race); a copy with mixed fields can drop the best run | C89_refuted_torn_read (line 499) |
| one-to-one mapping | if the seed node of the greedy mapping contains a fixed vertex, nothing enters its queue: nodes not connected to fixed ones keep block -1, their cost is not counted, so this mapping can win and is applied (invalid block ids) | C90_refuted_greedy (greedy_mapping.cpp:179) |
| one-to-one mapping | if a block is empty, `repairEmptyBlocks` builds the contracted hypergraph without fixed vertices, and the mapping moves fixed vertices; with the two-phase approach this happens after `forceFixedVertexAssignment`, so the result violates them | C90_refuted_fixed (initial_mapping.cpp:206, partitioner.cpp:371-382) |
| one-to-one mapping, individual block weights | `best_is_balanced` is updated before the test `is_balanced && !best_is_balanced`, which is therefore never true: a processor that is too small is chosen although a larger one is free | C90_refuted_balanced_choice (greedy_mapping.cpp:225-226) |
| initial mapping, more blocks than nodes | with k > #nodes the contraction uses the identity, but `repairEmptyBlocks` takes node i for the i-th nonempty block: the mapped hypergraph has another objective (ASSERT in 213 fails), and if two nodes share a block the entries of the last nodes stay kInvalidHypernode (invalid pins and out-of-bounds accesses) | C91_refuted_small, C91_refuted_shared (initial_mapping.cpp:149-156, 195) |
| initial mapping, weight-zero nodes | a block is taken to be empty if its weight is 0, so a block of weight-zero nodes shifts the renumbering when some block is empty | C91_refuted_weight_zero (initial_mapping.cpp:153) |
| one-to-one mapping, individual block weights | if no free processor is large enough for the seed, the first element of an empty vector is read | C90_refuted_seed (greedy_mapping.cpp:88) |

## Modelled / not modelled

Modelled: `datastructures/` partitioned_hypergraph (all moves, queries, initialization, restore, extract), static_hypergraph and its factory
and contraction, dynamic hypergraph incidence removal/restoration, incident_net_array (n-level contraction and uncontraction of incident nets), the pins of hyperedges and the km1, cut and soed gain caches during batch uncontraction, removal and restoration of single-pin and identical nets, the concurrent registration and execution of contractions (n-level coarsening, without fixed vertices), the gain cache across sequences of parallel refiners, contraction_tree (batch uncontraction hierarchy), mapping (greedy one-to-one mapping, local search), initial_partitioning_data_container (comparison, commit and selection of results), deep_multilevel (numbers of blocks, tree, parallel recursion, extraction of all blocks and application of bipartitions), the whole n-level contraction/uncontraction round trip of a hyperedge and of the node and block weights, static_graph construction, connectivity_set,
pin_count_in_part, sparse_pin_counts, delta_partitioned_hypergraph, fixed_vertex_support, priority_queue; `parallel/parallel_prefix_sum`;
`partition/coarsening/multilevel_coarsener` (clustering protocol), `deterministic_multilevel_coarsener` (one pass), V-cycles, `partition/metrics`, gain caches, attributed gains and rollback of cut / km1 / soed, global_rollback, fm_commons (trackers), multitry_kway_fm (the whole refinement: rounds of concurrent searches, rebalancing, interleaving of the rebalancing moves, rollback, stop rule), fm local search tasks, flows/flow_refinement_scheduler (application and rollback of move sequences, metric and gain cache bookkeeping; not the flow computation), flows/deterministic/deterministic_flow_refinement_scheduler (concurrent application, metrics), deterministic/participation_scheduler, flows/quotient_graph, deterministic/deterministic_jet_refiner (hypergraphs; all but the gain arithmetic), deterministic/deterministic_label_propagation (all but the gain arithmetic of a candidate move and the node permutation), label_propagation/label_propagation_refiner (hypergraphs), gains/gain_computation_base and the km1, cut and soed gain computation, rebalancing/deterministic_rebalancer (hypergraphs), rebalancing/advanced_rebalancer (all but the priority queues and the gain arithmetic),
recursive_bipartitioning, preprocessing removers, partitioner pre-/postprocessing, context weight limits, target graph (shortest paths, Steiner
trees, MST); `io/` hypergraph and partition readers/writers; `lib/` parameter and compatibility checks.

Not modelled (no property claims anything about them): the search heuristics themselves (which node is moved, flow networks,
spectral/community computation, initial partitioners, time limits), the Steiner tree gain
cache, weak memory effects, allocation failure, TBB's and the C++ library's internals, the command line parser, timers and statistics.

## Testing the theorems against wrong programs

`seeded/mutants*.py` list edits of the model; `tools/mutate.py` applies each in a scratch copy and rebuilds, letting broken proofs fail and
continuing past them; `seeded/LOG.jsonl` has one line per attempt with the theorems that failed.

## Trusted base

* Coq 8.16.1's kernel, including the `vm_compute` machine (used for concrete examples and some boolean facts).
* The transcription of the C++ code into the model (by reading only) and the modelling conventions above.
* The axioms below: only axioms of the standard library (real numbers, functional extensionality / classical logic as used by
  `Reals`), for the theorems about floating point, and functional extensionality for some of C62 - C78 and C85. No axioms of this development.
