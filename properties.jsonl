{"id": "C01", "title": "Block weights are exact", "statement": "After a partition object is created from a block assignment and then changed by any sequence of accepted or rejected node moves and single-node assignments, mt_kahypar_block_weight(b) / get_block_weights return, for every block b, exactly the sum of the weights of the nodes whose mt_kahypar_block_id is b.", "quantifier": "every well-formed hypergraph, every k, every initial assignment, every finite sequence of operations", "why_tests_cant": "unit tests check a handful of fixed move sequences; the claim ranges over all histories", "anchors": ["mt-kahypar/datastructures/partitioned_hypergraph.h:initializePartition", "mt-kahypar/datastructures/partitioned_hypergraph.h:setNodePart", "mt-kahypar/datastructures/partitioned_hypergraph.h:changeNodePart", "include/lib_generic_impls.h:block_weight"]}
{"id": "C02", "title": "Pin counts and connectivity are exact", "statement": "After any such sequence, mt_kahypar_num_pins_in_block(e,b) equals the number of pins of e assigned to b, mt_kahypar_connectivity(e) equals the number of distinct blocks the pins of e are assigned to, and mt_kahypar_num_incident_cut_hyperedges(v) equals the number of incident hyperedges spanning at least two blocks.", "quantifier": "every hypergraph, k, hyperedge, block and finite sequence of operations", "why_tests_cant": "incrementally maintained tables can drift only on particular histories", "anchors": ["mt-kahypar/datastructures/partitioned_hypergraph.h:updatePinCountOfHyperedge", "mt-kahypar/datastructures/partitioned_hypergraph.h:incrementPinCountOfBlock", "mt-kahypar/datastructures/partitioned_hypergraph.h:decrementPinCountOfBlock", "mt-kahypar/datastructures/partitioned_hypergraph.h:initializePinCountInPart", "mt-kahypar/datastructures/partitioned_hypergraph.h:numIncidentCutHyperedges"]}
{"id": "C03", "title": "A rejected move has no effect, an accepted move moves exactly one node", "statement": "A node move with a weight limit is accepted exactly if the weight of the target block plus the node weight does not exceed the limit; if it is rejected no reported value changes; if it is accepted exactly that node changes its block and only the two blocks' weights and the pin counts of incident hyperedges in those two blocks change, by exactly the node weight and one pin.", "quantifier": "every consistent state, node, pair of distinct blocks and limit", "why_tests_cant": "frame conditions ('nothing else changes') range over all other nodes, blocks and edges", "anchors": ["mt-kahypar/datastructures/partitioned_hypergraph.h:changeNodePart"]}
{"id": "C04", "title": "Concurrent moves leave consistent data (all schedules)", "statement": "If any number of threads concurrently move nodes (no two threads moving the same node at the same time), then in every interleaving of their atomic steps, whenever no move is in progress the reported block weights, pin counts and connectivity of every hyperedge agree with the current block assignment.", "quantifier": "every hypergraph, every number of threads, every set of moves, every interleaving of the atomic/locked steps", "why_tests_cant": "a test run exercises one schedule out of exponentially many", "anchors": ["mt-kahypar/datastructures/partitioned_hypergraph.h:changeNodePart", "mt-kahypar/datastructures/partitioned_hypergraph.h:updatePinCountOfHyperedge", "mt-kahypar/datastructures/synchronized_edge_update.h"]}
{"id": "C05", "title": "Concurrent moves never overload a block (all schedules)", "statement": "If each move into block b is attempted with limit at most L(b) and block b's nodes weigh at most L(b) initially, then at every instant of every interleaving the total weight of the nodes assigned to b is at most L(b).", "quantifier": "every schedule, every number of threads, all non-negative node weights", "why_tests_cant": "violations need a rare race between weight reservation and block assignment", "anchors": ["mt-kahypar/datastructures/partitioned_hypergraph.h:changeNodePart"]}
{"id": "C06", "title": "Attributed gains sum to the change of the objective (all schedules)", "statement": "For each of the objectives cut, km1 and soed, the sum of the gain values attributed to the hyperedge updates of concurrently executed moves equals objective(after) - objective(before), for every interleaving; hence a refiner's updated quality equals the recomputed metric.", "quantifier": "every hypergraph, every schedule, objectives cut/km1/soed", "why_tests_cant": "attribution depends on which thread observes which pin count; tests see few schedules", "anchors": ["mt-kahypar/partition/refinement/gains/cut/cut_attributed_gains.h", "mt-kahypar/partition/refinement/gains/km1/km1_attributed_gains.h", "mt-kahypar/partition/refinement/gains/soed/soed_attributed_gains.h", "mt-kahypar/datastructures/partitioned_hypergraph.h:updatePinCountOfHyperedge"]}
{"id": "C07", "title": "km1 gain cache is exact and predicts the objective change", "statement": "After initialisation and after any sequence of moves (with recomputation of the moved nodes' invalid terms), for every node u and block t different from u's block, the cached gain of moving u to t equals km1(before) - km1(after that move).", "quantifier": "every hypergraph, partition, move sequence, node and target block", "why_tests_cant": "cache corruption appears only for particular pin-count transitions and histories", "anchors": ["mt-kahypar/partition/refinement/gains/km1/km1_gain_cache.h", "mt-kahypar/partition/refinement/gains/km1/km1_gain_cache.cpp"]}
{"id": "C08", "title": "cut gain cache is exact and predicts the objective change", "statement": "As C07 for the cut metric.", "quantifier": "every hypergraph, partition, move sequence, node and target block", "why_tests_cant": "as C07", "anchors": ["mt-kahypar/partition/refinement/gains/cut/cut_gain_cache.h", "mt-kahypar/partition/refinement/gains/cut/cut_gain_cache.cpp"]}
{"id": "C09", "title": "soed gain cache is exact and predicts the objective change", "statement": "As C07 for the sum-of-external-degrees metric.", "quantifier": "every hypergraph, partition, move sequence, node and target block", "why_tests_cant": "as C07", "anchors": ["mt-kahypar/partition/refinement/gains/soed/soed_gain_cache.h", "mt-kahypar/partition/refinement/gains/soed/soed_gain_cache.cpp"]}
{"id": "C10", "title": "Gain cache entries of unmoved nodes stay exact under every schedule", "statement": "When nodes are moved concurrently with delta gain updates of the km1 cache, then in every interleaving, once all moves are finished, every benefit term and the penalty term of every node that was not moved equals its recomputed value, and recomputing the invalid terms repairs the moved nodes.", "quantifier": "every hypergraph, every set of moves, every interleaving", "why_tests_cant": "races between two moves on one hyperedge occur only in few schedules", "anchors": ["mt-kahypar/partition/refinement/gains/km1/km1_gain_cache.cpp:deltaGainUpdate", "mt-kahypar/datastructures/partitioned_hypergraph.h:changeNodePart"]}
{"id": "C11", "title": "Objective functions mean what the documentation says", "statement": "mt_kahypar_cut is the weight of hyperedges spanning more than one block, mt_kahypar_km1 is the sum of weight*(connectivity-1), mt_kahypar_soed the sum of weight*connectivity over cut hyperedges; the value does not depend on how the parallel reduction splits the edges; soed = km1 + cut, cut <= km1 <= soed, all three coincide appropriately for k = 2 and are zero together.", "quantifier": "every hypergraph, partition and every split tree of the parallel reduction", "why_tests_cant": "algebraic relations over all inputs and all reduction trees", "anchors": ["mt-kahypar/partition/metrics.cpp", "include/lib_generic_impls.h:cut"]}
{"id": "C12", "title": "Reported contribution of a restored hyperedge matches the objective", "statement": "For the objectives km1 and soed, the per-hyperedge contribution used to report the cost of restored large hyperedges equals that hyperedge's share of the objective. (Finding: for cut the code returns the soed share, which differs from the cut share of every cut hyperedge of non-zero weight; proved as C12_contribution_cut_is_soed and C12_refuted_for_cut.)", "quantifier": "every hyperedge and partition, objectives km1 and soed", "why_tests_cant": "tests do not compare contribution() with quality() for every objective", "anchors": ["mt-kahypar/partition/metrics.cpp:contribution", "mt-kahypar/partition/preprocessing/sparsification/large_he_remover.h:restoreSinglePinAndLargeHyperedges"]}
{"id": "C13", "title": "Packed pin counters behave as an array of counters", "statement": "For every k, every number of hyperedges and every maximum value, the bit-packed pin count table returns for (e,b) exactly the value last set/incremented/decremented for (e,b), and no operation on one entry changes another entry; all accesses stay inside the allocated array.", "quantifier": "all k, all maximum hyperedge sizes below 2^32-1, all operation sequences", "why_tests_cant": "packing layout depends on k and max size; interference occurs only at particular word boundaries", "anchors": ["mt-kahypar/datastructures/pin_count_in_part.h"]}
{"id": "C14", "title": "Connectivity sets behave as sets", "statement": "A connectivity set reports contains/size/iteration consistent with the mathematical set of blocks added and not removed; iteration yields each contained block exactly once in increasing order.", "quantifier": "all k, all operation sequences with add only of absent and remove only of present blocks; for iteration all hyperedge ids e with e * ceil(k/64) < 2^32 (beyond that the code's 32-bit product makes iteration read another hyperedge's bits: C14_iteration_refuted_for_large_index)", "why_tests_cant": "bit tricks at 64-bit word boundaries", "anchors": ["mt-kahypar/datastructures/connectivity_set.h", "mt-kahypar/datastructures/static_bitset.h"]}
{"id": "C15", "title": "Sparse (large-k) pin counts behave like dense ones", "statement": "The pin count structure used by the LARGE_K preset returns the same pin counts, connectivity and connectivity set as a plain map from blocks to positive counts, including when entries move to the external overflow list.", "quantifier": "all operation sequences, any number of blocks per hyperedge", "why_tests_cant": "overflow and swap-with-last paths depend on history", "anchors": ["mt-kahypar/datastructures/sparse_pin_counts.h"]}
{"id": "C16", "title": "Thread-local delta partition is the partition with the local moves applied", "statement": "After any sequence of local moves, the thread-local view used by FM searches reports block ids, block weights, pin counts and connectivity equal to those of the shared partition with exactly these moves applied; clearing it restores the shared view.", "quantifier": "all sequences of local moves", "why_tests_cant": "overlay arithmetic must be right for all histories", "anchors": ["mt-kahypar/datastructures/delta_partitioned_hypergraph.h", "mt-kahypar/datastructures/delta_connectivity_set.h"]}
{"id": "C17", "title": "Thread-local delta view never confuses two hyperedges", "statement": "The overlay key of (hyperedge, block) is unique for all hyperedges e and blocks as long as (e+1)*k <= 2^32. (Finding: for every k >= 2 there are valid 32-bit hyperedge ids beyond that bound whose keys collide: C17_refuted_beyond_32_bits.)", "quantifier": "all numbers of hyperedges and blocks", "why_tests_cant": "needs |E|*k >= 2^32, beyond test sizes", "anchors": ["mt-kahypar/datastructures/delta_partitioned_hypergraph.h:_pins_in_part_delta"]}
{"id": "C18", "title": "Contraction preserves weight and node mapping", "statement": "Contracting a clustering yields a hypergraph whose nodes are exactly the non-empty clusters (numbered densely), each weighing the sum of its members, so the total weight is unchanged; two nodes map to the same coarse node exactly if they are in the same cluster; and a partition of the coarse hypergraph has the same block weights as its projection.", "quantifier": "every hypergraph, every clustering", "why_tests_cant": "all clusterings cannot be enumerated", "anchors": ["mt-kahypar/datastructures/static_hypergraph.cpp:contract", "mt-kahypar/partition/coarsening/multilevel_uncoarsener.cpp:projectToNextLevelAndRefineImpl"]}
{"id": "C19", "title": "Contraction preserves the objective", "statement": "For every partition of the contracted hypergraph, its cut, km1 and soed equal those of the projected partition of the finer hypergraph (so quality does not change when projecting to the next level).", "quantifier": "every hypergraph, clustering and coarse partition", "why_tests_cant": "removal of single-pin and merging of identical nets must be value preserving on all inputs", "anchors": ["mt-kahypar/datastructures/static_hypergraph.cpp:contract", "mt-kahypar/partition/coarsening/multilevel_uncoarsener.cpp"]}
{"id": "C20", "title": "Contraction yields a well-formed hypergraph", "statement": "The contracted hypergraph has no single-pin hyperedges, no duplicate pins, no two hyperedges with equal pin sets, pins in range, and incident-net lists that are exactly the inverse of the pin lists.", "quantifier": "every well-formed hypergraph and clustering", "why_tests_cant": "structural invariant over all inputs, including hash collisions", "anchors": ["mt-kahypar/datastructures/static_hypergraph.cpp:contract"]}
{"id": "C21", "title": "Fixed vertices survive coarsening", "statement": "Provided the fixed vertices have positive total weight (finding: with total weight zero the code treats the input as having no fixed vertices and merges them freely), contracting nodes never merges vertices fixed to different blocks, a coarse node containing a fixed vertex is fixed to that vertex's block, the tracked fixed weight per block equals the sum of the weights of fixed nodes, and accepted contractions never push it over the maximum; uncontracting in reverse order restores the previous fixed-vertex state exactly.", "quantifier": "every sequence of contractions / reverse uncontractions", "why_tests_cant": "bookkeeping over all contraction histories", "anchors": ["mt-kahypar/datastructures/fixed_vertex_support.cpp", "mt-kahypar/datastructures/fixed_vertex_support.h"]}
{"id": "C22", "title": "Fixed vertices end in their block", "statement": "After the final enforcement pass of partitioning, every vertex fixed by mt_kahypar_add_fixed_vertices is in the block it was fixed to provided the fixed vertices have positive total weight (finding: otherwise the pass is skipped), all free vertices keep their block, and block weights, pin counts and connectivity are those of the resulting partition, for every interleaving of the parallel moves.", "quantifier": "every hypergraph with fixed vertices, every partition computed before enforcement", "why_tests_cant": "depends on all intermediate partitions; and on vertex weights being zero", "anchors": ["mt-kahypar/partition/partitioner.cpp:forceFixedVertexAssignment", "mt-kahypar/datastructures/fixed_vertex_support.h:hasFixedVertices"]}
{"id": "C23", "title": "Fixed vertex input is validated", "statement": "mt_kahypar_add_fixed_vertices succeeds exactly if every entry is -1 or a block id in [0,k), and then is_fixed/fixed_vertex_block report exactly the given entries; otherwise it reports INVALID_INPUT and the hypergraph's fixed vertices are unchanged.", "quantifier": "all arrays of fixed vertex entries and all k", "why_tests_cant": "all inputs", "anchors": ["mt-kahypar/io/hypergraph_factory.cpp:addFixedVertices", "lib/mtkahypar.cpp:mt_kahypar_add_fixed_vertices"]}
{"id": "C24", "title": "Recursive bipartitioning assigns every node to a block of its range", "statement": "Whatever bipartitions are computed at the inner nodes, recursive bipartitioning into k blocks assigns every node a block id in [0,k), with correct reported block weights, and fixed vertices (if each bipartition respects its side) end in their block.", "quantifier": "every k >= 2, every hypergraph, every sequence of bipartitions", "why_tests_cant": "block id arithmetic for all k and all recursion trees", "anchors": ["mt-kahypar/partition/recursive_bipartitioning.cpp"]}
{"id": "C25", "title": "Cut-net splitting/removal makes recursive bipartitioning objectives additive", "statement": "For a bipartition refined by partitions of its two extracted blocks: the k-way km1 equals the bipartition cut plus the km1 values of the two extracted blocks (with cut-net splitting), and the k-way cut equals the bipartition cut plus the cuts of the extracted blocks (with cut nets discarded), and for sum of external degrees the first cut of a hyperedge counts twice and later ones once. Consequently the objective of the final k-way partition of recursive bipartitioning equals the sum of the objective values of all bipartitions computed on the way. With cut-net splitting (km1, soed, steiner_tree) this holds under every interleaving of the two recursive tasks. Finding: with the cut objective and k >= 4 it holds only if no node is being moved while a block is extracted: otherwise the extraction can observe a transient connectivity of 1 for a cut hyperedge and either write out of bounds or keep a cut hyperedge. Finding: with soed, hyperedge weights of 2^30 and more overflow when they are doubled.", "quantifier": "every hypergraph, all partitions, all recursion trees and all interleavings of the recursive tasks", "why_tests_cant": "algebraic identity over all inputs and all schedules", "anchors": ["mt-kahypar/datastructures/partitioned_hypergraph.h:extract", "mt-kahypar/partition/recursive_bipartitioning.cpp:recursively_bipartition_block"]}
{"id": "C26", "title": "FM rollback recomputes the true gains of a move sequence", "statement": "For a sequence of moves of distinct nodes performed in parallel, the gain the rollback algorithm attributes to each move equals the decrease of the objective (km1, cut, soed) caused by that move when the sequence is executed one after another.", "quantifier": "every hypergraph, initial partition and move sequence", "why_tests_cant": "the first-in/last-out argument must hold for every sequence", "anchors": ["mt-kahypar/partition/refinement/fm/global_rollback.cpp:recalculateGainForHyperedge", "mt-kahypar/partition/refinement/gains/km1/km1_rollback.h", "mt-kahypar/partition/refinement/gains/cut/cut_rollback.h", "mt-kahypar/partition/refinement/gains/soed/soed_rollback.h"]}
{"id": "C27", "title": "FM rollback keeps the best balanced prefix", "statement": "The prefix of the move sequence that is kept has maximum total gain among all balanced prefixes (the empty prefix included when the input is balanced), independent of how the parallel scan splits the sequence; so a round never worsens the objective of a balanced partition, and a balanced partition stays balanced.", "quantifier": "every move sequence, gains, block weights, every split of the parallel scan", "why_tests_cant": "scan split trees and ties cannot be enumerated", "anchors": ["mt-kahypar/partition/refinement/fm/global_rollback.cpp:BalanceAndBestIndexScan", "mt-kahypar/partition/refinement/fm/global_rollback.cpp:revertToBestPrefixParallel"]}
{"id": "C28", "title": "Reverting moves restores the prefix partition", "statement": "After rollback to prefix length i, the partition (block ids, weights, pin counts, connectivity) is exactly the one obtained by executing only the first i moves from the initial partition.", "quantifier": "every move sequence and i", "why_tests_cant": "history dependent", "anchors": ["mt-kahypar/partition/refinement/fm/global_rollback.cpp"]}
{"id": "C29", "title": "Restored isolated nodes are assigned and balanced", "statement": "All removed degree-zero nodes are assigned to blocks when restored, each to a block with the largest remaining capacity at that time, without changing the objective; block weights stay exact; in particular, if the remaining nodes are balanced, every removed node weighs at most 1 and the block capacities suffice in total, the result is balanced.", "quantifier": "every set of removed nodes, weights, capacities and partition", "why_tests_cant": "all inputs", "anchors": ["mt-kahypar/partition/preprocessing/sparsification/degree_zero_hn_remover.h"]}
{"id": "C30", "title": "Removing and restoring hyperedges is lossless", "statement": "Removing hyperedges from the hypergraph and restoring them yields the same hypergraph (same incident hyperedges of each node up to order), and after restoring them in a partition pin counts and connectivity of the restored hyperedges are exact.", "quantifier": "every hypergraph and every set of removed hyperedges, restored in any order", "why_tests_cant": "swap based incident-net arrays are history dependent", "anchors": ["mt-kahypar/datastructures/static_hypergraph.h:removeEdge", "mt-kahypar/datastructures/static_hypergraph.h:restoreEdge", "mt-kahypar/datastructures/partitioned_hypergraph.h:restoreLargeEdge", "mt-kahypar/partition/preprocessing/sparsification/large_he_remover.h"]}
{"id": "C31", "title": "mt_kahypar_improve_partition returns a consistent partition of the complete hypergraph for every num_vcycles >= 1", "statement": "After mt_kahypar_improve_partition(phg, context, num_vcycles) with num_vcycles >= 1 and a preset of mode direct, all nodes are assigned and the reported block weights, pin counts and connectivity agree with the block ids on the complete hypergraph. (Findings, proved as refutations: with num_vcycles = 0 hyperedges removed in preprocessing are reported with connectivity 0 and removed isolated nodes are counted twice in the block weights; with a preset of another mode, e.g. LARGE_K, the call fails after preprocessing and leaves the hypergraph without the removed nodes and hyperedges.)", "quantifier": "all hypergraphs, partitions, numbers of V-cycles, and results of the V-cycles", "why_tests_cant": "all histories; edge value 0 and failing presets", "anchors": ["mt-kahypar/partition/partitioner.cpp:partitionVCycle", "mt-kahypar/partition/multilevel.cpp:partitionVCycle", "include/lib_helper_functions.h:improve_impl"]}
{"id": "C32", "title": "Reading a number accepts exactly the representable ones", "statement": "The file parser accepts a decimal number exactly if it is at most the maximum of the target type and returns its value; larger numbers are reported as INVALID_INPUT, never wrapped.", "quantifier": "all digit strings, all bounds", "why_tests_cant": "unbounded set of inputs", "anchors": ["mt-kahypar/io/io_utils.h:read_number"]}
{"id": "C33", "title": "hMetis files are read as written", "statement": "For every hypergraph, reading its hMetis file (with or without weights, comment lines before the header, between hyperedge lines, between the hyperedges and the vertex weights and at the end of the file) yields exactly its hyperedges in order (with duplicate pins and, if requested, single-pin hyperedges removed), weights and node weights, independent of the number of threads/ranges used.", "quantifier": "all hypergraphs, weight formats, comments, numbers of parallel ranges", "why_tests_cant": "all inputs and all splits into ranges", "anchors": ["mt-kahypar/io/hypergraph_io.cpp:readHypergraphFile", "mt-kahypar/io/io_utils.h:split_lines", "mt-kahypar/utils/deduplicate.h"]}
{"id": "C34", "title": "Reading a file never reads outside the mapped file", "statement": "For every input file whose size is not a multiple of the page size the reader only accesses bytes of the mapped file or the zero byte behind it, whatever the file contains; it returns a result or reports an error (a file whose size is a page multiple is read one byte behind the mapping).", "quantifier": "all file contents and sizes", "why_tests_cant": "only files whose size is a multiple of the page size expose it", "anchors": ["mt-kahypar/io/io_utils.h", "mt-kahypar/io/hypergraph_io.cpp"]}
{"id": "C35", "title": "Partition files round-trip", "statement": "mt_kahypar_write_partition_to_file followed by mt_kahypar_read_partition_from_file yields the same block id for every node; files with too few or too many entries are rejected.", "quantifier": "all partitions", "why_tests_cant": "all inputs", "anchors": ["mt-kahypar/io/hypergraph_io.cpp:writePartitionFile", "mt-kahypar/io/hypergraph_io.cpp:readPartitionFile"]}
{"id": "C36", "title": "Hypergraph construction validates input and is schedule independent", "statement": "mt_kahypar_create_hypergraph succeeds exactly if indices are ascending from 0, every hyperedge has at least one and at most n entries and all pins are in range; the resulting pin lists are the given ones without duplicates, and the incident hyperedges of each node are exactly those containing it, sorted, independent of thread scheduling.", "quantifier": "all inputs, all schedules of the parallel construction", "why_tests_cant": "all inputs and schedules", "anchors": ["include/lib_helper_functions.h:create_hypergraph_from_adjacency_array", "mt-kahypar/datastructures/static_hypergraph_factory.cpp"]}
{"id": "C37", "title": "Graph construction validates input and stores both directions consistently", "statement": "mt_kahypar_create_graph rejects self loops and out-of-range endpoints; otherwise each input edge is stored in both directions with the same unique id and weight, the incident edges of each node are sorted by target and, if there are no parallel edges, independent of thread scheduling (finding: with parallel edges their order depends on the schedule).", "quantifier": "all inputs, all schedules", "why_tests_cant": "in-place permutation loop over all permutations", "anchors": ["mt-kahypar/datastructures/static_graph_factory.cpp"]}
{"id": "C38", "title": "Block weight limits are computed as documented and are feasible", "statement": "With uniform limits, every block's maximum weight is floor((1+eps)*ceil(W/k)) up to the rounding of two double operations, at least ceil(W/k) for eps >= 0, hence k blocks can hold the total weight; with individual limits whose sum fits into an int, exactly the inputs whose limits sum to less than the total weight are rejected, the limits are kept and each block's perfect weight is at most its limit; no coarse node may become heavier than the smallest limit.", "quantifier": "all W, k >= 1, eps >= 0, limits", "why_tests_cant": "all inputs, integer overflow", "anchors": ["mt-kahypar/partition/context.cpp:setupPartWeights"]}
{"id": "C39", "title": "Balance check means what it says", "statement": "A partition is reported balanced exactly if no block exceeds its limit and the number of empty blocks does not exceed what the removed isolated nodes can fill (unless large-k), and imbalance is the maximum relative excess minus one.", "quantifier": "all partitions and contexts", "why_tests_cant": "all inputs", "anchors": ["mt-kahypar/partition/metrics.cpp:isBalanced", "mt-kahypar/partition/metrics.cpp:imbalance"]}
{"id": "C40", "title": "Context parameters are validated and read back", "statement": "Setting NUM_BLOCKS/OBJECTIVE/VERBOSE through mt_kahypar_set_context_parameter either stores the value which the getters return, or reports INVALID_PARAMETER and leaves the context unchanged; OBJECTIVE and VERBOSE accept exactly the documented strings, decimal integers in the range of the type are stored exactly as block count (including, contrary to the documentation, non-positive ones), and strings without a number are rejected.", "quantifier": "all strings", "why_tests_cant": "all inputs", "anchors": ["lib/mtkahypar.cpp:mt_kahypar_set_context_parameter"]}
{"id": "C41", "title": "Preset compatibility is enforced", "statement": "mt_kahypar_partition and improve succeed only if the hypergraph/partition data structure belongs to the preset (as mt_kahypar_check_compatibility reports), and the data structure created for a preset is always compatible with it.", "quantifier": "all presets and data structure types", "why_tests_cant": "finite but exhaustive", "anchors": ["include/lib_helper_functions.h:is_compatible", "mt-kahypar/partition/conversion.cpp"]}
{"id": "C42", "title": "Distances in the target graph are shortest path lengths", "statement": "After initialisation, the distance of two blocks of the target graph equals the length of a shortest path between them.", "quantifier": "all connected target graphs with non-negative weights", "why_tests_cant": "all graphs", "anchors": ["mt-kahypar/partition/mapping/all_pair_shortest_path.cpp"]}
{"id": "C43", "title": "Querying a distance does not change the connectivity set", "statement": "distanceWithBlock / distanceWithoutBlock / distanceAfterExchangingBlocks return the distance of the modified block set and leave the caller's set unchanged; the precomputed table index of block sets is injective.", "quantifier": "all block sets up to the precomputed size", "why_tests_cant": "all sets", "anchors": ["mt-kahypar/partition/mapping/target_graph.h"]}
{"id": "C44", "title": "A node is owned by at most one FM search", "statement": "In every interleaving of searches acquiring and releasing nodes, no node is ever held by two searches, and a node moved or deactivated in a round is not acquired again in that round (with at most 20 search tasks per round; finding: with more, the reserve of search ids is exceeded and, after the 32-bit ids are used up, a node can be acquired twice).", "quantifier": "all interleavings", "why_tests_cant": "data races", "anchors": ["mt-kahypar/partition/refinement/fm/fm_commons.h:NodeTracker"]}
{"id": "C45", "title": "Move ids are unique and dense", "statement": "Moves inserted concurrently in a round get distinct consecutive ids; wasNodeMovedInThisRound is true exactly for nodes inserted in the current round, also across rounds.", "quantifier": "all interleavings, all numbers of rounds", "why_tests_cant": "history dependent; id wrap-around", "anchors": ["mt-kahypar/partition/refinement/fm/fm_commons.h:GlobalMoveTracker"]}
{"id": "C46", "title": "Parallel prefix sums equal sequential prefix sums", "statement": "The parallel scan used for renumbering yields, for every split, the sequential prefix sums.", "quantifier": "all arrays and all splits", "why_tests_cant": "all split trees", "anchors": ["mt-kahypar/parallel/parallel_prefix_sum.h"]}
{"id": "C47", "title": "Priority queue returns a maximum-priority element", "statement": "The addressable heap used by FM always returns an element with maximum key among those inserted, with the key last set for it, under any sequence of insert, remove, adjust operations.", "quantifier": "all operation sequences", "why_tests_cant": "history dependent heap order and position index", "anchors": ["mt-kahypar/datastructures/priority_queue.h"]}
{"id": "C48", "title": "Concurrent moves cannot deadlock and always finish", "statement": "In every reachable state of concurrently executed node moves (per-hyperedge spin locks, at most one held per thread) that is not quiescent some thread can take a step, and once no further moves are started only a bounded number of steps remains.", "quantifier": "every hypergraph, number of threads, schedule, gain cache (cut/km1/soed)", "why_tests_cant": "deadlocks and livelocks depend on the schedule", "anchors": ["mt-kahypar/datastructures/partitioned_hypergraph.h:updatePinCountOfHyperedge", "mt-kahypar/datastructures/partitioned_hypergraph.h:changeNodePart"]}
{"id": "C49", "title": "Metis files are read as written", "statement": "For every list of adjacency lists, reading its Metis file (with or without edge and vertex weights, comment lines before the header, between vertex lines and at the end) yields exactly the edges listed at their smaller endpoint in file order with their weights and the vertex weights, independent of the number of threads/ranges used.", "quantifier": "all graphs, weight formats, comments, numbers of parallel ranges", "why_tests_cant": "all inputs and all splits into ranges", "anchors": ["mt-kahypar/io/hypergraph_io.cpp:readGraphFile", "mt-kahypar/io/hypergraph_io.cpp:readVertices", "mt-kahypar/io/io_utils.h:split_lines"]}
{"id": "C50", "title": "Precomputed Steiner tree weights are optimal", "statement": "After initialising a connected target graph with k blocks for sets of up to m blocks (2 <= m <= k+1), the distance of every set of at most m blocks is the weight of a minimum Steiner tree (the cheapest set of target graph edges connecting the blocks), every table access is in bounds, and the set enumerations visit every subset exactly as needed and terminate.", "quantifier": "all connected target graphs with non-negative weights below the overflow bound, all m <= k+1, all block sets", "why_tests_cant": "optimality over all graphs and sets", "anchors": ["mt-kahypar/partition/mapping/steiner_tree.cpp", "mt-kahypar/partition/mapping/set_enumerator.h", "mt-kahypar/partition/mapping/target_graph.cpp:precomputeDistances"]}
{"id": "C51", "title": "Distances of large block sets are within a factor of two of the optimum", "statement": "For block sets larger than the precomputed size the returned distance is the weight of an edge set connecting the blocks and at most twice the weight of a minimum Steiner tree; the computation terminates without overflow.", "quantifier": "all connected target graphs, all block sets, all stale thread-local states", "why_tests_cant": "approximation guarantee over all inputs", "anchors": ["mt-kahypar/partition/mapping/target_graph.cpp:computeWeightOfMSTOnMetricCompletion"]}
{"id": "C52", "title": "Block set distances do not depend on earlier or concurrent queries", "statement": "For target graphs with at most 64 blocks, the answer for a block set is the same whatever sets were queried before or concurrently by any thread (cached or not), is exact up to the precomputed size and within a factor of two above.", "quantifier": "all histories of queries and all interleavings of cache lookups and insertions", "why_tests_cant": "cache contents depend on history and schedule", "anchors": ["mt-kahypar/partition/mapping/target_graph.cpp:distance", "mt-kahypar/partition/mapping/target_graph.h:computeHash"]}
{"id": "C53", "title": "Disconnected target graphs are rejected, connected ones accepted", "statement": "Initialising a target graph throws InvalidInputException exactly if the graph is not connected; the check terminates for every graph with at least one block.", "quantifier": "all target graphs", "why_tests_cant": "all graphs", "anchors": ["mt-kahypar/partition/mapping/target_graph.cpp:inputGraphIsConnected"]}
{"id": "C54", "title": "A partitioning call returns a partition of the complete input hypergraph", "statement": "Before partitioning, isolated nodes and single-pin and large hyperedges are removed, afterwards restored: whatever partition the partitioner computes on the reduced hypergraph, the call returns a hypergraph equal to the input (up to the order of incident hyperedges) with every node assigned to a block, exact block weights, pin counts and connectivity; nodes that were not removed keep the computed block and cut/km1/soed equal the value on the reduced hypergraph plus the contribution of the removed large hyperedges. This also holds for repeated calls on the same hypergraph.", "quantifier": "all hypergraphs, thresholds, contraction limits, schedules, partitioners using the partition API", "why_tests_cant": "all histories of removals and all partitions", "anchors": ["mt-kahypar/partition/partitioner.cpp:partition", "mt-kahypar/partition/partitioner.cpp:sanitize", "mt-kahypar/partition/preprocessing/sparsification/large_he_remover.h", "mt-kahypar/partition/preprocessing/sparsification/degree_zero_hn_remover.h"]}
{"id": "C55", "title": "Parallel coarsening only merges nodes of the same community", "statement": "However the threads interleave, at every moment of a coarsening pass the cluster of a node is identified by a node of the same community; disabled nodes stay alone.", "quantifier": "all hypergraphs, proposed partners, numbers of threads, interleavings of matchVertices/joinCluster", "why_tests_cant": "all interleavings of a lock-free protocol", "anchors": ["mt-kahypar/partition/coarsening/multilevel_coarsener.h:matchVertices", "mt-kahypar/partition/coarsening/multilevel_coarsener.h:joinCluster"]}
{"id": "C56", "title": "Parallel coarsening never hangs", "statement": "Under every fair schedule finitely many concurrent match requests all return: the busy waiting on concurrently matched nodes and on cyclic matching dependencies ends; no thread is ever stuck.", "quantifier": "all infinite fair executions, any number of threads, any dependency structure", "why_tests_cant": "absence of deadlock and livelock cannot be tested", "anchors": ["mt-kahypar/partition/coarsening/multilevel_coarsener.h:matchVertices"]}
{"id": "C57", "title": "Clusters exceed the maximum node weight by at most one node per additional thread", "statement": "After a parallel coarsening pass with t threads no coarse node is heavier than max(weight of one of its nodes, limit + (t-1) * largest node weight), for every interleaving; with one thread the limit is kept. The limit itself is not kept with two threads (documented race, refutation proved).", "quantifier": "all weights, limits, numbers of threads and interleavings", "why_tests_cant": "all interleavings", "anchors": ["mt-kahypar/partition/coarsening/multilevel_coarsener.h:joinCluster"]}
{"id": "C58", "title": "A coarsening pass reports the clusters it built", "statement": "If no cyclic matching dependency was resolved during the pass (in particular with one thread), every node points to the representative of its cluster, the recorded cluster weights are the sums of the node weights and the reported number of coarse nodes is the number of clusters. When a cyclic dependency is resolved each of these can fail (refutations proved): the resolving thread joins twice, a node can be joined to itself so that the unsigned node count wraps, and a cluster can lose its representative.", "quantifier": "all inputs and all interleavings without resolved cycles; counterexamples with", "why_tests_cant": "depends on the interleaving", "anchors": ["mt-kahypar/partition/coarsening/multilevel_coarsener.h:matchVertices", "mt-kahypar/partition/coarsening/multilevel_coarsener.h:performClustering"]}
{"id": "C59", "title": "A V-cycle starts from the given partition", "statement": "Improving a partition by V-cycles coarsens without merging nodes of different blocks and starts refinement from the given partition: the initial partition of the coarsest hypergraph, projected to the input, is the given partition, with the same block weights, cut, km1 and soed.", "quantifier": "all hypergraphs and partitions, any number of passes, threads and interleavings", "why_tests_cant": "all inputs and schedules", "anchors": ["mt-kahypar/partition/multilevel.cpp:partitionVCycle", "mt-kahypar/partition/multilevel.cpp:multilevel_partitioning", "mt-kahypar/datastructures/static_hypergraph.cpp:contract", "mt-kahypar/partition/coarsening/multilevel_coarsener.h"]}
{"id": "C60", "title": "Interleaving rebalancing moves yields a sequence the rollback can handle", "statement": "In an unconstrained FM round, merging the rebalancing moves into the move sequence always succeeds without exceeding one entry per node; afterwards each node is moved at most once and from its block at the start of the round, executing the sequence gives the rebalanced partition, moves of other nodes keep their order, and before each of them every overloaded block has no rebalancing move left. Consequently the round never worsens a partition, keeps a balanced one balanced, and is at least as good as the rebalanced partition when that is balanced.", "quantifier": "all hypergraphs, move sequences, rebalancing moves, weight limits and orders of the parallel merge loop", "why_tests_cant": "ranges over all sequences and the recursion of insertMovesToBalanceBlock", "anchors": ["mt-kahypar/partition/refinement/fm/multitry_kway_fm.cpp:interleaveMoveSequenceWithRebalancingMoves", "mt-kahypar/partition/refinement/fm/multitry_kway_fm.cpp:insertMovesToBalanceBlock", "mt-kahypar/partition/refinement/fm/fm_commons.h:GlobalMoveTracker"]}
{"id": "C61", "title": "The parallel rebalancer only repairs, and reports exactly what it did", "statement": "When a rebalancing call returns, only non-fixed nodes of blocks that were overloaded have moved, no block has become overloaded and no overloaded block heavier; the returned flag is true exactly if the partition is balanced, and it is false only if every task ran out of candidate nodes; the reported change of km1 / cut / soed is exact; the reported moves contain each moved node exactly once with its old and new block and are what unconstrained FM may interleave; after the recomputation of invalidated entries all gains in the gain cache are exact. During the call a node is moved only by the task that claimed it, from the block it is in, and the move array is never overrun.", "quantifier": "all hypergraphs, partitions, weight limits, numbers of threads, interleavings and choices of the priority queues", "why_tests_cant": "depends on the interleaving of node claims, weight reservations and overload flags", "anchors": ["mt-kahypar/partition/refinement/rebalancing/advanced_rebalancer.cpp:findMoves", "mt-kahypar/partition/refinement/rebalancing/advanced_rebalancer.cpp:refineInternalParallel", "mt-kahypar/partition/refinement/rebalancing/advanced_rebalancer.cpp:insertNodesInOverloadedBlocks", "mt-kahypar/partition/refinement/rebalancing/advanced_rebalancer.h:NodeState"]}
{"id": "C62", "title": "Deterministic coarsening does not depend on the schedule", "statement": "For a hypergraph with positive node weights and without fixed vertices, a clustering pass of the deterministic coarsener always produces the same clusters and the same number of coarse nodes, whatever the interleaving of its parallel loops, the order in which buffered vectors are filled and the order of the nodes within a sub-round. With fixed vertices this holds for a pass with one sub-round. (Finding: with fixed vertices and two sub-rounds it fails, because the coarsener ignores that updating the weight of a fixed vertex block can fail and which node fails depends on the schedule: C62_refuted_fixed_vertices.)", "quantifier": "all hypergraphs, scores, tie breakings, weight limits, partitions into sub-rounds and all interleavings of the five parallel loops", "why_tests_cant": "ranges over all schedules; a test sees a few of them", "anchors": ["mt-kahypar/partition/coarsening/deterministic_multilevel_coarsener.cpp:coarseningPassImpl", "mt-kahypar/partition/coarsening/deterministic_multilevel_coarsener.cpp:clusterNodesInRange", "mt-kahypar/partition/coarsening/deterministic_multilevel_coarsener.cpp:approveNodes", "mt-kahypar/partition/coarsening/deterministic_multilevel_coarsener.cpp:handleNodeSwaps"]}
{"id": "C63", "title": "Deterministic coarsening keeps its limits and counts its clusters", "statement": "After a pass of the deterministic coarsener on positive node weights, with or without fixed vertices and for every schedule: each node is in a cluster named by a node of its own community, a cluster with more than one node is not heavier than the limit, the reported number of nodes is the number of clusters, a fixed vertex is in a cluster named by a vertex fixed to the same block, and the approval loop never reads behind its vector. (Findings: with nodes of weight zero the reported number is wrong; the weight limit of the fixed vertex blocks can be exceeded.)", "quantifier": "all hypergraphs, parameters, partitions into sub-rounds and interleavings", "why_tests_cant": "ranges over all inputs and schedules", "anchors": ["mt-kahypar/partition/coarsening/deterministic_multilevel_coarsener.cpp:clusterNodesInRange", "mt-kahypar/partition/coarsening/deterministic_multilevel_coarsener.cpp:calculatePreferredTargetCluster", "mt-kahypar/partition/coarsening/deterministic_multilevel_coarsener.cpp:approveNodes", "mt-kahypar/partition/coarsening/policies/rating_fixed_vertex_acceptance_policy.h:acceptContraction"]}
{"id": "C64", "title": "Deterministic label propagation never makes a partition worse", "statement": "A call of the deterministic label propagation refiner on node weights that fit into 32 bits always terminates, the sum of the gains it accumulates is non-negative and exactly the decrease of km1 / cut / soed, fixed vertices keep their block, the partition data structure stays consistent, and a balanced partition stays balanced; in particular the loop that invalidates moves until no block is overloaded ends and stays inside its vector. (Finding: if the input is overloaded and three other blocks send nodes into an overloaded block, its negative budget is divided as an unsigned number, and the overloaded block becomes even heavier: C64_refuted_overloaded.)", "quantifier": "all hypergraphs, partitions, weight limits, fixed vertices, candidate moves, sub-round ranges, iterations, and all interleavings of the parallel loops", "why_tests_cant": "ranges over all inputs and schedules", "anchors": ["mt-kahypar/partition/refinement/deterministic/deterministic_label_propagation.cpp:refineImpl", "mt-kahypar/partition/refinement/deterministic/deterministic_label_propagation.cpp:applyMovesByMaximalPrefixesInBlockPairs", "mt-kahypar/partition/refinement/deterministic/deterministic_label_propagation.cpp:applyMovesSortedByGainAndRevertUnbalanced"]}
{"id": "C65", "title": "Deterministic label propagation does not depend on the schedule", "statement": "Two calls of the deterministic label propagation refiner on the same partition with the same candidate function and node ranges produce the same partition and report the same gain, whatever the interleaving of the calculation, application and activation loops; one sub-round equals a sequential function of the partition. The nodes that are active in the next iteration are exactly the pins of the small hyperedges of the moved nodes, each exactly once.", "quantifier": "all hypergraphs, partitions, parameters and pairs of interleavings", "why_tests_cant": "ranges over all pairs of schedules; a test sees a few of them", "anchors": ["mt-kahypar/partition/refinement/deterministic/deterministic_label_propagation.cpp:refineImpl", "mt-kahypar/partition/refinement/deterministic/deterministic_label_propagation.cpp:applyMovesIf", "mt-kahypar/partition/refinement/deterministic/deterministic_label_propagation.h:calculateAndSaveBestMove"]}
{"id": "C66", "title": "The swap prefixes of two blocks are the longest balanced ones", "statement": "For two blocks, the recursive parallel search for the prefixes of the two sorted move lists returns the same result as the sequential search, and that result is the componentwise maximum of all pairs of prefixes whose weight difference respects both budgets. (Finding: with an overloaded block, whose budget is negative, existing solutions are missed: C66_refuted_overloaded.)", "quantifier": "all cumulative weight sequences, budgets containing 0, list lengths and cut-off sizes of at least 2", "why_tests_cant": "ranges over all weight sequences and recursion depths", "anchors": ["mt-kahypar/partition/refinement/deterministic/deterministic_label_propagation.cpp:findBestPrefixesRecursive", "mt-kahypar/partition/refinement/deterministic/deterministic_label_propagation.cpp:findBestPrefixesSequentially"]}
{"id": "C67", "title": "The deterministic rebalancer reports exactly what it did, stops, and does not depend on the schedule", "statement": "A rebalancing call of the deterministic rebalancer always ends after at most 30 rounds (or the configured smaller number), reports the exact change of km1 / cut / soed, does not move fixed vertices, does not touch a balanced partition, stops early only if the partition is balanced, and its result does not depend on the schedule: it is the result of a sequential function. In each round nodes leave only overloaded blocks and go only to blocks that could take them alone; an overloaded block does not become heavier; if it stays overloaded then all candidates have left it and it is flagged, and if it was flagged before then no block outside its dead zone could have taken any of the non-fixed nodes that stay. (Finding: a call may leave a partition that is more overloaded than before, and reports success: C67_refuted_worse.)", "quantifier": "all hypergraphs, partitions, weight limits, ratings, priorities, exclusion rules, initial flags and interleavings", "why_tests_cant": "ranges over all inputs and schedules", "anchors": ["mt-kahypar/partition/refinement/rebalancing/deterministic_rebalancer.cpp:refineImpl", "mt-kahypar/partition/refinement/rebalancing/deterministic_rebalancer.cpp:weakRebalancingRound", "mt-kahypar/partition/refinement/rebalancing/deterministic_rebalancer.cpp:computeGainAndTargetPart", "mt-kahypar/partition/refinement/rebalancing/deterministic_rebalancer.cpp:isValidTarget"]}
{"id": "C68", "title": "The Jet afterburner computes exact gains under every schedule", "statement": "In the deterministic Jet refiner, after the parallel afterburner the stored gain of every candidate equals the exact change of the objective if the candidate moves after all candidates that precede it (smaller gain, then smaller id) have been moved; the gains do not depend on the schedule, and their sum is the exact change of the objective if all candidates move. (For soed this is false of two-pin hyperedges, whose weight is counted once instead of twice: a move that worsens the objective can be accepted as harmless.)", "quantifier": "all hypergraphs, partitions, candidate lists, targets and precomputed gains, all interleavings of the parallel loop over the candidates", "why_tests_cant": "the hyperedges are claimed by whichever thread reaches them first, and the contributions are added concurrently; a test sees a few schedules and a few orders of gains", "anchors": ["mt-kahypar/partition/refinement/deterministic/deterministic_jet_refiner.cpp:hypergraphAfterburner", "mt-kahypar/partition/refinement/gains/*/*_attributed_gains.h"]}
{"id": "C69", "title": "Deterministic Jet never returns a worse partition", "statement": "Whatever happens in its rounds (negative gain moves, rebalancing that fails, several dynamic rounds), refine() of the deterministic Jet refiner returns a consistent partition with exact metrics in which fixed vertices have not moved; if the input satisfied the balance check, so does the output and its objective is not larger; otherwise the output satisfies it, or has a smaller imbalance, or is the input. A round executes exactly the candidate moves that do not worsen the objective after the better candidates. The return value only says whether the objective became smaller (an infeasible partition can be repaired and the call still returns false).", "quantifier": "all hypergraphs, partitions, limits, gain functions, numbers of rounds and dynamic rounds, thresholds, all schedules of the moves, the afterburner, the rebalancer and the rollback", "why_tests_cant": "the claim is about the interplay of four flags over unboundedly many rounds under all schedules; a test runs a few instances", "anchors": ["mt-kahypar/partition/refinement/deterministic/deterministic_jet_refiner.cpp:refineImpl, runJetRounds, rollbackToBestPartition", "mt-kahypar/partition/metrics.cpp:isBalanced"]}
{"id": "C70", "title": "Deterministic Jet is deterministic and ends", "statement": "Two calls of refine() of the deterministic Jet refiner on the same partition with the same parameters return the same partition, the same metrics and the same result, under all schedules, and every call ends although its number of rounds is not bounded in advance.", "quantifier": "all hypergraphs with non-negative hyperedge weights, partitions, parameters and schedules", "why_tests_cant": "termination and determinism quantify over all executions; the number of rounds depends on the improvements found", "anchors": ["mt-kahypar/partition/refinement/deterministic/deterministic_jet_refiner.cpp:refineImpl, runJetRounds", "mt-kahypar/partition/refinement/rebalancing/deterministic_rebalancer.cpp"]}
{"id": "C71", "title": "The best move of a node is computed exactly", "statement": "The move proposed for a node by the km1 / cut / soed gain computation goes to another block that can take the node, and its gain is exactly the change of the objective; with non-negative hyperedge weights no block that can take the node is better, whatever the random tie breaking does, and the proposed move never worsens the objective; for rebalancing, a target is found whenever some block can take the node, and it is a best one.", "quantifier": "all hypergraphs, partitions, nodes, block limits, coin flips and flags of the call", "why_tests_cant": "ranges over all inputs and all random choices", "anchors": ["mt-kahypar/partition/refinement/gains/gain_computation_base.h:computeMaxGainMove", "mt-kahypar/partition/refinement/gains/km1/km1_gain_computation.h:precomputeGains", "mt-kahypar/partition/refinement/gains/cut/cut_gain_computation.h:precomputeGains", "mt-kahypar/partition/refinement/gains/soed/soed_gain_computation.h:precomputeGains"]}
{"id": "C72", "title": "Sequential label propagation never returns a worse partition", "statement": "With execute_sequential, refine() of the label propagation refiner returns a consistent partition with exact metrics in which fixed vertices have not moved. The constrained variant never worsens the objective and lets no block grow beyond the larger of its limit and its previous weight. The unconstrained variant, which moves, rebalances in parallel and rolls back failed rounds, keeps a balanced partition balanced and does not worsen its objective; an unbalanced one becomes balanced, or its imbalance shrinks, or it is returned unchanged. The return value says exactly whether the objective became smaller, and no step is undefined.", "quantifier": "all hypergraphs, partitions, limits, active node lists and orders, coin flips, iteration numbers, thresholds, and all executions of the parallel rebalancer", "why_tests_cant": "the claim is about rollbacks after arbitrary rounds, with lazily initialised bookkeeping of old blocks and arbitrary results of the rebalancer; a test runs a few instances", "anchors": ["mt-kahypar/partition/refinement/label_propagation/label_propagation_refiner.cpp:moveVertex, labelPropagation, labelPropagationRound, applyRebalancing, updateNodeData, initializeActiveNodes", "mt-kahypar/partition/refinement/label_propagation/label_propagation_refiner.h:activateNodeAndNeighbors"]}
{"id": "C73", "title": "Parallel label propagation keeps the partition data consistent under every schedule", "statement": "Refining a consistent partition with parallel label propagation yields, under every interleaving of its tasks, a consistent partition with the same fixed vertices whose reported objective and imbalance are the real ones; the constrained variant never exceeds the larger of a block's limit and its previous weight, the unconstrained one never turns an acceptable partition into an unacceptable one; tasks never move a node another task is moving and never write a flag out of bounds. It may return a worse objective, and it can corrupt the block weights when a node that was moved and moved back is moved again by the rebalancer and then rolled back twice.", "quantifier": "all hypergraphs, partitions, limits, objectives, thread counts, interleavings of tasks, numbers of rounds, lists of refinement nodes", "why_tests_cant": "races between tasks depend on the schedule; the corrupting interleaving needs two simultaneous bad moves and an overloaded block", "anchors": ["mt-kahypar/partition/refinement/label_propagation/label_propagation_refiner.cpp: moveVertex, moveActiveNodes, applyRebalancing, forEachMovedNode, labelPropagationRound"]}
{"id": "C74", "title": "Multi-try k-way FM never returns a worse partition, whatever its concurrent searches do", "statement": "A call of refine() of the k-way FM refiner, constrained or unconstrained, with any number of rounds and any interleaving of its localized searches, returns a consistent partition that is never worse in the objective; the amount subtracted from the reported quality is the exact change and the return value tells whether the partition improved; a partition within the limits stays within them; fixed vertices do not move; and the refiner can be called again. After the searches of a round the partition is exactly the result of executing the recorded moves one by one from the partition at the start of the round, each node being moved at most once; the rebalancing, interleaving and rollback that follow cannot fail.", "quantifier": "all hypergraphs, partitions, limits, objectives, histories of the refiner, numbers of rounds, tasks and threads (up to 20 tasks per round), interleavings, decisions of the searches (seeds, gains, targets, stopping), constrained and unconstrained rounds, parallel and sequential rollback", "why_tests_cant": "searches race for nodes, their moves overlap in time with each other, with the recording of moves and with updates of gain caches; a test observes a handful of schedules", "anchors": ["mt-kahypar/partition/refinement/fm/multitry_kway_fm.cpp:refineImpl, interleaveMoveSequenceWithRebalancingMoves", "mt-kahypar/partition/refinement/fm/localized_kway_fm_core.cpp:findMoves, internalFindMoves, applyBestLocalPrefixToSharedPartition", "mt-kahypar/partition/refinement/fm/fm_commons.h:GlobalMoveTracker, NodeTracker", "mt-kahypar/partition/refinement/fm/global_rollback.cpp:revertToBestPrefixParallel, revertToBestPrefixSequential", "mt-kahypar/datastructures/partitioned_hypergraph.h:changeNodePart"]}
{"id": "C75", "title": "Flow-based refinement never makes a partition worse and never overloads a block", "statement": "Concurrent flow searches compute move sequences from possibly outdated partitions; applying them serially under the lock, a refinement with flows returns a consistent complete partition whose objective is at most the one before, reports exactly the new objective as metric and returns true iff it improved; no block exceeds the larger of its limit and its weight before; nodes that no search wants to move stay. A sequence is applied exactly if all blocks stay within these limits and the objective does not get worse, otherwise the partition is exactly as before the call; the case 'worse, but cannot be rolled back' never happens. With gain cache updates enabled all cached gains are exact afterwards.", "quantifier": "every hypergraph, number of blocks, objective (cut, km1, soed), limits, initial (also overloaded) partition and every list of move sequences the searches may produce, in every order", "why_tests_cant": "the sequences depend on races between the searches; a test sees a few of them, and the rollback path is almost never taken", "anchors": ["mt-kahypar/partition/refinement/flows/flow_refinement_scheduler.cpp:applyMoves, applyMoveSequence, revertMoveSequence, partWeightUpdate, refineImpl, initializeImpl", "mt-kahypar/partition/refinement/flows/flow_common.h:MoveSequence"]}
{"id": "C76", "title": "Deterministic flow refinement: concurrent application equals isolated application", "statement": "In deterministic flow refinement the move sequences of all block pairs of one matching are applied concurrently. For every interleaving of the tasks: every move is made and nothing else changes; every task reports exactly the improvement its sequence would give if it were applied alone; these improvements add up to the change of the objective, so the metrics stay exact; every block gets the weight its own pair's sequence gives it; every newly touched block of a hyperedge is reported to the quotient graph. Partition, improvements and the multiset of reported hyperedges do not depend on the schedule, hence neither does the whole refinement as long as the scheduling decisions depend only on them. No schedule gets stuck and every schedule terminates. If every flow result alone does not worsen the objective and respects the limits, neither does the refinement.", "quantifier": "all hypergraphs, partitions, matchings, move sequences, numbers of tasks and interleavings of the steps of changeNodePart, all objectives cut/km1/soed", "why_tests_cant": "two sequences of disjoint block pairs modify the pin counts of the same hyperedges at the same time; only a proof over all interleavings shows that they cannot influence each other's reported gains", "anchors": ["mt-kahypar/partition/refinement/flows/deterministic/deterministic_flow_refinement_scheduler.cpp: refineImpl, applyMoves, changeNodePart", "mt-kahypar/datastructures/partitioned_hypergraph.h: changeNodePart", "mt-kahypar/partition/refinement/flows/flow_refiner.cpp: refine"]}
{"id": "C77", "title": "Deterministic flow refinement schedules every active block pair exactly once per round, in matchings", "statement": "In a round of the block pair scheduling of deterministic flow refinement, every pair of blocks that is active at the beginning of the round (one of the two blocks took part in an improvement of the previous round, or it is the first round; the pair has enough cut weight and is promising) is handed out exactly once and no other pair is; the pairs handed out together have no block in common and no further pair could be added to them; an empty hand-out means that nothing is left and comes after at most k*k+1 requests; the counters never underflow; the sorted orders are unique; a round without improvement is the last one. The blocks active in the next round are those of improved pairs if the reports do not overlap - overlapping reports can lose an activation (refuted), so that the result depends on the schedule.", "quantifier": "every number of blocks, every state of the scheduler, all cut statistics (growing during the round), all improvements, every number of requests; every interleaving of the report's loads and stores", "why_tests_cant": "The number of pairs, statistics and orders of the requests is unbounded, and the lost report needs two threads between load and store of the same word of a std::vector<bool>.", "anchors": ["mt-kahypar/partition/refinement/flows/deterministic/participation_scheduler.cpp: initialize, resetForNewRound, getNextMatching, isEligible", "mt-kahypar/partition/refinement/flows/deterministic/participation_scheduler.h: reportResults", "mt-kahypar/partition/refinement/flows/deterministic/deterministic_flow_refinement_scheduler.cpp: refineImpl"]}
{"id": "C78", "title": "The quotient graph of flow refinement lists every cut hyperedge for the block pairs it joins", "statement": "After initialization every pair of blocks lists exactly the hyperedges with pins in both blocks, each once, with the sum of their weights, whatever the schedule. During deterministic flow refinement no cut hyperedge is lost: after every matching each hyperedge that joins two blocks is listed for them, and the weight of a pair is the weight of its list; hence all pairs of blocks joined by a hyperedge of positive weight are refined in the first round on the input. In flow refinement this holds if a search adds its new cut hyperedges before the next sequence is applied; if another search is in the middle of a sequence it will undo, a cut hyperedge is lost (refuted: the code comment expects only superfluous ones).", "quantifier": "every hypergraph, partition and number of blocks, all objectives, any sequences of matchings or move sequences, every interleaving of the moves and of the additions", "why_tests_cant": "The lists depend on the interleaving of unboundedly many additions with the moves; the lost hyperedge needs a search to read a connectivity set between another search's moves and their undoing.", "anchors": ["mt-kahypar/partition/refinement/flows/quotient_graph.cpp: initialize, addNewCutHyperedge, addHyperedge", "mt-kahypar/partition/refinement/flows/flow_refinement_scheduler.cpp: applyMoves", "mt-kahypar/partition/refinement/flows/deterministic/deterministic_flow_refinement_scheduler.cpp: refineImpl"]}
{"id": "C79", "title": "Incident nets of the dynamic hypergraph survive any contraction/uncontraction history", "statement": "In the dynamic (n-level) hypergraph, after any sequence of contractions, removals of single-pin/parallel/large nets, and uncontractions - siblings uncontracted in any order, steps on different nodes interleaved in any way - iterating over the incident nets of an active node yields exactly the nets of its contraction history (original nets of all contracted nodes minus the removed ones), its degree is their number, an uncontraction reports to the caller each kept net once (case two) and each restored net once (case one), and when everything is uncontracted every node has exactly its original incident nets again.", "quantifier": "all hypergraphs (any number of nodes, any incident nets), all legal sequences of the five operations of any length, all sets of shared/removed nets, all sibling orders", "why_tests_cant": "The lists are spliced in place with version numbers; correctness depends on the whole history (order of contractions, empty lists in the iterator ring), not on a single call.", "anchors": ["mt-kahypar/datastructures/incident_net_array.h: IncidentNetArray::Header, swap", "mt-kahypar/datastructures/incident_net_array.cpp: contract, uncontract, removeIncidentNets, restoreIncidentNets, append, splice, removeEmptyIncidentNetList, reset, IncidentNetIterator", "mt-kahypar/datastructures/dynamic_hypergraph.h: removeEdge, restoreEdge, reset", "mt-kahypar/partition/multilevel.cpp: partitionVCycle"]}
{"id": "C80", "title": "The batch uncontraction hierarchy is complete, ordered and gap-free for every thread schedule", "statement": "For every contraction forest and hypergraph version, createBatchUncontractionHierarchyForVersion puts every node contracted in that version into exactly one batch exactly once together with its representative; a node is always in a later batch than its own representative's uncontraction; if a node is uncontracted in an earlier batch than a sibling, then the sibling's contraction had ended before its own started (so possibly concurrent contractions share a batch and otherwise the last contracted comes first); there are no empty batches and the positions in each batch are 0..size-1 without duplicates; after reset the batch assigner is as new.", "quantifier": "all acyclic contraction forests (any size, versions and intervals), all distributions of the roots over any number of threads, all interleavings of the threads' atomic operations, all batch size limits > 0", "why_tests_cant": "Positions come from concurrent fetch_add and a racy high-water mark; order and completeness must hold for every schedule and every forest.", "anchors": ["mt-kahypar/datastructures/contraction_tree.cpp: ContractionTree::finalize, createBatchUncontractionHierarchyForVersion", "mt-kahypar/datastructures/contraction_tree.h: BatchIndexAssigner::getBatchIndex, findBatchAssignment, increaseHighWaterMark, numberOfNonEmptyBatches, reset", "mt-kahypar/datastructures/dynamic_hypergraph.cpp: createBatchUncontractionHierarchy"]}
{"id": "C81", "title": "Pins, pin counts and footprints of a hyperedge survive n-level contraction and batch uncontraction", "statement": "For n-level partitioning: after any sequence of contractions, the pins of a hyperedge are exactly the representatives of its original pins, each once, and its footprint is the sum over them, so identical nets are recognised. During uncoarsening, before every batch and for every refinement in between and every order of the uncontractions within a batch, the pins are exactly the representatives with respect to the contractions not yet undone, the pin counts per block are those of the current pins and blocks, the set of blocks the hyperedge touches (hence every objective) is not changed by a batch, every uncontraction is reported to the gain cache exactly once with the right case, and in the end the hyperedge has exactly its original pins.", "quantifier": "every hyperedge without duplicate pins, every contraction sequence, every batch order with representatives strictly first and later siblings not later (C80), every order inside a batch, every refinement between batches", "why_tests_cant": "contraction order, batch composition, thread order within a batch and the moves of the refiners between the batches are unbounded; a wrong slot shows up only in later batches", "anchors": ["mt-kahypar/datastructures/dynamic_hypergraph.cpp:contractHyperedge", "mt-kahypar/datastructures/dynamic_hypergraph.cpp:uncontract", "mt-kahypar/datastructures/dynamic_hypergraph.cpp:restoreHyperedgeSizeForBatch", "mt-kahypar/datastructures/dynamic_hypergraph.cpp:findPositionOfPinInIncidenceArray", "mt-kahypar/datastructures/partitioned_hypergraph.h:uncontract"]}
{"id": "C82", "title": "Gain caches stay exact during n-level batch uncontraction", "statement": "In n-level mode, if the km1, cut or soed gain cache holds, for every node and block, exactly the penalty and benefit terms of the current partition before a batch of uncontractions, then after the batch it holds exactly the terms for the larger hypergraph with the uncontracted nodes in the blocks of their representatives, no matter how the uncontractions of the batch are interleaved inside the hyperedges and in which order the threads' additions reach the cache.", "quantifier": "all hyperedges with all contraction histories, all legal uncontraction orders (C80), all partitions and k, all weights, all interleavings of the tasks of a batch and all orders of the atomic additions", "why_tests_cant": "The callbacks see the hyperedge in the middle of the batch (some nodes already restored, some representatives already replaced); tests see a handful of schedules and only check with an assertion that is off in release builds.", "anchors": ["mt-kahypar/partition/refinement/gains/km1/km1_gain_cache.cpp: uncontractUpdateAfterRestore, uncontractUpdateAfterReplacement", "mt-kahypar/partition/refinement/gains/cut/cut_gain_cache.cpp", "mt-kahypar/partition/refinement/gains/soed/soed_gain_cache.cpp", "mt-kahypar/datastructures/partitioned_hypergraph.h: uncontract"]}
{"id": "C83", "title": "Removing and restoring single-pin and identical nets is lossless (n-level)", "statement": "removeSinglePinAndParallelHyperedges removes exactly single-pin nets and copies of nets it keeps, leaves no single-pin net and no two nets with the same pins (if equal pins have equal footprints), and changes no objective value of any partition. Restoring the removed nets - in any thread order, after any number of nested later rounds - gives back exactly the original enabled nets and weights, leaves the objective unchanged, gives every restored net the right pin counts and keeps the km1, cut and soed gain caches exact.", "quantifier": "all hypergraphs, weights, footprint functions, numbers of buckets, insertion and processing orders of the buckets, orders of restoring, nestings of rounds, partitions and k", "why_tests_cant": "Which net becomes the representative, and in which order nets are merged and restored, depends on hashes and schedules; a wrong weight shows up only as a slightly wrong objective much later.", "anchors": ["mt-kahypar/datastructures/dynamic_hypergraph.cpp: removeSinglePinAndParallelHyperedges, restoreSinglePinAndParallelNets", "mt-kahypar/datastructures/partitioned_hypergraph.h: restoreSinglePinAndParallelNets", "mt-kahypar/datastructures/concurrent_bucket_map.h"]}
{"id": "C84", "title": "Concurrent contraction registration and execution (n-level coarsening)", "statement": "Any number of threads may register contractions of arbitrary node pairs and execute them at the same time: the node locks never deadlock; the contractions that take effect are, in some order, a legal sequential contraction sequence (each node at most once, onto a node still present, weight limit respected, total weight conserved), exactly the disabled nodes are contracted and onto their parent in the contraction tree, a node is contracted only after everything registered onto it; a registration is withdrawn only when it is the current one; when all calls have returned every counter equals the number of open registrations and - if the contraction tree is a forest - no registered contraction is left over. If final cycle checks do not overlap (in particular with one thread) the tree always is a forest and, with its versions and time intervals, meets the requirements of the batch hierarchy. Without that restriction it is refuted: two concurrent registrations can close a cycle, whose nodes are never contracted and on which later registrations loop forever holding two node locks.", "quantifier": "every number of nodes and threads, all weights and limits, every choice of pairs, every interleaving of single reads, writes, lock acquisitions and releases, any number of versions", "why_tests_cant": "whether the unlocked searches and checks, counters, withdrawals and cascading contractions fit together depends on the interleaving; the cycle needs four threads at particular points", "anchors": ["mt-kahypar/datastructures/contraction_tree.h: registerContraction, unregisterContraction (370-482)", "mt-kahypar/datastructures/dynamic_hypergraph.cpp: registerContraction, contract (52-86, 534-617)", "mt-kahypar/datastructures/dynamic_graph.cpp: registerContraction, contract (53-160)", "mt-kahypar/partition/coarsening/nlevel_coarsener.h: contract (250-273)"]}
{"id": "C85", "title": "The gain cache survives the parallel refiners", "statement": "If the gain cache (km1, cut or soed) is exact when a refiner starts, it is exact when the refiner returns, whatever the threads did in between: after any sequence of label propagation calls (constrained or unconstrained, with reverted moves) and their rollbacks, runs of the advanced rebalancer, deterministic flow refinements, sequential moves with recomputation, and parallel moves followed by the repair of the moved nodes, the cached gain of every node for every block equals the change of the objective that moving it would cause on the real partition.  In particular the flags that select the nodes to repair (_active_node_was_moved, _was_moved, the rebalancer's move list) never miss a node whose move succeeded.", "quantifier": "all hypergraphs with non-negative node weights whose sum fits in 32 bits, all consistent complete partitions, all block counts, any number of threads, every interleaving of the shared accesses, every number and order of refiner calls, all flow results, all limits", "why_tests_cant": "each refiner repairs only the entries it marked; a node missed in one interleaving gives wrong gains in a later refiner, far from the cause", "anchors": ["mt-kahypar/partition/refinement/label_propagation/label_propagation_refiner.cpp: moveVertex, labelPropagationRound, moveActiveNodes, applyRebalancing (44-95, 148-310)", "mt-kahypar/partition/refinement/flows/deterministic/deterministic_flow_refinement_scheduler.cpp: applyMoves, refineImpl (63-264)", "mt-kahypar/partition/refinement/rebalancing/advanced_rebalancer.cpp (459-465)", "mt-kahypar/partition/refinement/fm/multitry_kway_fm.cpp (149-153)", "mt-kahypar/partition/refinement/fm/global_rollback.cpp (181-186, 455-459)", "mt-kahypar/partition/refinement/gains/gain_cache_ptr.h", "mt-kahypar/partition/refinement/gains/km1/km1_gain_cache.h"]}
{"id": "C86", "title": "The n-level hierarchy gives every hyperedge and node its original state back", "statement": "After an n-level coarsening with any number of threads and passes (in which hyperedges can be removed as single-pin or identical nets between passes), undoing the contractions batch by batch in the order of the batch hierarchy, with any schedule inside a batch, keeps every hyperedge consistent: before every batch its pins are exactly the nodes that represent its original pins at that level, each once; its pin counts per block are those of these pins; no batch changes which blocks the hyperedge touches or any block weight; the weight of a node is its original weight plus the weights of the nodes still contracted onto it; after the last batch pins and node weights are the original ones.", "quantifier": "all hypergraphs, interleavings of contractions (serialised final cycle checks), passes, maximum node weights, batch sizes > 0, thread counts and schedules of batch construction, of the uncontractions within a batch and of the restored hyperedges, and all partitions chosen by refinement between batches", "why_tests_cant": "The result depends on the interleaving of the contractions, of the parallel construction of batches and of the uncontractions within a batch; the argument ranges over all of them and needs the order invariants of three components at once, which no set of runs covers.", "anchors": ["mt-kahypar/datastructures/dynamic_hypergraph.cpp:67-230 (contract, createBatchUncontractionHierarchy, uncontract)", "mt-kahypar/datastructures/dynamic_hypergraph.cpp:238-331 (removeSinglePinAndParallelHyperedges)", "mt-kahypar/datastructures/dynamic_hypergraph.cpp:534-660 (contract, contractHyperedge)", "mt-kahypar/datastructures/contraction_tree.cpp:375-508 (createBatchUncontractionHierarchyForVersion)", "mt-kahypar/partition/coarsening/nlevel_uncoarsener.cpp:133-225", "mt-kahypar/datastructures/partitioned_hypergraph.h:415-436 (uncontract)"]}
{"id": "C87", "title": "Deep multilevel partitioning goes through consistent numbers of blocks and ends with exactly k blocks", "statement": "The recursive bipartitioning tree for k blocks assigns every block of every level the number of final blocks it still has to be split into: on every level these numbers sum up to k, are at least one and are k/2^level rounded up or down; the number of blocks doubles from level to level until it is k, and the level of a number of blocks is found again. When the coarsening is stopped by the thread limit, the threads are distributed to at least two recursive calls such that all threads are used, every call gets at least one thread and fewer than the caller, and the subtraction of thread counts never wraps around. All recursive calls on the same hypergraph return exactly the same number of blocks, the largest number j of the tree with j * contraction_limit_multiplier <= number of nodes, whatever the coarsening and the refinement do; the number of blocks never exceeds it on the way, no lookup of a number of blocks fails, the recursion ends, and the main call returns exactly k blocks.", "quantifier": "all numbers of blocks k >= 2, contraction limits, numbers of threads and hypergraph sizes, all sequences of level sizes produced by coarsening, sequential and parallel recursion", "why_tests_cant": "the number of blocks depends on the interplay of the sizes of all levels of all recursive calls; a test sees a single hierarchy of a single run", "anchors": ["mt-kahypar/partition/deep_multilevel.cpp: RBTree (104-261), bipartition_each_block (538-632), deep_multilevel_partitioning (641-956), deep_multilevel_recursion (958-980)"]}
{"id": "C88", "title": "Extending the number of blocks keeps block weights and adds exactly the cuts of the bipartitions to the objective", "statement": "When deep multilevel partitioning extends a k-way partition, every block is extracted as the sub-hypergraph it induces (its nodes with their weights; the hyperedges with at least two pins in the block, for the cut metric only the uncut ones; a mapping of the node ids that is a bijection), for every order in which the threads number the nodes, stream the hyperedges and build the incidence arrays. After bipartitioning the blocks that still have to be split, the new partition is complete, every node stays in a new block of its old block (whose final blocks are among those of the old block), a block that is final keeps its nodes, the new blocks have exactly the weights of the sides of the bipartitions, and the objective (cut, km1 or soed, the latter with doubled weights of hyperedges that were not cut) grows by exactly the sum of the cuts of the bipartitions.", "quantifier": "all well-formed hypergraphs, complete partitions, numbers of blocks each block has to be split into, bipartitions, policies cut, km1 and soed, thread orders of the extraction and schedules of the construction", "why_tests_cant": "the assertion that the cuts sum up is only checked in debug builds for the runs that are made; thread orders decide the node and hyperedge ids of the extracted blocks", "anchors": ["mt-kahypar/datastructures/partitioned_hypergraph.h: extractAllBlocks (1023-1159)", "mt-kahypar/partition/deep_multilevel.cpp: adaptWeightsOfNonCutEdges (388-400), apply_bipartitions_to_hypergraph (485-524), bipartition_each_block (538-632)"]}
{"id": "C89", "title": "Initial partitioning keeps the best partition that any run computed", "statement": "A partition is preferred to another if it is feasible and the other is not, if both are feasible and it has the better objective (then the smaller imbalance, then the smaller tags), or if both are infeasible and it has the smaller imbalance. Without determinism, the partition that initial partitioning applies was computed by one of the runs (or by refining one), and no run has a better quality. With determinism, if one of the runs is feasible, the selected partition is the same for every order in which the runs are committed, and is the one preferred to all others; if none is feasible, the selected partition has the smallest imbalance. The boundaries: the comparison is not a strict weak order, as the heap and the sort need; if no run is feasible, the selected partition depends on the schedule; and the unsynchronised read before the lock can drop the best run.", "quantifier": "every number of runs, every result and epsilon, every assignment of runs to threads, every order of commits, population size, entry read before the lock and rearrangement of the population", "why_tests_cant": "the selection depends on the interleaving of the commits of all runs; tests run a few interleavings and compare objectives only", "anchors": ["mt-kahypar/partition/initial_partitioning/initial_partitioning_data_container.h: PartitioningResult, commit, performRefinementOnBestPartition, apply", "mt-kahypar/partition/initial_partitioning/pool_initial_partitioner.cpp"]}
{"id": "C90", "title": "One-to-one mapping onto a target graph", "statement": "The greedy construction gives every block of the partition (node of the communication hypergraph) a processor of its own, and blocks with fixed vertices theirs, if its seed is not such a block; without individual block weights it chooses a processor with the smallest increase of the cost. The local search keeps the mapping one-to-one, uses the same processors, tracks the Steiner tree cost exactly, never increases it, never moves fixed blocks, moves a block only to a processor that is large enough (individual weights), and terminates. The boundaries: if the seed contains a fixed vertex, blocks can stay without processor; if some block is empty, the information about fixed vertices is lost and fixed vertices are moved; with individual weights, a processor that is too small can be chosen although a larger one is free, and an empty list of candidates is indexed.", "quantifier": "every communication hypergraph, target graph distance, fixed vertices, weights, seed and every choice of the priority queue", "why_tests_cant": "the gains are exact and the search terminates only by invariants over all sequences of swaps; tests run small fixed hypergraphs without fixed vertices or empty blocks", "anchors": ["mt-kahypar/partition/mapping/kerninghan_lin.cpp", "mt-kahypar/partition/mapping/greedy_mapping.cpp", "mt-kahypar/partition/mapping/initial_mapping.cpp: repairEmptyBlocks, map_to_target_graph"]}
{"id": "C91", "title": "Applying a block mapping only renames blocks and never makes the objective worse", "statement": "For the Steiner tree objective, after the initial mapping step (contracting the blocks, adding empty blocks, computing a one-to-one mapping by the greedy algorithm and the local search, applying it) every node is still in a valid block, two nodes are in the same block exactly if they were before, the weights of the blocks are the same up to a renaming of the blocks, and the Steiner tree objective is not larger than before; the partition is changed only if the objective becomes strictly smaller. The hypergraph that is mapped has exactly k nodes, node b with the weight of block b, and its objective under a mapping is that of the renamed partition. It is refuted that this holds for more blocks than nodes (nodes are taken for nodes of other blocks, or an invalid node id is produced) and for blocks that consist of weight-zero nodes if another block is empty.", "quantifier": "for all hypergraphs, complete partitions into k blocks with k not larger than the number of nodes and no nonempty block of weight zero, all schedules of the parallel contraction, all target graphs (as a distance function of block sets that is 0 for at most one block), all ratings, degrees, seeds and choices of the greedy algorithm and the local search, without fixed vertices", "why_tests_cant": "Tests map a few fixed instances; that the contraction, the renumbering of empty blocks and the application agree for every partition and every schedule is a universal statement.", "anchors": ["mt-kahypar/partition/mapping/initial_mapping.cpp: repairEmptyBlocks, map_to_target_graph", "mt-kahypar/partition/mapping/greedy_mapping.cpp: mapToTargetGraph", "mt-kahypar/datastructures/static_hypergraph.cpp: contract"]}
{"id": "C92", "title": "The growing hash map is a finite map", "statement": "The dynamic sparse map and the dynamic flat map behave like a finite map from keys to values: after every sequence of accesses (operator[], with the value then changed) and clear(), starting from any capacity, every search ends, contains/get/get_if_contained report exactly the keys of the map and their current values, the iteration (sparse map) visits every entry exactly once in the order of insertion, size() is the number of entries, and growing the table changes none of this.", "quantifier": "for all initial capacities (powers of two), all keys and values, and all sequences of operations of any length", "why_tests_cant": "Tests insert a few keys; collisions, wrap-around, stale entries after clear and rehashing depend on the history of operations.", "anchors": ["mt-kahypar/datastructures/sparse_map.h: DynamicMapBase, DynamicSparseMap, DynamicFlatMap"]}
{"id": "C93", "title": "The fixed-size hash map is a finite map while it is not full", "statement": "As long as there are fewer keys than the capacity at any time, the fixed-size sparse map used for ratings and cluster weights behaves like a finite map from keys to values under operator[], clear() and setMaxSize (which empties the map exactly if the capacity has to be enlarged): all searches end, contains/get report exactly the keys and current values, the iteration visits each entry once, and size() is the number of entries. It is refuted for a full map: searching for a key that is not contained never ends.", "quantifier": "for all requested sizes, all keys and values, and all sequences of operations with fewer keys than the capacity at any time", "why_tests_cant": "Tests use few keys; collisions, wrap-around, stale entries after clear and the behaviour near the capacity depend on the history of operations.", "anchors": ["mt-kahypar/datastructures/sparse_map.h: FixedSizeSparseMap"]}
{"id": "C94", "title": "The sparse map over a fixed universe is a finite map in uninitialised memory", "statement": "Whatever the memory contains at the beginning, the sparse map (used for gains per block and for ratings of vertices with many neighbors) behaves like a finite map under operator[], add, remove and clear with keys below its maximum size: nothing is written outside of its arrays, contains/getOrDefault report exactly the keys with their current values, the iteration visits each entry exactly once, size() is the number of entries, and without removals the entries are visited in the order of their insertion. Both arrays fit into the requested memory exactly if the size of the array of elements is a multiple of 8 bytes (true for all instantiations in the code, refuted in general).", "quantifier": "for all initial contents of the memory, all maximum sizes, values, and sequences of operations with keys below the maximum size", "why_tests_cant": "Tests run on one content of the memory, and whether a stale entry looks valid depends on that content and on the history of operations.", "anchors": ["mt-kahypar/datastructures/sparse_map.h: SparseMapBase, SparseMap"]}
