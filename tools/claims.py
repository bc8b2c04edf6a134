CLAIMS=[
("C01","proved",["C01_block_weights_exact"],""),
("C02","proved",["C02_pin_counts_and_connectivity_exact"],"isBorderNode: by design false above degree 100000; statement restricted accordingly"),
("C03","proved",["C03_move_frame"],""),
("C04","proved",["C04_concurrent_moves_consistent"],"sequentially consistent interleavings; also identifies the final assignment with the replay of the reported results"),
("C05","proved",["C05_concurrent_moves_balanced"],"at every reachable state"),
("C06","proved",["C06_attributed_gains_sum"],""),
("C07","proved",["C07_km1_gain_cache_exact","C07_dirty_only_moved"],""),
("C08","proved",["C08_cut_gain_cache_exact"],""),
("C09","proved",["C09_soed_gain_cache_exact"],""),
("C10","proved",["C10_km1_cache_concurrent","C10_cut_cache_concurrent","C10_soed_cache_concurrent"],""),
("C11","proved",["C11_metrics_exact","C11_objective_relations"],""),
("C12","proved",["C12_contribution_exact","C12_contribution_cut_is_soed","C12_refuted_for_cut"],"finding for cut stated and proved"),
("C13","proved",["C13_packed_counters_are_counters"],""),
("C14","proved",["C14_connectivity_sets_are_sets","C14_elements_sorted","C14_iteration_refuted_for_large_index"],"finding: 32-bit index product"),
("C15","proved",["C15_sparse_pin_counts_are_a_map"],""),
("C16","proved",["C16_overlay_is_faithful","C16_clear"],""),
("C17","proved",["C17_overlay_keys_unique","C17_refuted_beyond_32_bits"],"finding: 32-bit key product"),
("C39","proved",["C39_balance_check","C39_imbalance"],""),
("C48","proved",["C48_no_deadlock","C48_moves_terminate"],""),
("C26","proved",["C26_recalculated_gains_exact","C26_each_hyperedge_once","C26_iteration_covers"],"hyperedge selection as with iter_moves_on_recalc; the other branch (all ids) is covered if it only visits enabled hyperedges"),
("C27","proved",["C27_best_balanced_prefix","C27_split_independent","C27_parallel_rollback_round","C27_sequential_rollback_round"],"both rollback variants; requires non-negative node weights"),
("C28","proved",["C28_revert_restores_prefix"],"all interleavings of the reverting moves"),
("C18","proved",["C18_contraction_weights"],"every schedule; vertex ids unbounded with one reserved id"),
("C19","proved",["C19_contraction_objective"],"needs non-empty hyperedges and a complete coarse partition"),
("C20","proved",["C20_contraction_wellformed"],""),
("C21","proved",["C21_fixed_vertices_concurrent","C21_uncontract_restores","C21_projection_static","C21_refuted_zero_weight"],"finding: not if the total fixed weight is zero"),
("C22","proved",["C22_fixed_vertices_enforced","C22_refuted_zero_weight"],"finding: not if the total fixed weight is zero"),
("C23","proved",["C23_add_fixed_vertices"],""),
("C46","proved",["C46_parallel_prefix_sum","C46_tbb_prefix_sum"],"every split/join order of the scan"),
("C47","proved",["C47_priority_queue"],"any arity >= 2, several heaps sharing one handle array; integer keys, comp = less; 32-bit position overflow not modelled"),
("C44","proved",["C44_single_owner","C44_refuted_many_tasks"],"all interleavings and any number of rounds, including the reset of the 32-bit search ids; finding: with more than 20 tasks the id reserve is exceeded"),
("C45","proved",["C45_move_ids","C45_round_ok"],"all interleavings and rounds; C45_round_ok discharges the precondition of the rollback theorems"),
("C36","proved",["C36_construct","C36_adjacency_array","C36_refuted_max_vertices"],"every schedule of the parallel construction; finding: n = 2^32-1 passes the overflow check but the vertex array size wraps to 0"),
("C37","proved",["C37_construct_graph","C37_create_graph","C37_graph_from_hyperedges","C37_schedule_independent","C37_refuted_parallel_edges"],"static graphs; every schedule, every outcome of std::sort among equal targets; the cycle-chasing permutation loop is proved to terminate and be correct; finding: with parallel edges the order of incident edges depends on the schedule"),
("C34","proved",["C34_no_access_outside_file","C34_refuted_page_multiple"],"every byte string, every number of ranges, both readers; finding: files whose size is a page multiple are read one byte behind the mapping"),
("C32","proved",["C32_read_number"],"every digit string and bound"),
("C33","proved",["C33_hmetis_read","C33_refuted_comment_between_weights"],"every file of an independently stated grammar, every number of ranges; finding: a comment between vertex weights is rejected"),
("C49","proved",["C49_metis_read","C49_refuted_missing_line"],"every file of an independently stated grammar, every number of ranges; finding: a missing vertex line is rejected or accepted depending on the number of threads"),
("C35","proved",["C35_read_partition","C35_partition_roundtrip","C35_refuted_garbage_accepted"],"all partitions and all whitespace separated integer files; finding: a non-integer or overflowing entry silently ends the file"),
("C38","proved",["C38_uniform_limits","C38_individual_limits","C38_node_weight_limit","C38_refuted_overflow"],"IEEE double arithmetic via the Flocq rounding operator (real-number axioms of the standard library); finding: the sum of individual limits is accumulated in int and overflows"),
("C40","proved",["C40_unchanged_on_error","C40_objective","C40_verbose","C40_num_blocks","C40_not_a_number","C40_refuted_negative_blocks","C40_refuted_fraction"],'all strings; decimal part of strtod modelled (hexadecimal, inf and nan are not); findings: negative, zero and fractional block counts and trailing garbage are accepted and never rejected later'),
("C41","proved",["C41_partition","C41_improve","C41_create","C41_preset_roundtrip"],'all presets, data structures and contexts; all optional features compiled in'),
("C42","proved",["C42_distances_are_shortest_paths","C42_refuted_parallel_edges"],'simple target graphs (no self loops, no parallel edges of different weight), pairwise distances below kInvalidDistance; finding: with parallel edges the last one wins'),
("C43","proved",["C43_queries_leave_set_unchanged","C43_index_injective","C43_index_in_table"],''),
("C50","proved",["C50_precomputed_steiner_trees","C50_enumerator_complete","C50_refuted_two_blocks"],'finding: mt_kahypar_steiner_tree precomputes for 4 blocks even if k = 2, where the enumerator loop never ends'),
("C51","proved",["C51_mst_two_approximation","C51_mst_between_opt_and_twice_opt"],''),
("C52","proved",["C52_answers_history_independent","C52_distance_within_factor_two","C52_refuted_more_than_64_blocks"],'finding: more than 64 blocks collide in the cache key'),
("C53","proved",["C53_connectivity_check"],''),
("C29","proved",["C29_isolated_nodes_restored"],"Greedy bin packing of restored isolated nodes: all assigned, heaviest first, each into a block with the largest remaining capacity, weights exact, connectivity unchanged, overload at most (k-1)/k of one restored node's weight; balanced for weights <= 1."),
("C30","proved",["C30_remove_restore_hyperedges","C30_all_restored","C30_restore_in_partition"],'Swap-based incidence arrays after any history of removals and restorations; restoring in a partition in any order and with any schedule keeps exact bookkeeping.'),
("C31","proved",["C31_improve_consistent","C31_zero_vcycles_nothing_removed","C31_refuted_zero_vcycles","C31_refuted_zero_vcycles_weights","C31_refuted_other_modes"],'num_vcycles >= 1 in mode direct proved for all V-cycle results obtained through the API; num_vcycles = 0 and other modes refuted by concrete runs.'),
("C54","proved",["C54_partition_covers_input"],'Composition of sanitize, any partitioner working through the partition API, and postprocessing; includes objective decomposition. forceFixedVertexAssignment is modelled in Fixed.v separately.'),
("C24","proved",["C24_recursive_bipartitioning","C24_always_completes"],'rb is a relation over all bipartitions and all interleavings of the recursive tasks; C24_always_completes shows that runs exist for every input'),
("C25","proved",["C25_km1_additive","C25_cut_additive","C25_soed_additive","C25_recursive_bipartitioning","C25_rb_objectives","C25_extract_any_schedule","C25_extract_quiet","C25_refuted_concurrent_extract","C25_refuted_keeps_cut_edge","C25_soed_overflow"],'with cut-net splitting for every schedule; for the cut objective under the hypothesis that no move is in progress while a block is extracted; C25_refuted_* show that this hypothesis is needed in the code as it is'),
("C55","proved",["C55_clusters_respect_communities"],'sequentially consistent interleavings of atomic accesses; the proposed partner is arbitrary within the community'),
("C56","proved",["C56_clustering_terminates","C56_clustering_never_stuck"],'no infinite weakly fair execution without new calls; a thread inside a call can always step'),
("C57","proved",["C57_cluster_weight_bound","C57_cluster_weight_sequential","C57_refuted_exact_limit"],'bound attained by C57_refuted_exact_limit'),
("C58","proved",["C58_clustering_exact","C58_sequential_clustering_exact","C58_refuted_double_join","C58_refuted_self_join","C58_refuted_representative"],'exactness under the stated hypothesis; refutations show it is needed'),
("C59","proved",["C59_vcycle_starts_from_partition"],'multilevel (non n-level) V-cycles with the multilevel coarsener'),
("C60","proved",["C60_interleaved_sequence","C60_searches_deliver","C60_ready_for_rollback","C60_round_quality"],'Preconditions are delivered by the concurrent searches (C60_searches_deliver, from the tracker model of C44/C45) and by the rebalancer (C61); the bodies of the parallel merge loop touch disjoint memory and are executed one after another in any order.'),
("C61","proved",["C61_rebalancer","C61_reported_moves","C61_calls_legal","C61_gain_caches","C61_gives_up_without_candidates"],'Sequentially consistent memory; priority queues and target selection are arbitrary choices. It is not claimed that the rebalancer always reaches balance.'),
("C62","proved",["C62_pass_deterministic","C62_one_subround_deterministic","C62_refuted_fixed_vertices"],'positive node weights; floating point scores abstract; fixed vertices: one sub-round only (refuted beyond)'),
("C63","proved",["C63_pass_valid","C63_refuted_fixed_block_limit","C63_refuted_zero_weight"],'positive node weights'),
("C64","proved",["C64_never_worse","C64_completes","C64_revert_loop_ends","C64_refuted_overloaded","C64_example"],'every interleaving; exact gain; terminates; balance preserved; unsigned division bug on overloaded input refuted'),
("C65","proved",["C65_deterministic","C65_active_nodes","C65_subround_function"],'two arbitrary interleavings give the same partition and gain'),
("C66","proved",["C66_recursive_is_sequential","C66_maximal_prefixes","C66_refuted_overloaded"],'recursive = sequential = componentwise maximal'),
("C67","proved",["C67_rebalancer","C67_completes","C67_deterministic","C67_sequential","C67_round","C67_refuted_worse","C67_example"],'every interleaving; hypergraph version'),
("C68","proved",["C68_afterburner_exact","C68_deterministic","C68_completes","C68_total_gain","C68_example","C68_refuted_soed"],'exact for cut and km1; for soed only if there are no two-pin hyperedges (the code counts their weight once: C68_refuted_soed)'),
("C69","proved",["C69_never_worse","C69_round","C69_example","C69_refuted_return"],'gain functions, negative gain factor, improvement threshold and imbalance are arbitrary functions; the gain cache is not initialized'),
("C70","proved",["C70_deterministic","C70_completes"],''),
("C71","proved",["C71_gain_exact","C71_best_block","C71_rebalance_move","C71_example"],'km1, cut and soed; Steiner tree gains are not modelled'),
("C72","proved",["C72_never_worse","C72_completes","C72_example"],'hypergraphs; sequential execution; the improvement threshold and the imbalance are arbitrary functions'),
("C73","proved",["C73_parallel","C73_constrained","C73_calls_legal","C73_flags_in_bounds","C73_refuted_quality","C73_refuted_rollback"],'All interleavings of the parallel loops of label propagation (moves, their reverts, activation), any number of threads, composed with the parallel rebalancer of C61 over all rounds. The usage contract of concurrent moves is proved, not assumed. Two refutations with concrete executions of the code as it is: quality can get worse; a node can be rolled back by two tasks at once, which corrupts the block weights (C73_parallel therefore excludes rollbacks with a repeated node).'),
("C74","proved",["C74_fm_never_worse","C74_searches","C74_round_never_fails","C74_example"],'for every interleaving and every choice of the searches; at most 20 tasks per round (more: C44_refuted_many_tasks)'),
("C75","proved",["C75_flow_never_worse","C75_call_outcome","C75_gain_cache","C75_cached_gains","C75_example"],'the flow computations themselves are arbitrary; total weight below 2^31, non-negative node weights'),
("C76","proved",["C76_matching","C76_new_blocks","C76_schedule_independent","C76_refine","C76_deterministic","C76_completes","C76_example"],'Application of the results and metric bookkeeping of deterministic flow refinement under every interleaving; flow computation arbitrary.'),
("C77","proved",["C77_round","C77_maximal","C77_stops","C77_sorting_deterministic","C77_report_sound","C77_refuted_lost_activation","C77_example"],'Scheduling of block pairs proved for the round as a whole; the determinism of the activation under concurrent reports is refuted (lost update in a std::vector<bool>).'),
("C78","proved",["C78_initialize","C78_initialize_lists","C78_deterministic","C78_flow","C78_adjacent_blocks_scheduled","C78_refuted_late_addition","C78_example"],'Exactness after initialization and completeness through both flow schedulers; completeness under arbitrary timing of the additions in the non-deterministic scheduler is refuted.'),
("C79","proved",["C79_incident_nets","C79_uncontract_reports","C79_restored","C79_members","C79_example","C79_refuted_recontract","C79_refuted_vcycle","C79_refuted_stale_flag"],'atomic steps per list operation; versions unbounded'),
("C80","proved",["C80_complete","C80_parent_first","C80_sibling_order","C80_positions","C80_example","C80_refuted_batch_size"],'priority queue pops any element; racy minimum of local indices is any smaller value'),
("C81","proved",["C81_contract","C81_footprint","C81_parallel_nets_found","C81_pins","C81_pin_counts","C81_restored","C81_connectivity_unchanged","C81_callbacks","C81_example","C81_order_needed","C81_refuted_second_vcycle"],'Per hyperedge, every operation under the hyperedge lock. Refuted: the footprint is not restored by uncontraction or reset(), so in a second V-cycle identical nets can be missed (C81_refuted_second_vcycle).'),
("C82","proved",["C82_km1","C82_cut","C82_soed","C82_km1_means","C82_example","C82_cut_single_pin"],'Penalty/benefit terms with the multipliers of C07-C09. The Steiner-tree gain cache is not covered.'),
("C83","proved",["C83_restorable","C83_complete","C83_objective","C83_three_objectives","C83_inverse","C83_history","C83_restore_objective","C83_gain_cache","C83_pin_counts","C83_representative_pins","C83_example","C83_refuted_stale_footprint"],'Buckets run one after the other in any order (they share no net).'),
("C84","proved",["C84_no_deadlock","C84_contractions","C84_weights","C84_assertions","C84_pending","C84_all_done","C84_forest","C84_tree","C84_single_thread","C84_refuted_cycle","C84_refuted_hang","C84_example"],'No fixed vertices; sequentially consistent memory. The acyclicity claim without serialised final checks is refuted (cycle and hang).'),
("C85","proved",["C85_cache_survives_refinement","C85_example"],'all three cached objectives; the steiner tree gain cache is not covered'),
("C86","proved",["C86_pins","C86_pin_counts","C86_restored","C86_connectivity_unchanged","C86_node_weights","C86_weights_restored","C86_block_weights","C86_example"],'Combines the models of C80, C81 and C84. Simplified: the incident nets of a node are the hyperedges containing it (the lists themselves are C79); final cycle checks do not overlap (as in C84, whose refuted theorems show what happens otherwise); no fixed vertices. C86_example runs two threads contracting concurrently, a second pass, the batch construction and both batches.'),
("C87","proved",["C87_tree","C87_level_of_blocks","C87_next_blocks","C87_max_blocks","C87_children","C87_threads","C87_blocks","C87_terminates"],'Integers are unbounded (k * contraction limit and the sums of block weights are 32 bit or size_t in the code); the sizes of the levels are arbitrary increasing numbers, refinement between extensions is arbitrary and does not change the number of blocks. With fewer nodes than one contraction limit get_maximum_number_of_blocks returns k (C87_max_blocks); a recursive call always has more than two.'),
("C88","proved",["C88_extract_all","C88_extension","C88_tree_extension"],'The partition is at rest during the extraction (as in the code); community ids are not modelled; bipartitions are arbitrary complete ones. The nodes are moved concurrently with changeNodePart (one move per node, see the properties of concurrent moves); the theorem is about the resulting assignment.'),
("C89","proved",["C89_comparison","C89_refuted_weak_order","C89_selects_best","C89_schedule_independent","C89_infeasible","C89_example","C89_refuted_determinism","C89_refuted_torn_read"],'Heap and sort are modelled as arbitrary rearrangements because the comparison does not meet their contract; the read before the lock returns one complete earlier entry (C89_refuted_torn_read shows that this is needed).'),
("C90","proved",["C90_local_search","C90_weights","C90_exact","C90_terminates","C90_choice","C90_greedy","C90_processor_left","C90_greedy_example","C90_hypotheses","C90_refuted_fixed","C90_refuted_greedy","C90_refuted_balanced_choice","C90_refuted_seed"],'Distances of the target graph are an arbitrary function of the set of blocks (Steiner trees: C50); priority queues pop any element; the theorems about the greedy construction are about its result for a seed that is not fixed (C90_refuted_greedy shows that this is needed).'),
("C91","proved",["C91_block_graph","C91_mapping","C91_map_to_target_graph","C91_refuted_small","C91_refuted_shared","C91_refuted_weight_zero","C91_example"],'Fixed vertices excluded (C90_refuted_fixed shows what happens to them); the comparison of greedy results is over-approximated'),
("C92","proved",["C92_map","C92_order","C92_example","C92_flat","C92_flat_example"],'DynamicSparseMap and DynamicFlatMap with the base class; the timestamp is unbounded; freeInternalData not modelled'),
("C93","proved",["C93_map","C93_refuted_full","C93_example"],'the timestamp is unbounded; freeInternalData followed by a use is not modelled'),
("C94","proved",["C94_map","C94_order","C94_memory","C94_refuted_memory","C94_example"],'setMaxSize, freeInternalData not modelled; refuted: elements whose size is not a multiple of 8 bytes (none in use) do not fit into the requested memory; the move assignment (SparseMap::operator=) sets _size = 0, so the moved-to map is empty'),
]
