{
 "claims": [
  {
   "property": "C01",
   "status": "partial",
   "theorems": [
    "C01_labels_in_range",
    "C01_complete_call_partial",
    "C01_edge_weights_refuted"
   ],
   "note": "C01_labels_in_range: facade over histories, given labels of the partitioner. C01_complete_call_partial: end to end with the deep multilevel partitioner (coarsening, contraction interleavings, uncoarsening, extension); the clustering, initial partitioner, bipartitioner and refiners are arbitrary. Missing: hierarchies that lose edge weights while coarsening (C01_edge_weights_refuted shows an out-of-bounds write), k < 2, preallocated memory, compressed graphs (v-cycles: C54) (the rb and kway modes are covered by C52)."
  },
  {
   "property": "C02",
   "status": "proved",
   "theorems": [
    "C02_returned_value_is_cut"
   ],
   "note": "For every history of calls, positive weights, cut fitting into the result type."
  },
  {
   "property": "C03",
   "status": "partial",
   "theorems": [
    "C03_isolated_nodes_keep_balance",
    "C03_only_last_block_overloaded_partial",
    "C03_weighted_isolated_refuted"
   ],
   "note": "Proved for unit-weight isolated nodes; for weighted isolated nodes only the last block can be overloaded (partial theorem), and it can be (refuted theorem)."
  },
  {
   "property": "C04",
   "status": "partial",
   "theorems": [
    "C04_default_limits",
    "C04_default_limits_defined",
    "C04_relaxed_limits",
    "C04_large_total_refuted",
    "C04_sum_fits_refuted"
   ],
   "note": "Proved for every total node weight below 2^53 (hence for the default 32-bit weights) with IEEE binary64 arithmetic; refuted for 64-bit weights above 2^53 (C04_large_total_refuted). Uses the axioms of the standard library's real numbers."
  },
  {
   "property": "C05",
   "status": "proved",
   "theorems": [
    "C05_rearranged_graph_isomorphic",
    "C05_isomorphism_preserves_metrics"
   ],
   "note": ""
  },
  {
   "property": "C06",
   "status": "proved",
   "theorems": [
    "C06_remove_integrate_restores",
    "C06_removed_state_is_nonisolated_subgraph"
   ],
   "note": ""
  },
  {
   "property": "C07",
   "status": "proved",
   "theorems": [
    "C07_final_k_is_tree_label",
    "C07_final_k_last_level",
    "C07_final_k_sum",
    "C07_final_k_balanced",
    "C07_final_k_children"
   ],
   "note": ""
  },
  {
   "property": "C08",
   "status": "proved",
   "theorems": [
    "C08_sub_blocks_tile",
    "C08_first_sub_block_last_level_refuted"
   ],
   "note": "For all power-of-two levels, the only ones on which the code calls it; the value on the last level for non-power-of-two k is wrong (refuted theorem records this finding)."
  },
  {
   "property": "C09",
   "status": "proved",
   "theorems": [
    "C09_extend_partition_refines",
    "C09_extend_lazy_refines",
    "C09_extend_step_labels",
    "C09_extend_lazy_step_labels"
   ],
   "note": "Preallocated and lazy extension, all bipartitioners, schedules and thread assignments; current block count a power of two (complete_partial_extend_partition is not modelled)."
  },
  {
   "property": "C10",
   "status": "partial",
   "theorems": [
    "C10_block_count_for_size",
    "C10_uncoarsening_reaches_k_partial",
    "C10_lazy_memory_refuted",
    "C10_preallocated_memory_refuted",
    "C10_initial_block_count",
    "C10_initial_partitioning_ends"
   ],
   "note": "Proved for hierarchies in which a finer graph is edge-weighted only if the coarser one is. Without that the lazily grown memory is written out of bounds (C10_lazy_memory_refuted); with use_lazy_subgraph_memory=false memory is freed too early on small inputs (C10_preallocated_memory_refuted). k=1 excluded."
  },
  {
   "property": "C11",
   "status": "proved",
   "theorems": [
    "C11_mapping_numbers_clusters",
    "C11_buckets_partition_nodes"
   ],
   "note": ""
  },
  {
   "property": "C12",
   "status": "proved",
   "theorems": [
    "C12_buffered_contraction_quotient",
    "C12_quotient_well_formed",
    "C12_unbuffered_contraction_quotient"
   ],
   "note": ""
  },
  {
   "property": "C13",
   "status": "proved",
   "theorems": [
    "C13_projection_preserves_cut_and_weights"
   ],
   "note": ""
  },
  {
   "property": "C14",
   "status": "proved",
   "theorems": [
    "C14_edge_cut_is_cut_weight",
    "C14_edge_cut_schedule_independent"
   ],
   "note": ""
  },
  {
   "property": "C15",
   "status": "proved",
   "theorems": [
    "C15_block_weights_exact",
    "C15_moves_respect_limit",
    "C15_initial_weights_par",
    "C15_initial_weights_seq"
   ],
   "note": "All interleavings of atomic steps, any number of threads; node ownership (no two threads move the same node) is part of the transition relation, as in the property."
  },
  {
   "property": "C16",
   "status": "proved",
   "theorems": [
    "C16_cluster_weights_exact",
    "C16_cluster_weight_overshoot",
    "C16_hard_limit_refuted"
   ],
   "note": "try_node_move / move_cluster_weight for all interleavings; the overshoot bound is attained (example) and the hard limit is refuted. Two-hop and isolated-node clustering are separate code paths, not covered."
  },
  {
   "property": "C17",
   "status": "proved",
   "theorems": [
    "C17_gain_is_cut_decrease",
    "C17_dense_gain_cache",
    "C17_compact_gain_cache",
    "C17_compact_layout"
   ],
   "note": "Dense and compact hashing caches (the latter is the default). Simple graphs with positive edge weights; compact: k <= 2^30 and weighted degrees below 2^31. Reports for a node are exact whenever no worker has outstanding updates for it. The locks are modelled as atomic steps (the code releases them with a relaxed store). The sparse, hashing and on-the-fly caches are not modelled."
  },
  {
   "property": "C18",
   "status": "proved",
   "theorems": [
    "C18_local_view",
    "C18_clear_gives_shared",
    "C18_large_k_enumeration",
    "C18_large_k_values_refuted"
   ],
   "note": "Generic and large-k delta caches on top of any exact shared cache (instances: dense, compact hashing), with concurrent moves of other nodes by other workers between complete cache updates. The on-the-fly delta cache is not modelled. Finding: the large-k enumeration mixes gains and connections (refuted theorem)."
  },
  {
   "property": "C19",
   "status": "proved",
   "theorems": [
    "C19_fm_batch_dense",
    "C19_fm_batch_compact"
   ],
   "note": "One worker alone, every sequence of batches, for the dense and the compact hashing gain cache with either delta gain cache. The queues may yield any contained node; the stopping policy may stop anywhere. Weights are unbounded integers; fewer than 2^64 - 2 queue operations."
  },
  {
   "property": "C20",
   "status": "proved",
   "theorems": [
    "C20_balancer_safe",
    "C20_returns_only_balanced",
    "C20_no_room_no_return",
    "C20_return_refuted"
   ],
   "note": "Safety and the meaning of the returned value hold for every graph, schedule and number of threads; the balancer returns only balanced partitions (C20_returns_only_balanced). Finding beyond the statement: it does not always return (C20_no_room_no_return, C20_return_refuted)."
  },
  {
   "property": "C21",
   "status": "proved",
   "theorems": [
    "C21_fm_round"
   ],
   "note": ""
  },
  {
   "property": "C22",
   "status": "proved",
   "theorems": [
    "C22_varint_roundtrip",
    "C22_varint_length",
    "C22_marked_varint_roundtrip",
    "C22_marked_varint_length",
    "C22_signed_varint_roundtrip",
    "C22_fast_decode_32",
    "C22_fast_decode_64",
    "C22_branchless_decode_32"
   ],
   "note": ""
  },
  {
   "property": "C23",
   "status": "proved",
   "theorems": [
    "C23_compression_lossless",
    "C23_parallel_traversal",
    "C23_limit_zero_refuted"
   ],
   "note": "Within the format limits stated in the theorem (data addressable with an EdgeID, neighbourhood size in bytes below half the NodeID range). adjacent_nodes with max_num_neighbors = 0 visits one neighbour: C23_limit_zero_refuted. StreamVByte is C24."
  },
  {
   "property": "C24",
   "status": "partial",
   "theorems": [
    "C24_round_trip_32_partial",
    "C24_reported_sizes",
    "C24_round_trip_64_partial",
    "C24_three_bytes_refuted",
    "C24_delta_64_refuted",
    "C24_largest_unsorted_refuted",
    "C24_padding_needed"
   ],
   "note": "32-bit integers: every length, all kinds of differential coding (relative to the largest value: non-decreasing sequences), single values and pairs. 64-bit integers: only plain coding of values of 1, 2, 4 or 8 bytes; the rest is false of the code (C24_three_bytes_refuted, C24_delta_64_refuted). Unsorted values relative to the largest: C24_largest_unsorted_refuted."
  },
  {
   "property": "C25",
   "status": "proved",
   "theorems": [
    "C25_parallel_equals_sequential",
    "C25_parallel_never_blocks",
    "C25_chunks",
    "C25_local_buffer_refuted"
   ],
   "note": "All schedules and thread counts: result equals sequential compression and fair schedules finish, provided no chunk exceeds the thread-local buffer; that proviso is guaranteed when m/5000 <= max degree + 1 and C25_local_buffer_refuted shows a graph where the buffer overflows."
  },
  {
   "property": "C26",
   "status": "partial",
   "theorems": [
    "C26_size_within_reservation",
    "C26_size_any_graph"
   ],
   "note": "Sequential builder, simple graphs with n below half of the NodeID range; 40 bytes per edge for arbitrary graphs. The thread-local buffers of the parallel builder: sufficient if m/5000 <= max degree + 1 (part of C25), refuted in general (C25_local_buffer_refuted)."
  },
  {
   "property": "C27",
   "status": "partial",
   "theorems": [
    "C27_edge_metadata",
    "C27_node_weights",
    "C27_unit_node_weights",
    "C27_zero_node_weights_refuted",
    "C27_max_degree_refuted"
   ],
   "note": "Node count, edge count, edge weights and positive node weights proved; max_degree() is always 0 in the sequential builder and zero node weights may be lost (refuted theorems)."
  },
  {
   "property": "C28",
   "status": "partial",
   "theorems": [
    "C28_heaps_refine_priority_queues",
    "C28_pop_removes_the_top",
    "C28_remove_extreme_key_refuted"
   ],
   "note": "Refinement to abstract priority queues for all histories in which keys differ from the reserved extreme value; remove() with the extreme key is false of the code (refuted theorem)."
  },
  {
   "property": "C29",
   "status": "proved",
   "theorems": [
    "C29_compact_hash_map"
   ],
   "note": "Both variants (may fill up / must keep a free cell), packed cells with any key/value split; single-threaded histories, values positive and fitting the value bits, only contained amounts removed."
  },
  {
   "property": "C30",
   "status": "partial",
   "theorems": [
    "C30_marker_answers_marks",
    "C30_first_unmarked_element",
    "C30_marker_64_bit_refuted"
   ],
   "note": "Proved for every history for 32-bit values and for fewer than 2^(32-k) resets with 64-bit values; beyond that the claim is false of the code (refuted theorem, all k)."
  },
  {
   "property": "C31",
   "status": "partial",
   "theorems": [
    "C31_dynamic_maps",
    "C31_fast_reset_array",
    "C31_fast_reset_array_zero_refuted",
    "C31_sparse_map_accumulates",
    "C31_sparse_map_is_a_map",
    "C31_fixed_size_sparse_map",
    "C31_fixed_size_full_refuted",
    "C31_rating_map"
   ],
   "note": "SparseMap: every history. FixedSizeSparseMap: every history with fewer keys than slots (a full map makes lookups run forever: C31_fixed_size_full_refuted; the rating map never fills it). FastResetArray: every history of positive additions; with a zero value a key is enumerated twice (C31_fast_reset_array_zero_refuted)."
  },
  {
   "property": "C32",
   "status": "proved",
   "theorems": [
    "C32_rank",
    "C32_initial_bits",
    "C32_rank_of_length_refuted"
   ],
   "note": "For every position below the length, and for the length itself unless it is a multiple of 498, where the query reads outside of the memory (refuted theorem records this finding)."
  },
  {
   "property": "C33",
   "status": "proved",
   "theorems": [
    "C33_compact_static_array"
   ],
   "note": "All writes, reads, iteration, restriction and reconstruction from bytes; byte width at most the size of the integer type."
  },
  {
   "property": "C34",
   "status": "proved",
   "theorems": [
    "C34_listing_is_block",
    "C34_extract_subgraphs",
    "C34_extract_sequential",
    "C34_lazy_extraction"
   ],
   "note": "Parallel, sequential (bipartition) and lazy extraction, for every order of the fetch-adds and every previous memory contents. Block construction is modelled one block at a time (the theorem shows that the written regions are disjoint)."
  },
  {
   "property": "C35",
   "status": "proved",
   "theorems": [
    "C35_local_ranges_tile",
    "C35_local_range_rank",
    "C35_find_in_distribution"
   ],
   "note": ""
  },
  {
   "property": "C36",
   "status": "partial",
   "theorems": [
    "C36_read_what_is_described",
    "C36_round_trip",
    "C36_compress_read",
    "C36_page_multiple_refuted",
    "C36_wide_weights_refuted",
    "C36_compress_empty_refuted",
    "C36_node_sizes_refuted"
   ],
   "note": "Proved for every file of the METIS format and for write-then-read of every simple undirected graph with positive weights that fits the build. False in four situations recorded by refuted theorems: file length a multiple of the page size, 64-bit weights with 32-bit IDs, compressed reading of an empty graph, node sizes (format 1xx)."
  },
  {
   "property": "C37",
   "status": "proved",
   "theorems": [
    "C37_partition_round_trip",
    "C37_partition_read",
    "C37_partition_file",
    "C37_empty_refuted",
    "C37_block_sizes",
    "C37_many_nodes_refuted"
   ],
   "note": "For all non-empty partitions. The file of an empty partition cannot be read back (C37_empty_refuted); block size files are limited to fewer than 2^31 nodes (C37_many_nodes_refuted)."
  },
  {
   "property": "C38",
   "status": "partial",
   "theorems": [
    "C38_positive_weights_faithful",
    "C38_zero_weights_refuted"
   ],
   "note": "Proved for weights >= 1. With zero weights the claim is false of the code (weights summing up to n are dropped): C38_zero_weights_refuted."
  },
  {
   "property": "C39",
   "status": "partial",
   "theorems": [
    "C39_bucket_index",
    "C39_bucket_index_covers",
    "C39_bucket_index_with_isolated_refuted",
    "C39_degree_bucket"
   ],
   "note": "Proved for the state in which clustering reads the index (isolated nodes removed); false while isolated nodes are present (refuted theorem)."
  },
  {
   "property": "C40",
   "status": "partial",
   "theorems": [
    "C40_round_robin_permutation_refuted",
    "C40_round_robin_square_partial"
   ],
   "note": "The permutation claim is false of the code in general (C40_..._refuted gives n=4, size=3); proved for n a multiple of size^2. The function is only used by tests."
  },
  {
   "property": "C41",
   "status": "proved",
   "theorems": [
    "C41_grid_delivers",
    "C41_dense_delivers",
    "C41_complete_delivers",
    "C41_topology",
    "C41_grid_position_roundtrip"
   ],
   "note": ""
  },
  {
   "property": "C42",
   "status": "proved",
   "theorems": [
    "C42_div_ceil",
    "C42_is_power_of_2",
    "C42_floor_log2",
    "C42_ceil_log2",
    "C42_floor2_32",
    "C42_ceil2_32",
    "C42_pow2_rounding_64_refuted",
    "C42_byte_width",
    "C42_split_integral"
   ],
   "note": "floor2/ceil2 are exact on 32-bit arguments; on 64-bit arguments the int literal shift is wrong (refuted theorem records this finding)."
  },
  {
   "property": "C43",
   "status": "partial",
   "theorems": [
    "C43_read_what_is_described",
    "C43_read_degree_buckets",
    "C43_compressed_read",
    "C43_write_describes",
    "C43_round_trip",
    "C43_narrow_build_refuses",
    "C43_large_file_refuted"
   ],
   "note": "Reading (plain, by degree buckets, compressed), writing, round trips across builds and refusals are proved for all files and graphs whose byte positions fit the edge ID type; false beyond: C43_large_file_refuted (32-bit build, 2^30 nodes). Reading by degree buckets assumes fewer than 2^31 directed edges."
  },
  {
   "property": "C44",
   "status": "proved",
   "theorems": [
    "C44_round_trip",
    "C44_other_settings_refused",
    "C44_detection"
   ],
   "note": "For all graphs with positive node weights (or none) held by the build."
  },
  {
   "property": "C45",
   "status": "partial",
   "theorems": [
    "C45_accepts_undirected",
    "C45_accepted_is_symmetric",
    "C45_parallel_edges_refuted",
    "C45_debug_accepted",
    "C45_debug_accepts"
   ],
   "note": "Accepts every symmetric graph without parallel edges; accepted graphs are symmetric and have no neighbouring parallel edges. Parallel edges in general are not detected: C45_parallel_edges_refuted. The debug validation accepts simple symmetric graphs and only symmetric ones without self-loops; it does not look for parallel edges."
  },
  {
   "property": "C46",
   "status": "partial",
   "theorems": [
    "C46_bipartition",
    "C46_breadth_first_balance",
    "C46_random_balance",
    "C46_greedy_growing_balance",
    "C46_greedy_growing_ignores_edges",
    "C46_greedy_growing_refuted"
   ],
   "note": "All three algorithms for all graphs and random choices. That greedy growing follows edges is false of the code: C46_greedy_growing_ignores_edges, C46_greedy_growing_refuted."
  },
  {
   "property": "C47",
   "status": "partial",
   "theorems": [
    "C47_two_way_fm",
    "C47_round",
    "C47_balance_refuted"
   ],
   "note": "For undirected graphs without self-loops and with non-negative edge weights. The documented rule that the first balanced cut is accepted is false of the code: C47_balance_refuted."
  },
  {
   "property": "C48",
   "status": "partial",
   "theorems": [
    "C48_initial_coarsening",
    "C48_heavy_nodes_refuted"
   ],
   "note": "For node weights and maximum cluster weights below 2^29 (32-bit weights) or 2^61 (64-bit weights). For heavier nodes the statement is false of the code: C48_heavy_nodes_refuted."
  },
  {
   "property": "C49",
   "status": "partial",
   "theorems": [
    "C49_best_of_pool",
    "C49_unit_weights_feasible",
    "C49_adaptive_only_refuted",
    "C49_stopping_rule_refuted"
   ],
   "note": "The selection is proved in full for configurations with at least one repetition that must not skip bipartitioners; for min_num_non_adaptive_repetitions = 0 the claim is refuted, and so is the use of the configured stopping rule. The double statistics are an oracle."
  },
  {
   "property": "C50",
   "status": "proved",
   "theorems": [
    "C50_multilevel_bipartition",
    "C50_balanced",
    "C50_histories",
    "C50_bipartitioner_interface"
   ],
   "note": "Node and cluster weights below half the range of the weight bit-field (see C48_heavy_nodes_refuted); usable configurations only (see C49_adaptive_only_refuted)."
  },
  {
   "property": "C51",
   "status": "partial",
   "theorems": [
    "C51_kway_limits",
    "C51_kway_limits_top",
    "C51_twoway_limits",
    "C51_twoway_limits_uniform",
    "C51_limits_nest",
    "C51_vcycle_limits_partial",
    "C51_vcycle_out_of_bounds_refuted",
    "C51_vcycle_wide_refuted",
    "C51_uniform_limit_suffices",
    "C51_uniform_limit_refuted"
   ],
   "note": "Limits given per block: proved for all levels and blocks. One common epsilon: k-way limits suffice in total, but exceed the final limits (C51_uniform_limit_refuted); the adaptive epsilon of the two-way limits is not modelled. v-cycles: proved for increasing powers of two with sums below 2^31; false otherwise (two refuted theorems)."
  },
  {
   "property": "C52",
   "status": "proved",
   "theorems": [
    "C52_rb_partition",
    "C52_rb_labels",
    "C52_rb_nested",
    "C52_rb_balanced",
    "C52_rb_refused",
    "C52_rb_one_block_refuted",
    "C52_kway_partition"
   ],
   "note": "Coarseners, the pool of bipartitioners and the refiners are arbitrary functions with legal results (their own properties are C16, C46-C50, C22 ff.). k = 1 is a finding."
  },
  {
   "property": "C53",
   "status": "proved",
   "theorems": [
    "C53_clustering",
    "C53_communities",
    "C53_best_cluster",
    "C53_weights",
    "C53_two_hop_pairs",
    "C53_two_hop_communities_refuted",
    "C53_isolated_communities_refuted"
   ],
   "note": ""
  },
  {
   "property": "C54",
   "status": "partial",
   "theorems": [
    "C54_communities_of_coarse_nodes",
    "C54_restricted_cycle_partial",
    "C54_restricted_cycles_partial",
    "C54_two_hop_refuted"
   ],
   "note": "Proved for coarsening that merges only nodes of one community; label propagation alone guarantees this (C53_communities), but the default two-hop and isolated matching do not (C54_two_hop_refuted)."
  },
  {
   "property": "C55",
   "status": "partial",
   "theorems": [
    "C55_iterations",
    "C55_unsorted_graphs",
    "C55_sorted_graphs_partial",
    "C55_ranged_iteration",
    "C55_initial_order",
    "C55_below_the_bound_refuted",
    "C55_full_after_ranged_refuted",
    "C55_identifier_wrap_refuted"
   ],
   "note": "Proved for graphs that are not degree-sorted; in degree-sorted graphs exactly the nodes of degree below 2^(L-1) are handled, L being the binary logarithm of the maximum degree; refuted for the degrees in between."
  },
  {
   "property": "C56",
   "status": "partial",
   "theorems": [
    "C56_all_executions",
    "C56_visit_never_worsens",
    "C56_single_thread",
    "C56_active_set",
    "C56_concurrent_cut_refuted",
    "C56_neighbor_limit_refuted",
    "C56_lost_activation_refuted"
   ],
   "note": "Validity, exact block weights and limits for all executions; the cut and the active set for one thread; both refuted for two threads, and the cut for a limited number of neighbours."
  },
  {
   "property": "C57",
   "status": "partial",
   "theorems": [
    "C57_result_partial",
    "C57_any_order",
    "C57_moves",
    "C57_moved_nodes_rest",
    "C57_returns_refuted",
    "C57_balance_refuted"
   ],
   "note": "Everything stated holds if Jet returns; that it returns is refuted (the balancer may not come to an end). Gains are taken from an exact gain cache; the temperature test and the number of iterations are arbitrary."
  },
  {
   "property": "C58",
   "status": "proved",
   "theorems": [
    "C58_reports",
    "C58_layout",
    "C58_index_of_sorted_graph",
    "C58_wide_weights_refuted"
   ],
   "note": ""
  },
  {
   "property": "C59",
   "status": "partial",
   "theorems": [
    "C59_tree_reduction",
    "C59_reduction",
    "C59_round_safe",
    "C59_round_ends_partial",
    "C59_unit_round",
    "C59_round_hangs_refuted"
   ],
   "note": "Safety, agreement and the end of the reduction for every number of ranks and schedule; the root's search ends for unit weights and for proposals bounded by the excess plus one node, and is refuted in general (C59_round_hangs_refuted). Not modelled: the broadcast, the marking of neighbours, the parallel round."
  },
  {
   "property": "C60",
   "status": "partial",
   "theorems": [
    "C60_import_ends",
    "C60_local_view",
    "C60_large_weights_refuted",
    "C60_edge_distribution",
    "C60_interface_messages",
    "C60_ghost_values",
    "C60_ghost_weights"
   ],
   "note": "Full statement for weights that fit into the local weight type; larger weights are refuted (C60_large_weights_refuted). Ghost weights need every rank with nodes to pass weights (C60_mixed_weights shows the out-of-bounds write otherwise). Not modelled: 32-bit overflow of local identifiers, the compressed graph, the compact ghost mapping; the transport itself is C41."
  },
  {
   "property": "C61",
   "status": "partial",
   "theorems": [
    "C61_edge_cut",
    "C61_returned_cut_partial",
    "C61_returned_cut_refuted",
    "C61_block_weights",
    "C61_feasible",
    "C61_written_partition",
    "C61_total_weight_partial",
    "C61_total_weight_refuted",
    "C61_max_weight"
   ],
   "note": "The cut computed by the metric, block weights, feasibility, written partition and maximum are proved in full; the returned cut and the total weight only if they fit into the local weight type, otherwise refuted. Not modelled: imbalance (floating point), the output for a rearranged graph."
  },
  {
   "property": "C62",
   "status": "partial",
   "theorems": [
    "C62_partition_and_weights",
    "C62_chunk_completes",
    "C62_default_overloads_refuted"
   ],
   "note": "Consistency, agreement and completion are proved in full; the balance claim holds with the check and is refuted for the default configuration, which disables it. The local label propagation and the random generator are oracles; 32-bit overflow of weights is not modelled."
  },
  {
   "property": "C63",
   "status": "partial",
   "theorems": [
    "C63_replicated_graph",
    "C63_best_partition",
    "C63_groups_hold_graph",
    "C63_groups_complete",
    "C63_best_of_groups",
    "C63_uneven_groups_refuted",
    "C63_large_cut_refuted"
   ],
   "note": "Proved in full for copies on all ranks and for groups of equal size; refuted for groups of different size and for cuts that do not fit. Counts and displacements of MPI (int) are unbounded; compressed graphs are not modelled here."
  },
  {
   "property": "C64",
   "status": "partial",
   "theorems": [
    "C64_degree_sorted",
    "C64_color_sorted",
    "C64_color_empty_rank_refuted",
    "C64_complete",
    "C64_returned_blocks",
    "C64_message_loop"
   ],
   "note": "Proved in full for sorting by degree, and for sorting by colour if every rank has nodes or ghosts; refuted for colour with an empty rank. Degrees are below 2^32; compressed graphs are not reordered by the code. That the colouring itself is proper is a hypothesis here and proved in C65."
  },
  {
   "property": "C65",
   "status": "partial",
   "theorems": [
    "C65_proper",
    "C65_terminates",
    "C65_no_errors",
    "C65_returns",
    "C65_classes_independent",
    "C65_self_loop_refuted"
   ],
   "note": "Proved in full for graphs without self-loops; refuted with a self-loop at an interface node (the call does not return). Colours are unbounded naturals; the marker is taken as a set, which is exact for fewer than 2^31 resets (C30)."
  },
  {
   "property": "C66",
   "status": "partial",
   "theorems": [
    "C66_result_partial",
    "C66_moves",
    "C66_no_errors",
    "C66_large_cut_refuted",
    "C66_dynamic_factor_refuted"
   ],
   "note": "Proved in full if all cuts fit into an EdgeWeight (2^31 or 2^63); refuted for cuts of 2^31 with 32-bit weights, and that Jet moves nodes is refuted for dynamic gain factors with one round. Weights are unbounded otherwise; the balancer is a parameter that has to keep the partition consistent; when iterations end is arbitrary; the overload is exact (below 2^53)."
  },
  {
   "property": "C67",
   "status": "partial",
   "theorems": [
    "C67_block_count_partial",
    "C67_number_of_blocks_refuted",
    "C67_small_graph_refuted"
   ],
   "note": "Proved for K a power of two and k <= K or k a power of two, on graphs with at least as many nodes as the contraction limit; refuted for K < k < 2 K (the call does not return) and for small graphs (undefined behaviour)."
  },
  {
   "property": "C68",
   "status": "partial",
   "theorems": [
    "C68_limits",
    "C68_limits_defined",
    "C68_feasible_partition_partial",
    "C68_zero_weight_refuted",
    "C68_weighted_input_refuted"
   ],
   "note": "Limits and the existence of a feasible partition are proved for positive node weights; refuted with nodes of weight 0. That the limits enforce the requested balance is refuted for input graphs with node weights."
  },
  {
   "property": "C69",
   "status": "partial",
   "theorems": [
    "C69_subgraphs_partial",
    "C69_extracts",
    "C69_projection_partial",
    "C69_more_blocks_refuted",
    "C69_more_blocks_exist_refuted",
    "C69_blocks_left_refuted",
    "C69_ranks_left_refuted",
    "C69_wrong_block_refuted"
   ],
   "note": "Subgraphs: proved if blocks are no more than ranks and at most one rank is left over (two if P / k = 1), or if the number of ranks divides the number of blocks; projection: proved if there are no more blocks than ranks. Outside of that both are refuted."
  },
  {
   "property": "C70",
   "status": "partial",
   "theorems": [
    "C70_matching_partial",
    "C70_any_coloring_partial",
    "C70_returns",
    "C70_size",
    "C70_proposal",
    "C70_request",
    "C70_heavier_edge_refuted",
    "C70_empty_rank_refuted"
   ],
   "note": "Matching, weight limit and agreement of all ranks: proved for every run that returns; it returns if every rank has a node. That the heaviest edge wins: proved for requests whose compare-exchanges do not fail, refuted otherwise. Ranks without nodes: refuted. Overflow is not modelled."
  },
  {
   "property": "C71",
   "status": "partial",
   "theorems": [
    "C71_sets_partial",
    "C71_moves_partial",
    "C71_two_blocks_refuted",
    "C71_gain_refuted",
    "C71_empty_rank_refuted",
    "C71_greedy_refuted"
   ],
   "note": "Proved for singleton sets (the default) and for sets made of any clusters that lie inside blocks, for every sequence of moves. The clusters that the code uses need not lie inside blocks: refuted. The strategy greedy-batch-prefix: refuted. Overflow is not modelled."
  },
  {
   "property": "C72",
   "status": "partial",
   "theorems": [
    "C72_independent",
    "C72_exact",
    "C72_returns",
    "C72_border_nodes",
    "C72_nonempty_partial",
    "C72_empty_refuted"
   ],
   "note": "Independence, exactness, determinism and termination are proved. That the set is not empty holds only if neighbours of border nodes on other ranks are border nodes; otherwise refuted."
  },
  {
   "property": "C73",
   "status": "proved",
   "theorems": [
    "C73_sums",
    "C73_only_powers"
   ],
   "note": ""
  },
  {
   "property": "C74",
   "status": "partial",
   "theorems": [
    "C74_exact",
    "C74_blocks",
    "C74_picked",
    "C74_no_new_overload_partial",
    "C74_shrinks_partial",
    "C74_default_refuted"
   ],
   "note": "Exact weights, valid blocks and sources of moves are proved for all settings. That no block becomes overloaded is proved if imbalanced moves are not accepted, and refuted for the default setting. That overloaded blocks do not grow is proved unless a random number is exactly 0. Ghost messages are not modelled."
  },
  {
   "property": "C75",
   "status": "partial",
   "theorems": [
    "C75_exact_partial",
    "C75_blocks_partial",
    "C75_best_partial",
    "C75_shrinks_partial",
    "C75_no_new_overload_partial",
    "C75_defined_partial",
    "C75_default_refuted",
    "C75_no_room_refuted"
   ],
   "note": "Exact weights, valid blocks, sources of moves and that overloaded blocks do not grow are proved for all settings and draws, for rounds in which every picked cluster has a target; without a target the code accesses an array out of bounds (refuted). That no block becomes overloaded is proved if imbalanced moves are not accepted, and refuted for the default setting."
  },
  {
   "property": "C76",
   "status": "proved",
   "theorems": [
    "C76_cutoffs",
    "C76_suffices",
    "C76_clusters"
   ],
   "note": "Gains are assigned to buckets by an arbitrary function. The reduction is a sum (MPI_Reduce); the binary reduction tree, switched off in the code, is not modelled."
  }
 ]
}