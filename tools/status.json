{
 "C40": {
  "status": "partial",
  "note": "The permutation claim is false of the code in general (C40_..._refuted gives n=4, size=3); proved for n a multiple of size^2. The function is only used by tests."
 },
 "C42": {
  "status": "proved",
  "note": "floor2/ceil2 are exact on 32-bit arguments; on 64-bit arguments the int literal shift is wrong (refuted theorem records this finding)."
 },
 "C08": {
  "status": "proved",
  "note": "For all power-of-two levels, the only ones on which the code calls it; the value on the last level for non-power-of-two k is wrong (refuted theorem records this finding)."
 },
 "C38": {
  "status": "partial",
  "note": "Proved for weights >= 1. With zero weights the claim is false of the code (weights summing up to n are dropped): C38_zero_weights_refuted."
 },
 "C39": {
  "status": "partial",
  "note": "Proved for the state in which clustering reads the index (isolated nodes removed); false while isolated nodes are present (refuted theorem)."
 },
 "C01": {
  "status": "partial",
  "note": "C01_labels_in_range: facade over histories, given labels of the partitioner. C01_complete_call_partial: end to end with the deep multilevel partitioner (coarsening, contraction interleavings, uncoarsening, extension); the clustering, initial partitioner, bipartitioner and refiners are arbitrary. Missing: hierarchies that lose edge weights while coarsening (C01_edge_weights_refuted shows an out-of-bounds write), k < 2, preallocated memory, compressed graphs (v-cycles: C54) (the rb and kway modes are covered by C52)."
 },
 "C02": {
  "status": "proved",
  "note": "For every history of calls, positive weights, cut fitting into the result type."
 },
 "C03": {
  "status": "partial",
  "note": "Proved for unit-weight isolated nodes; for weighted isolated nodes only the last block can be overloaded (partial theorem), and it can be (refuted theorem)."
 },
 "C23": {
  "status": "proved",
  "note": "Within the format limits stated in the theorem (data addressable with an EdgeID, neighbourhood size in bytes below half the NodeID range). adjacent_nodes with max_num_neighbors = 0 visits one neighbour: C23_limit_zero_refuted. StreamVByte is C24."
 },
 "C26": {
  "status": "partial",
  "note": "Sequential builder, simple graphs with n below half of the NodeID range; 40 bytes per edge for arbitrary graphs. The thread-local buffers of the parallel builder: sufficient if m/5000 <= max degree + 1 (part of C25), refuted in general (C25_local_buffer_refuted)."
 },
 "C27": {
  "status": "partial",
  "note": "Node count, edge count, edge weights and positive node weights proved; max_degree() is always 0 in the sequential builder and zero node weights may be lost (refuted theorems)."
 },
 "C28": {
  "status": "partial",
  "note": "Refinement to abstract priority queues for all histories in which keys differ from the reserved extreme value; remove() with the extreme key is false of the code (refuted theorem)."
 },
 "C30": {
  "status": "partial",
  "note": "Proved for every history for 32-bit values and for fewer than 2^(32-k) resets with 64-bit values; beyond that the claim is false of the code (refuted theorem, all k)."
 },
 "C15": {
  "status": "proved",
  "note": "All interleavings of atomic steps, any number of threads; node ownership (no two threads move the same node) is part of the transition relation, as in the property."
 },
 "C16": {
  "status": "proved",
  "note": "try_node_move / move_cluster_weight for all interleavings; the overshoot bound is attained (example) and the hard limit is refuted. Two-hop and isolated-node clustering are separate code paths, not covered."
 },
 "C31": {
  "status": "partial",
  "note": "SparseMap: every history. FixedSizeSparseMap: every history with fewer keys than slots (a full map makes lookups run forever: C31_fixed_size_full_refuted; the rating map never fills it). FastResetArray: every history of positive additions; with a zero value a key is enumerated twice (C31_fast_reset_array_zero_refuted)."
 },
 "C29": {
  "status": "proved",
  "note": "Both variants (may fill up / must keep a free cell), packed cells with any key/value split; single-threaded histories, values positive and fitting the value bits, only contained amounts removed."
 },
 "C32": {
  "status": "proved",
  "note": "For every position below the length, and for the length itself unless it is a multiple of 498, where the query reads outside of the memory (refuted theorem records this finding)."
 },
 "C33": {
  "status": "proved",
  "note": "All writes, reads, iteration, restriction and reconstruction from bytes; byte width at most the size of the integer type."
 },
 "C34": {
  "status": "proved",
  "note": "Parallel, sequential (bipartition) and lazy extraction, for every order of the fetch-adds and every previous memory contents. Block construction is modelled one block at a time (the theorem shows that the written regions are disjoint)."
 },
 "C09": {
  "status": "proved",
  "note": "Preallocated and lazy extension, all bipartitioners, schedules and thread assignments; current block count a power of two (complete_partial_extend_partition is not modelled)."
 },
 "C10": {
  "status": "partial",
  "note": "Proved for hierarchies in which a finer graph is edge-weighted only if the coarser one is. Without that the lazily grown memory is written out of bounds (C10_lazy_memory_refuted); with use_lazy_subgraph_memory=false memory is freed too early on small inputs (C10_preallocated_memory_refuted). k=1 excluded."
 },
 "C17": {
  "status": "proved",
  "note": "Dense and compact hashing caches (the latter is the default). Simple graphs with positive edge weights; compact: k <= 2^30 and weighted degrees below 2^31. Reports for a node are exact whenever no worker has outstanding updates for it. The locks are modelled as atomic steps (the code releases them with a relaxed store). The sparse, hashing and on-the-fly caches are not modelled."
 },
 "C18": {
  "status": "proved",
  "note": "Generic and large-k delta caches on top of any exact shared cache (instances: dense, compact hashing), with concurrent moves of other nodes by other workers between complete cache updates. The on-the-fly delta cache is not modelled. Finding: the large-k enumeration mixes gains and connections (refuted theorem)."
 },
 "C19": {
  "status": "proved",
  "note": "One worker alone, every sequence of batches, for the dense and the compact hashing gain cache with either delta gain cache. The queues may yield any contained node; the stopping policy may stop anywhere. Weights are unbounded integers; fewer than 2^64 - 2 queue operations."
 },
 "C20": {
  "status": "proved",
  "note": "Safety and the meaning of the returned value hold for every graph, schedule and number of threads; the balancer returns only balanced partitions (C20_returns_only_balanced). Finding beyond the statement: it does not always return (C20_no_room_no_return, C20_return_refuted)."
 },
 "C04": {
  "status": "partial",
  "note": "Proved for every total node weight below 2^53 (hence for the default 32-bit weights) with IEEE binary64 arithmetic; refuted for 64-bit weights above 2^53 (C04_large_total_refuted). Uses the axioms of the standard library's real numbers."
 },
 "C25": {
  "status": "proved",
  "note": "All schedules and thread counts: result equals sequential compression and fair schedules finish, provided no chunk exceeds the thread-local buffer; that proviso is guaranteed when m/5000 <= max degree + 1 and C25_local_buffer_refuted shows a graph where the buffer overflows."
 },
 "C36": {
  "status": "partial",
  "note": "Proved for every file of the METIS format and for write-then-read of every simple undirected graph with positive weights that fits the build. False in four situations recorded by refuted theorems: file length a multiple of the page size, 64-bit weights with 32-bit IDs, compressed reading of an empty graph, node sizes (format 1xx)."
 },
 "C37": {
  "status": "proved",
  "note": "For all non-empty partitions. The file of an empty partition cannot be read back (C37_empty_refuted); block size files are limited to fewer than 2^31 nodes (C37_many_nodes_refuted)."
 },
 "C43": {
  "status": "partial",
  "note": "Reading (plain, by degree buckets, compressed), writing, round trips across builds and refusals are proved for all files and graphs whose byte positions fit the edge ID type; false beyond: C43_large_file_refuted (32-bit build, 2^30 nodes). Reading by degree buckets assumes fewer than 2^31 directed edges."
 },
 "C44": {
  "status": "proved",
  "note": "For all graphs with positive node weights (or none) held by the build."
 },
 "C45": {
  "status": "partial",
  "note": "Accepts every symmetric graph without parallel edges; accepted graphs are symmetric and have no neighbouring parallel edges. Parallel edges in general are not detected: C45_parallel_edges_refuted. The debug validation accepts simple symmetric graphs and only symmetric ones without self-loops; it does not look for parallel edges."
 },
 "C24": {
  "status": "partial",
  "note": "32-bit integers: every length, all kinds of differential coding (relative to the largest value: non-decreasing sequences), single values and pairs. 64-bit integers: only plain coding of values of 1, 2, 4 or 8 bytes; the rest is false of the code (C24_three_bytes_refuted, C24_delta_64_refuted). Unsorted values relative to the largest: C24_largest_unsorted_refuted."
 },
 "C46": {
  "status": "partial",
  "note": "All three algorithms for all graphs and random choices. That greedy growing follows edges is false of the code: C46_greedy_growing_ignores_edges, C46_greedy_growing_refuted."
 },
 "C47": {
  "status": "partial",
  "note": "For undirected graphs without self-loops and with non-negative edge weights. The documented rule that the first balanced cut is accepted is false of the code: C47_balance_refuted."
 },
 "C48": {
  "status": "partial",
  "note": "For node weights and maximum cluster weights below 2^29 (32-bit weights) or 2^61 (64-bit weights). For heavier nodes the statement is false of the code: C48_heavy_nodes_refuted."
 },
 "C49": {
  "status": "partial",
  "note": "The selection is proved in full for configurations with at least one repetition that must not skip bipartitioners; for min_num_non_adaptive_repetitions = 0 the claim is refuted, and so is the use of the configured stopping rule. The double statistics are an oracle."
 },
 "C50": {
  "status": "proved",
  "note": "Node and cluster weights below half the range of the weight bit-field (see C48_heavy_nodes_refuted); usable configurations only (see C49_adaptive_only_refuted)."
 },
 "C51": {
  "status": "partial",
  "note": "Limits given per block: proved for all levels and blocks. One common epsilon: k-way limits suffice in total, but exceed the final limits (C51_uniform_limit_refuted); the adaptive epsilon of the two-way limits is not modelled. v-cycles: proved for increasing powers of two with sums below 2^31; false otherwise (two refuted theorems)."
 },
 "C52": {
  "status": "proved",
  "note": "Coarseners, the pool of bipartitioners and the refiners are arbitrary functions with legal results (their own properties are C16, C46-C50, C22 ff.). k = 1 is a finding."
 },
 "C54": {
  "status": "partial",
  "note": "Proved for coarsening that merges only nodes of one community; label propagation alone guarantees this (C53_communities), but the default two-hop and isolated matching do not (C54_two_hop_refuted)."
 },
 "C55": {
  "status": "partial",
  "note": "Proved for graphs that are not degree-sorted; in degree-sorted graphs exactly the nodes of degree below 2^(L-1) are handled, L being the binary logarithm of the maximum degree; refuted for the degrees in between."
 },
 "C56": {
  "status": "partial",
  "note": "Validity, exact block weights and limits for all executions; the cut and the active set for one thread; both refuted for two threads, and the cut for a limited number of neighbours."
 },
 "C57": {
  "status": "partial",
  "note": "Everything stated holds if Jet returns; that it returns is refuted (the balancer may not come to an end). Gains are taken from an exact gain cache; the temperature test and the number of iterations are arbitrary."
 },
 "C59": {
  "status": "partial",
  "note": "Safety, agreement and the end of the reduction for every number of ranks and schedule; the root's search ends for unit weights and for proposals bounded by the excess plus one node, and is refuted in general (C59_round_hangs_refuted). Not modelled: the broadcast, the marking of neighbours, the parallel round."
 },
 "C60": {
  "status": "partial",
  "note": "Full statement for weights that fit into the local weight type; larger weights are refuted (C60_large_weights_refuted). Ghost weights need every rank with nodes to pass weights (C60_mixed_weights shows the out-of-bounds write otherwise). Not modelled: 32-bit overflow of local identifiers, the compressed graph, the compact ghost mapping; the transport itself is C41."
 },
 "C61": {
  "status": "partial",
  "note": "The cut computed by the metric, block weights, feasibility, written partition and maximum are proved in full; the returned cut and the total weight only if they fit into the local weight type, otherwise refuted. Not modelled: imbalance (floating point), the output for a rearranged graph."
 },
 "C62": {
  "status": "partial",
  "note": "Consistency, agreement and completion are proved in full; the balance claim holds with the check and is refuted for the default configuration, which disables it. The local label propagation and the random generator are oracles; 32-bit overflow of weights is not modelled."
 },
 "C63": {
  "status": "partial",
  "note": "Proved in full for copies on all ranks and for groups of equal size; refuted for groups of different size and for cuts that do not fit. Counts and displacements of MPI (int) are unbounded; compressed graphs are not modelled here."
 },
 "C64": {
  "status": "partial",
  "note": "Proved in full for sorting by degree, and for sorting by colour if every rank has nodes or ghosts; refuted for colour with an empty rank. Degrees are below 2^32; compressed graphs are not reordered by the code. That the colouring itself is proper is a hypothesis here and proved in C65."
 },
 "C65": {
  "status": "partial",
  "note": "Proved in full for graphs without self-loops; refuted with a self-loop at an interface node (the call does not return). Colours are unbounded naturals; the marker is taken as a set, which is exact for fewer than 2^31 resets (C30)."
 },
 "C66": {
  "status": "partial",
  "note": "Proved in full if all cuts fit into an EdgeWeight (2^31 or 2^63); refuted for cuts of 2^31 with 32-bit weights, and that Jet moves nodes is refuted for dynamic gain factors with one round. Weights are unbounded otherwise; the balancer is a parameter that has to keep the partition consistent; when iterations end is arbitrary; the overload is exact (below 2^53)."
 },
 "C67": {
  "status": "partial",
  "note": "Proved for K a power of two and k <= K or k a power of two, on graphs with at least as many nodes as the contraction limit; refuted for K < k < 2 K (the call does not return) and for small graphs (undefined behaviour)."
 },
 "C68": {
  "status": "partial",
  "note": "Limits and the existence of a feasible partition are proved for positive node weights; refuted with nodes of weight 0. That the limits enforce the requested balance is refuted for input graphs with node weights."
 },
 "C69": {
  "status": "partial",
  "note": "Subgraphs: proved if blocks are no more than ranks and at most one rank is left over (two if P / k = 1), or if the number of ranks divides the number of blocks; projection: proved if there are no more blocks than ranks. Outside of that both are refuted."
 },
 "C70": {
  "status": "partial",
  "note": "Matching, weight limit and agreement of all ranks: proved for every run that returns; it returns if every rank has a node. That the heaviest edge wins: proved for requests whose compare-exchanges do not fail, refuted otherwise. Ranks without nodes: refuted. Overflow is not modelled."
 },
 "C71": {
  "status": "partial",
  "note": "Proved for singleton sets (the default) and for sets made of any clusters that lie inside blocks, for every sequence of moves. The clusters that the code uses need not lie inside blocks: refuted. The strategy greedy-batch-prefix: refuted. Overflow is not modelled."
 },
 "C72": {
  "status": "partial",
  "note": "Independence, exactness, determinism and termination are proved. That the set is not empty holds only if neighbours of border nodes on other ranks are border nodes; otherwise refuted."
 },
 "C74": {
  "status": "partial",
  "note": "Exact weights, valid blocks and sources of moves are proved for all settings. That no block becomes overloaded is proved if imbalanced moves are not accepted, and refuted for the default setting. That overloaded blocks do not grow is proved unless a random number is exactly 0. Ghost messages are not modelled."
 },
 "C75": {
  "status": "partial",
  "note": "Exact weights, valid blocks, sources of moves and that overloaded blocks do not grow are proved for all settings and draws, for rounds in which every picked cluster has a target; without a target the code accesses an array out of bounds (refuted). That no block becomes overloaded is proved if imbalanced moves are not accepted, and refuted for the default setting."
 },
 "C76": {
  "status": "proved",
  "note": "Gains are assigned to buckets by an arbitrary function. The reduction is a sum (MPI_Reduce); the binary reduction tree, switched off in the code, is not modelled."
 }
}