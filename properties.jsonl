{"id": "C01", "title": "Every node of the caller's graph gets exactly one block in [0,k)", "statement": "After KaMinPar::compute_partition(k, ..., partition) with k >= 2, every entry partition[u], 0 <= u < n, holds a block ID smaller than k, also when the graph was reordered by degree buckets and isolated nodes were stripped and re-integrated, and no entry is left unwritten.", "quantifier": "every graph, every k >= 2, every outcome of coarsening/bipartitioning/refinement that respects its own interface", "why_tests_cant": "The pipeline composes an input-dependent permutation, removal and re-integration; a test only samples a few graphs and a few seeds.", "anchors": ["kaminpar-shm/kaminpar.cc:KaMinPar::compute_partition", "kaminpar-shm/graphutils/permutator.cc:assign_isolated_nodes", "kaminpar-shm/partitioning/deep/deep_multilevel.cc:DeepMultilevelPartitioner::uncoarsen"]}
{"id": "C02", "title": "The value returned by compute_partition is the edge cut of the returned partition", "statement": "The EdgeWeight returned by compute_partition equals the total weight of the edges of the caller's graph (in the caller's numbering) whose endpoints got different labels in the partition array written for the caller.", "quantifier": "every symmetric weighted graph and every block assignment computed for the (permuted) graph", "why_tests_cant": "The cut is computed on the permuted internal graph, the labels are written through the permutation; equality must hold for all graphs and permutations.", "anchors": ["kaminpar-shm/kaminpar.cc:KaMinPar::compute_partition", "kaminpar-shm/metrics.h:edge_cut", "kaminpar-shm/graphutils/permutator.cc:rearrange_by_degree_buckets"]}
{"id": "C03", "title": "Re-integrating isolated nodes never breaks balance for unit node weights", "statement": "If the partition of the graph without isolated nodes respects the maximum block weights, all node weights are 1 and the maximum block weights have room for all nodes in total, then after assign_isolated_nodes every block still respects its maximum weight.", "quantifier": "every partition, every k, every number of isolated nodes, every vector of maximum block weights", "why_tests_cant": "The first-fit scan over blocks must never run out of room at the last block; only a quantified argument covers all weight vectors.", "anchors": ["kaminpar-shm/graphutils/permutator.cc:assign_isolated_nodes"]}
{"id": "C04", "title": "Default balance constraints are always satisfiable in total", "statement": "compute_partition(k, epsilon) sets maximum block weights whose sum is at least the total node weight, so that an assignment of total weight always fits by capacity; all blocks get the same limit and the limit is at least the average block weight rounded up.", "quantifier": "every total weight, every k >= 1, every non-negative epsilon", "why_tests_cant": "Rounding has to work out for every (weight, k, epsilon) triple.", "anchors": ["kaminpar-shm/kaminpar.cc:PartitionContext::setup", "kaminpar-common/math.h:div_ceil"]}
{"id": "C05", "title": "Degree-bucket reordering is an isomorphism", "statement": "rearrange_by_degree_buckets returns a graph together with a map from original to new node IDs that is a bijection, new IDs are sorted by degree bucket with isolated nodes last, node weights and weighted adjacency are carried over exactly, so v is a neighbour of u with weight w in the input iff their images are in the output.", "quantifier": "every CSR graph, every number of chunks/threads", "why_tests_cant": "The permutation is computed by per-thread counting; correctness for all graphs and chunkings cannot be sampled.", "anchors": ["kaminpar-shm/graphutils/permutator.h:compute_node_permutation_by_generic_buckets", "kaminpar-shm/graphutils/permutator.h:build_permuted_graph", "kaminpar-shm/graphutils/permutator.cc:rearrange_by_degree_buckets"]}
{"id": "C06", "title": "Removing and re-integrating isolated nodes restores the graph", "statement": "On a graph sorted by degree buckets, remove_isolated_nodes(count_isolated_nodes()) followed by integrate_isolated_nodes() restores the number of nodes, the node weights, the total node weight and the bucket index; in between, the graph has no isolated nodes, the same edges, and its total weight is that of the remaining nodes.", "quantifier": "every sorted CSR graph", "why_tests_cant": "Requires the restrict/unrestrict bookkeeping to be inverse for every graph size and isolated count.", "anchors": ["kaminpar-shm/datastructures/csr_graph.cc:remove_isolated_nodes", "kaminpar-shm/datastructures/csr_graph.cc:integrate_isolated_nodes", "kaminpar-common/datastructures/static_array.h:StaticArray::restrict"]}
{"id": "C07", "title": "Intermediate blocks know exactly into how many final blocks they will be split", "statement": "compute_final_k(b, k', k) equals the label of node b on level k' of the binary tree that halves k (ceil left, floor right); consequently the values on one level sum up to k, differ by at most one and every block splits into its two children's numbers.", "quantifier": "every k >= 1, every power of two k' <= k, every block b < k'", "why_tests_cant": "The implementation uses bit reversal; agreement with the recursive definition has to hold for all 32-bit k.", "anchors": ["kaminpar-shm/partitioning/partition_utils.cc:compute_final_k", "kaminpar-common/math.h:split_integral"]}
{"id": "C08", "title": "Final block ranges of intermediate blocks tile [0,k)", "statement": "The ranges [compute_first_sub_block(b), compute_first_invalid_sub_block(b)) for b = 0..k'-1 are consecutive, disjoint and cover exactly [0,k), so weight limits of intermediate blocks are sums of the limits of the final blocks they contain.", "quantifier": "every k, every level k' reached by recursive bipartitioning, every block b < k'", "why_tests_cant": "Needs an induction over the tree depth for all k.", "anchors": ["kaminpar-shm/partitioning/partition_utils.cc:compute_first_sub_block", "kaminpar-shm/partitioning/partition_utils.cc:compute_first_invalid_sub_block", "kaminpar-shm/partitioning/helper.cc:create_kway_context"]}
{"id": "C09", "title": "Extending a partition refines it", "statement": "Extending a k'-way partition to k'' blocks by recursive bipartitioning of the block-induced subgraphs produces labels in [0,k''), and two nodes that share a block afterwards shared a block before, no matter what bipartitions the sequential bipartitioner returns.", "quantifier": "every graph, every partition, every sequence of bipartition results, every k", "why_tests_cant": "Depends on relative node order being preserved through nested subgraph extraction of arbitrary depth.", "anchors": ["kaminpar-shm/partitioning/helper.cc:extend_partition_recursive", "kaminpar-shm/graphutils/subgraph_extractor.cc:copy_subgraph_partitions", "kaminpar-shm/graphutils/subgraph_extractor.cc:extract_subgraphs_sequential"]}
{"id": "C10", "title": "The deep multilevel scheme ends with exactly the requested number of blocks", "statement": "For k >= 2, uncoarsening ends with a k-way partition for every sequence of hierarchy sizes; every intermediate block count is a power of two or k itself, which is what the block arithmetic requires.", "quantifier": "every hierarchy (sequence of graph sizes), every contraction limit >= 1, every k >= 2", "why_tests_cant": "The number of blocks evolves with graph sizes; no finite set of hierarchies covers it.", "anchors": ["kaminpar-shm/partitioning/deep/deep_multilevel.cc:DeepMultilevelPartitioner::uncoarsen", "kaminpar-shm/partitioning/partition_utils.cc:compute_k_for_n"]}
{"id": "C11", "title": "Contraction maps nodes to coarse nodes exactly along cluster boundaries", "statement": "The coarse node IDs computed for a clustering are exactly 0..c_n-1 (each used), and two nodes get the same coarse node iff they had the same cluster label; the cluster buckets list every node exactly once under its coarse node, for every thread schedule.", "quantifier": "every clustering of every graph, every interleaving of the bucket fill", "why_tests_cant": "Schedules and clusterings are unbounded.", "anchors": ["kaminpar-shm/coarsening/contraction/cluster_contraction_preprocessing.cc:fill_leader_mapping", "kaminpar-shm/coarsening/contraction/cluster_contraction_preprocessing.cc:compute_mapping", "kaminpar-shm/coarsening/contraction/cluster_contraction_preprocessing.cc:fill_cluster_buckets"]}
{"id": "C12", "title": "The contracted graph is the quotient graph", "statement": "Every coarse node weighs the sum of its members, every coarse edge weighs the sum of the fine edges between the two clusters, there are no self loops or parallel edges, and the graph stays symmetric.", "quantifier": "every weighted graph, every clustering, every chunking of the coarse nodes", "why_tests_cant": "Universal over graphs and clusterings.", "anchors": ["kaminpar-shm/coarsening/contraction/buffered_cluster_contraction.cc:contract_clustering_buffered"]}
{"id": "C13", "title": "Projecting a coarse partition preserves cut and block weights", "statement": "For every partition of the coarse graph, project_up yields a partition of the fine graph with the same edge cut and the same block weights.", "quantifier": "every graph, clustering and coarse partition", "why_tests_cant": "This is the core multilevel invariant over all graphs; tests only sample.", "anchors": ["kaminpar-shm/coarsening/contraction/cluster_contraction_preprocessing.h:CoarseGraphImpl::project_up", "kaminpar-shm/coarsening/cluster_coarsener.cc:ClusterCoarsener::uncoarsen"]}
{"id": "C14", "title": "edge_cut does not depend on the parallel schedule", "statement": "metrics::edge_cut returns the weight of all edges between different blocks, each counted once, for every way TBB splits the node range; the parallel and sequential versions agree.", "quantifier": "every symmetric graph, every partition, every split of the iteration range", "why_tests_cant": "All range splits and graphs.", "anchors": ["kaminpar-shm/metrics.h:edge_cut", "kaminpar-shm/metrics.h:edge_cut_seq"]}
{"id": "C15", "title": "Block weights stay exact and below the limit under concurrent moves", "statement": "Threads that concurrently move nodes between blocks (move with a weight limit) never push a block above its limit through a successful move, and once all moves finished every stored block weight equals the total weight of the nodes in that block.", "quantifier": "every number of threads, every interleaving of the atomic steps, every history of moves in which no node is moved by two threads at once", "why_tests_cant": "Interleavings are unbounded.", "anchors": ["kaminpar-shm/datastructures/partitioned_graph.h:GenericPartitionedGraph::move", "kaminpar-shm/datastructures/partitioned_graph.h:GenericPartitionedGraph::move_block_weight"]}
{"id": "C16", "title": "Cluster weights in label propagation", "statement": "Label propagation keeps the total of all cluster weights equal to the total node weight and, at quiescence, every cluster weight equals the weight of its members; with a single thread no join ever exceeds the maximum cluster weight; with several threads the limit can be exceeded, by at most (threads-1) times the largest node weight.", "quantifier": "every interleaving of any number of threads joining clusters", "why_tests_cant": "The check and the update are separate atomic steps; a stress test may never hit the bad interleaving.", "anchors": ["kaminpar-shm/label_propagation.h:OwnedRelaxedClusterWeightVector::move_cluster_weight", "kaminpar-shm/label_propagation.h:try_node_move"]}
{"id": "C17", "title": "Gain cache stays exact under every history of moves", "statement": "After initialization and any sequence of node moves (in any interleaving of the per-neighbour updates), the cached connection of node u to block b equals the total weight of the edges from u into b, and the reported gain of moving u equals the exact decrease of the edge cut.", "quantifier": "every graph, every partition, every finite history of moves", "why_tests_cant": "Histories are unbounded.", "anchors": ["kaminpar-shm/refinement/gains/dense_gain_cache.h:DenseGainCache", "kaminpar-shm/refinement/gains/dense_gain_cache.h:move"]}
{"id": "C18", "title": "Thread-local delta gain cache and delta partition are exact overlays", "statement": "Reading a block, a block weight, a connection or a gain through the thread-local delta structures equals reading it from a fresh copy of the shared state to which all local moves have been applied, and clearing the delta gives back the shared values.", "quantifier": "every shared state, every history of local moves", "why_tests_cant": "Histories are unbounded.", "anchors": ["kaminpar-shm/refinement/gains/delta_gain_caches.h:GenericDeltaGainCache", "kaminpar-shm/datastructures/delta_partitioned_graph.h:GenericDeltaPartitionedGraph"]}
{"id": "C19", "title": "A localized FM search never worsens the cut and reports its gain exactly", "statement": "For every choice of seed nodes, priorities and stopping point, the moves an isolated FM batch applies to the shared partition decrease the edge cut by exactly the gain it returns (which is never negative), only move nodes to blocks that stay within their limit, and leave all uncommitted moves undone.", "quantifier": "every graph, partition, seed set, priority order and stopping decision; one worker running alone", "why_tests_cant": "Depends on an unbounded history of tentative moves and rollbacks.", "anchors": ["kaminpar-shm/refinement/fm/fm_refiner.cc:LocalizedFMRefiner::run_batch"]}
{"id": "C20", "title": "The greedy balancer never creates new overload", "statement": "Moves made by the greedy balancer never make a non-overloaded block overloaded, never increase the total overload, and the refiner returns true only if the final partition has no overloaded block.", "quantifier": "every partition, every order in which nodes are considered", "why_tests_cant": "All move sequences.", "anchors": ["kaminpar-shm/refinement/balancer/greedy_balancer.cc:GreedyBalancer::refine", "kaminpar-shm/refinement/balancer/greedy_balancer.cc:move_node_if_possible"]}
{"id": "C21", "title": "FM workers never own the same node at the same time", "statement": "Under every interleaving of lock/unlock/poll operations each node is owned by at most one worker, a border node is handed out as a seed at most once per round, and a worker only receives seeds it managed to lock.", "quantifier": "every number of workers, every interleaving", "why_tests_cant": "Interleavings are unbounded.", "anchors": ["kaminpar-shm/refinement/fm/node_tracker.h:NodeTracker::lock", "kaminpar-shm/refinement/fm/border_nodes.h:BorderNodes::poll"]}
{"id": "C22", "title": "VarInt, signed VarInt and marked VarInt codes round-trip", "statement": "Decoding the bytes written for an integer returns that integer (and its marker bit or sign) together with exactly the number of bytes written, independently of the bytes that follow; the announced length equals the written length.", "quantifier": "every 32/64 bit integer (in fact every natural number for the unbounded code) and every byte suffix", "why_tests_cant": "2^64 values times arbitrary suffixes.", "anchors": ["kaminpar-common/graph_compression/varint.h:varint_encode", "kaminpar-common/graph_compression/varint.h:varint_decode", "kaminpar-common/graph_compression/varint.h:marked_varint_encode", "kaminpar-common/graph_compression/varint.h:signed_varint_encode"]}
{"id": "C23", "title": "Graph compression is lossless", "statement": "Decoding a compressed neighbourhood yields exactly the node's neighbours with their edge weights and edge IDs (as a set; sorted within parts), for plain, interval and high-degree (split) encodings, and decoding the compressed graph yields the degree and neighbourhood of every node.", "quantifier": "every graph with sorted-able adjacency, every node, every weight assignment", "why_tests_cant": "Interval detection, gaps, part splitting interact; space of neighbourhoods is unbounded.", "anchors": ["kaminpar-common/graph_compression/compressed_edges_builder.h:CompressedEdgesBuilder::add", "kaminpar-common/graph_compression/compressed_neighborhoods.h:CompressedNeighborhoods::decode"]}
{"id": "C24", "title": "StreamVByte coding round-trips", "statement": "Decoding the control and data bytes produced for a sequence of integers returns the sequence, for every length (including partial last groups) and for the plain and delta-coded variants.", "quantifier": "every sequence of 32-bit (resp. 64-bit) integers", "why_tests_cant": "Byte-width combinations times lengths.", "anchors": ["kaminpar-common/graph_compression/streamvbyte.h:StreamVByteEncoder", "kaminpar-common/graph_compression/streamvbyte.h:StreamVByteDecoder"]}
{"id": "C25", "title": "Parallel compression yields the sequential result", "statement": "For every thread schedule, parallel_compress writes every node's compressed neighbourhood to the same offset as sequential compression, the offsets are the prefix sums of chunk sizes and no two chunks overlap; the ordering buffer never blocks forever.", "quantifier": "every number of threads, every interleaving of chunk processing", "why_tests_cant": "Interleavings are unbounded.", "anchors": ["kaminpar-common/datastructures/concurrent_circular_vector.h:ConcurrentCircularVectorMutex", "kaminpar-shm/graphutils/parallel_compressed_graph_builder.h:parallel_compress"]}
{"id": "C26", "title": "Compressed size stays within the reserved memory", "statement": "The bytes produced by the edge compressor for a simple graph never exceed the size computed by compressed_edge_array_max_size, which is the amount of memory the builder reserves.", "quantifier": "every simple graph, with and without intervals / high-degree splitting", "why_tests_cant": "An overflow only shows up for specific extremal inputs.", "anchors": ["kaminpar-common/graph_compression/compressed_neighborhoods_builder.h:compressed_edge_array_max_size"]}
{"id": "C27", "title": "Graph metadata survives compression", "statement": "The compressed graph reports the same number of nodes and edges, total weights, maximum degree and maximum node weight as the input graph.", "quantifier": "every weighted graph", "why_tests_cant": "Universal over graphs.", "anchors": ["kaminpar-common/graph_compression/compressed_neighborhoods_builder.h:CompressedNeighborhoodsBuilder", "kaminpar-shm/graphutils/compressed_graph_builder.cc:CompressedGraphBuilder::build"]}
{"id": "C28", "title": "The addressable priority queues implement a priority queue", "statement": "For every sequence of push, pop, change_priority and remove operations the addressable binary heap returns an element with extremal key at the top, contains exactly the pushed and not yet removed elements with their current keys, and locates every element correctly.", "quantifier": "every finite sequence of operations", "why_tests_cant": "Histories are unbounded.", "anchors": ["kaminpar-common/datastructures/binary_heap.h:SharedBinaryHeap", "kaminpar-common/datastructures/binary_heap.h:BinaryHeap"]}
{"id": "C29", "title": "The compact hash map behaves like a map", "statement": "For every sequence of increase_by/decrease_by/get operations that keeps the number of distinct non-zero keys below the capacity, get returns the exact current sum for each key and deletions never make another key unreachable.", "quantifier": "every finite history of operations, every key and value within the declared bit widths", "why_tests_cant": "Linear probing with backward-shift deletion is history dependent.", "anchors": ["kaminpar-common/datastructures/compact_hash_map.h:CompactHashMap"]}
{"id": "C30", "title": "Marker: reset forgets all marks, set marks exactly one element", "statement": "After any sequence of set and reset calls get(i) is true iff i was set after the last reset, even when the internal time stamp wraps.", "quantifier": "every finite history, including more resets than the stamp type can count", "why_tests_cant": "Wrap-around needs more than 2^31 operations.", "anchors": ["kaminpar-common/datastructures/marker.h:Marker"]}
{"id": "C31", "title": "Fast-reset arrays and sparse maps behave like maps and really clear", "statement": "After any sequence of updates and clears, a lookup returns the value accumulated since the last clear (0 if none), and iteration enumerates exactly the keys touched since then, without duplicates.", "quantifier": "every finite history", "why_tests_cant": "History dependent.", "anchors": ["kaminpar-common/datastructures/fast_reset_array.h:FastResetArray", "kaminpar-common/datastructures/sparse_map.h:SparseMap", "kaminpar-common/datastructures/fixed_size_sparse_map.h:FixedSizeSparseMap", "kaminpar-common/datastructures/dynamic_map.h:DynamicFlatMap", "kaminpar-common/datastructures/dynamic_map.h:DynamicRememberingFlatMap"]}
{"id": "C32", "title": "Rank queries count the set bits before a position", "statement": "After updating the rank structure, rank(i) equals the number of set bits at positions smaller than i, for every bit vector and every valid position.", "quantifier": "every bit vector of every length, every position", "why_tests_cant": "Block boundaries and popcount masks for all lengths.", "anchors": ["kaminpar-common/datastructures/bitvector_rank.h:RankCombinedBitVector"]}
{"id": "C33", "title": "Compact static arrays store and return values exactly", "statement": "Reading index i of a byte-packed array returns the value last written to i truncated to the byte width, and writing i does not change any other index.", "quantifier": "every width, size, index, value and history of writes", "why_tests_cant": "Overlapping unaligned accesses for every index.", "anchors": ["kaminpar-common/datastructures/compact_static_array.h:CompactStaticArray"]}
{"id": "C34", "title": "Block-induced subgraphs are induced subgraphs", "statement": "Extracting the subgraph of a block gives a graph whose nodes are, through the returned mapping, exactly the nodes of that block and whose weighted edges are exactly the edges with both endpoints in the block; memory regions of different blocks do not overlap and leave room for the recursion.", "quantifier": "every graph and partition, every interleaving of the node assignment", "why_tests_cant": "Universal over graphs, partitions, schedules.", "anchors": ["kaminpar-shm/graphutils/subgraph_extractor.cc:extract_subgraphs_sequential", "kaminpar-shm/graphutils/subgraph_extractor.cc:extract_subgraphs_generic_graph", "kaminpar-shm/graphutils/subgraph_extractor.cc:lazy_extract_subgraphs_preprocessing"]}
{"id": "C35", "title": "Work and data distribution ranges tile the index space", "statement": "compute_local_range(n, size, rank) for rank = 0..size-1 are consecutive ranges that tile [0,n) with lengths that differ by at most one, and compute_local_range_rank(n,size,i) returns the rank whose range contains i.", "quantifier": "every n, size >= 1, rank and element", "why_tests_cant": "Universal arithmetic statement.", "anchors": ["kaminpar-common/math.h:compute_local_range", "kaminpar-common/math.h:compute_local_range_rank"]}
{"id": "C36", "title": "METIS files round-trip", "statement": "Writing a graph in METIS text format and parsing it again returns the same graph (nodes, neighbours in order, node and edge weights).", "quantifier": "every graph, with and without node/edge weights", "why_tests_cant": "Grammar corner cases (isolated nodes = empty lines, weights, header flags).", "anchors": ["apps/io/shm_metis_parser.cc:csr_read", "apps/io/shm_metis_parser.cc:write"]}
{"id": "C37", "title": "Partition files round-trip", "statement": "Writing a partition (one label per line) and reading it returns the same labels in the same order.", "quantifier": "every partition", "why_tests_cant": "Universal over sequences.", "anchors": ["apps/io/shm_io.cc:partition::write", "apps/io/shm_io.cc:partition::read"]}
{"id": "C38", "title": "Weighted/unweighted detection is faithful", "statement": "A graph built from explicit weights reports those weights: is_node_weighted()/is_edge_weighted() returning false implies that all weights are one.", "quantifier": "every weight vector", "why_tests_cant": "Detection compares totals with counts; only a quantified argument tells for which inputs this is sound.", "anchors": ["kaminpar-shm/datastructures/csr_graph.h:is_node_weighted", "kaminpar-shm/datastructures/csr_graph.h:is_edge_weighted"]}
{"id": "C39", "title": "Degree buckets index every node", "statement": "The bucket boundaries of a sorted graph describe consecutive node ranges that cover all nodes, and every node of bucket b has a degree in [lowest_degree_in_bucket(b), lowest_degree_in_bucket(b+1)).", "quantifier": "every sorted graph", "why_tests_cant": "Universal over degree sequences.", "anchors": ["kaminpar-shm/datastructures/csr_graph.cc:init_degree_buckets", "kaminpar-common/degree_buckets.h:degree_bucket"]}
{"id": "C40", "title": "Round-robin index distribution is a permutation", "statement": "distribute_round_robin(n, size, i) for i = 0..n-1 enumerates every index below n exactly once.", "quantifier": "every n, every size >= 1", "why_tests_cant": "Universal arithmetic statement.", "anchors": ["kaminpar-common/math.h:distribute_round_robin"]}
{"id": "C41", "title": "The all-to-all exchanges deliver every message to its destination", "statement": "For every number of ranks and all message sizes, the two-level grid all-to-all calls the receiver of every rank exactly once per sender, with exactly the elements this sender addressed to it; no rank accesses memory out of bounds and the counts of all collectives match. The same holds for the direct all-to-all and for the exchange with point-to-point messages, which in addition never deadlocks, in whatever order the ranks proceed and whether or not sends are buffered. Grid positions are a bijection between ranks and positions, row and column sizes agree with the set of ranks in that row or column, and the virtual element used for the incomplete last column is a valid rank.", "quantifier": "every number of MPI ranks, all send buffers (including empty ones), every schedule of the ranks, buffered or synchronous sends", "why_tests_cant": "Cannot run on every communicator size.", "anchors": ["kaminpar-mpi/grid_topology.h:GridTopology, GridCommunicator", "kaminpar-mpi/grid_alltoall.h:sparse_alltoall_grid", "kaminpar-mpi/alltoall.h:sparse_alltoall_alltoallv", "kaminpar-mpi/alltoall.h:sparse_alltoall_complete", "kaminpar-common/math.h:encode_grid_position"]}
{"id": "C42", "title": "Integer logarithm and power helpers", "statement": "floor_log2/ceil_log2/ceil2/floor2/is_power_of_2/div_ceil/byte_width/split_integral return the mathematically specified value.", "quantifier": "every representable argument", "why_tests_cant": "Universal arithmetic statement.", "anchors": ["kaminpar-common/math.h:floor_log2", "kaminpar-common/math.h:ceil_log2", "kaminpar-common/math.h:div_ceil", "kaminpar-common/math.h:split_integral"]}
{"id": "C43", "title": "ParHIP binary graph files: reading returns what the file describes, writing round-trips", "statement": "Reading a ParHIP file returns the graph the file describes (optionally rearranged by degree buckets, which is an isomorphism, or compressed); writing a graph produces a file that describes it, so write-then-read returns the same graph, also across builds whose types are at least as wide; a build whose types are too narrow refuses the file instead of misreading it.", "quantifier": "every file in the format, every combination of 32/64-bit fields and of weights, every graph, every pair of builds", "why_tests_cant": "Tests read a few small files; widths, weights and sizes combine to many layouts and large files cannot be part of unit tests.", "anchors": ["apps/io/shm_parhip_parser.cc:csr_read", "apps/io/shm_parhip_parser.cc:csr_read_deg_buckets", "apps/io/shm_parhip_parser.cc:compressed_read", "apps/io/shm_parhip_parser.cc:write", "apps/io/binary_util.h"]}
{"id": "C44", "title": "Compressed binary graph files round-trip and are refused by incompatible builds", "statement": "Writing a compressed graph and reading the file with a build of the same settings returns the same compressed graph; a build with different type widths, encodings or compression constants refuses it; files are recognised as compressed if and only if they were written as such (versus METIS and ParHIP output).", "quantifier": "every compressed graph with positive node weights, every pair of build configurations", "why_tests_cant": "A test binary has a single build configuration; the property ranges over pairs of them and over all graphs.", "anchors": ["apps/io/shm_compressed_graph_binary.cc:read", "apps/io/shm_compressed_graph_binary.cc:write", "apps/io/shm_compressed_graph_binary.cc:is_compressed"]}
{"id": "C45", "title": "Input validation accepts exactly the undirected graphs", "statement": "The validator of the command line tool accepts every graph whose edges are listed at both ends with equal weights and without parallel edges, for every behaviour of an unstable sort, and accepts no graph with a missing or differently weighted reverse edge or with parallel edges; likewise for the validation in debug builds.", "quantifier": "every CSR input, every outcome of the unstable sort", "why_tests_cant": "Quantifies over all graphs and over unspecified sort orders.", "anchors": ["apps/io/shm_input_validator.cc:validate_undirected_graph", "kaminpar-shm/datastructures/csr_graph.cc:validate_graph"]}
{"id": "C46", "title": "Initial bipartitioners return complete, near-balanced bipartitions", "statement": "Each flat initial bipartitioner (random, breadth-first growing, greedy graph growing) ends, stays within its data structures and assigns every node of the coarsest graph to one of two blocks, reporting the exact block weights; random exceeds the perfectly balanced weights by at most half of the heaviest node, breadth-first growing exceeds the limits by less than the heaviest node, greedy growing stops with the node that brings the second block to its perfectly balanced weight. Greedy growing grows a connected region of a connected graph.", "quantifier": "every graph, limits, random numbers, tie-breaking and block selection rule", "why_tests_cant": "Random choices and ties are unbounded; a test sees a few seeds on a few graphs.", "anchors": ["kaminpar-shm/initial_partitioning/initial_flat_bipartitioner.cc:bipartition", "kaminpar-shm/initial_partitioning/initial_bfs_bipartitioner.cc:fill_bipartition", "kaminpar-shm/initial_partitioning/initial_ggg_bipartitioner.cc:fill_bipartition", "kaminpar-shm/initial_partitioning/initial_random_bipartitioner.cc:fill_bipartition", "kaminpar-shm/initial_partitioning/seed_node_utils.cc"]}
{"id": "C47", "title": "2-way FM never worsens a bipartition", "statement": "Refining an initial bipartition returns a bipartition with exact block weights whose overload is not larger and whose cut is smaller, or the given bipartition unchanged; the reported change is the change of the cut; an improvement is reported only if the cut decreased. An overloaded bipartition is balanced if a move sequence reaches a balanced one (documented acceptance rule).", "quantifier": "every undirected graph, bipartition, limits, node order, random bit, tie and stopping decision", "why_tests_cant": "Quantifies over all move sequences the queues can produce, including rollbacks to an intermediate state.", "anchors": ["kaminpar-shm/initial_partitioning/initial_fm_refiner.cc:refine", "kaminpar-shm/initial_partitioning/initial_fm_refiner.cc:round", "kaminpar-shm/initial_partitioning/initial_fm_refiner.cc:BalancedMinCutAcceptancePolicy"]}
{"id": "C48", "title": "The hierarchy of initial bipartitioning consists of exact quotients", "statement": "Coarsening a graph for initial bipartitioning ends and yields a hierarchy in which every level is the quotient graph of the previous one (node weights are sums of the merged nodes, edge weights sums of the merged edges), has fewer nodes, and merges nodes only up to the maximum cluster weight. It works for every contents that an earlier call left in the reused arrays, and leaves nothing behind that could influence the next call.", "quantifier": "every graph with positive edge weights, node order, random bit, convergence test, contraction limit, and every history of the reused object", "why_tests_cant": "The object is reused for thousands of graphs of different sizes; stale contents, ties and orders are unbounded.", "anchors": ["kaminpar-shm/initial_partitioning/initial_coarsener.cc:coarsen", "kaminpar-shm/initial_partitioning/initial_coarsener.cc:contract_current_clustering", "kaminpar-shm/initial_partitioning/initial_coarsener.cc:perform_label_propagation", "kaminpar-shm/initial_partitioning/initial_coarsener.h:Cluster", "kaminpar-shm/initial_partitioning/initial_multilevel_bipartitioner.cc:coarsen"]}
{"id": "C49", "title": "The pool of initial bipartitioners returns the best bipartition it tried", "statement": "For every undirected graph, configuration and sequence of random decisions, the pool of flat bipartitioners returns one of the bipartitions it computed, with exact block weights: feasible if any of them was feasible, with the smallest cut among those that are as feasible, and with the smallest imbalance among those of equal cut; every registered algorithm contributes a candidate in every repetition that must not skip any. What earlier uses of the same object left behind has no influence. If node weights are at most 1, fit into both blocks together and breadth-first growing is enabled, the result is feasible.", "quantifier": "all graphs, block weight limits, numbers of repetitions, enabled algorithms, random decisions, statistics and previous uses of the object", "why_tests_cant": "the candidates depend on random decisions; a test sees one outcome of the selection, and stale arrays only show when no candidate is accepted", "anchors": ["kaminpar-shm/initial_partitioning/initial_pool_bipartitioner.cc: InitialPoolBipartitioner::bipartition, run_bipartitioner, likely_to_improve, init, reset", "kaminpar-shm/initial_partitioning/initial_refiner.cc: create_initial_refiner", "kaminpar-shm/initial_partitioning/initial_fm_refiner.cc: SimpleStoppingPolicy, AdaptiveStoppingPolicy", "kaminpar-shm/metrics.h: edge_cut_seq, is_feasible"]}
{"id": "C50", "title": "Multilevel bipartitioning returns exact, no worse and, with enough slack, balanced bipartitions in every history", "statement": "For every undirected graph with positive edge weights, every usable configuration and every decision of the environment, multilevel bipartitioning returns one block 0 or 1 per node and the exact block weights; neither the cut nor the overload is larger than for the bipartition of the coarsest graph that the pool selected. If nodes and permitted clusters weigh at most about twice the slack between perfectly balanced weights and limits and random assignment is enabled, both limits are respected. This holds for every history of calls on the reused objects of a thread, including empty graphs, so the code meets the interface on which recursive bipartitioning relies.", "quantifier": "all graphs, contexts, configurations, random decisions, memory contents and call histories", "why_tests_cant": "the result depends on reused arrays of all earlier calls of the thread and on random decisions on every level", "anchors": ["kaminpar-shm/initial_partitioning/initial_multilevel_bipartitioner.cc: initialize, partition, coarsen, uncoarsen", "kaminpar-shm/initial_partitioning/sequential_graph_hierarchy.cc: push, pop", "kaminpar-shm/initial_partitioning/initial_bipartitioner_worker_pool.h: bipartition, get, put", "kaminpar-shm/datastructures/partitioned_graph.h: init_block_weights_seq"]}
{"id": "C51", "title": "Intermediate partitions get the limits of the final blocks they stand for", "statement": "While partitioning into k blocks, a partition with fewer blocks is balanced against the sums of the caller's maximum block weights over the final blocks that its blocks will be split into; the two sides of a bipartition share the limit of their block exactly, no limit is lost in total, and a final partition within the caller's limits always corresponds to an intermediate partition within the intermediate limits. The same holds for the limits of v-cycles.", "quantifier": "all vectors of maximum block weights, all k < 2^31, all levels and blocks of the bipartitioning tree, all sequences of v-cycles; for a common epsilon all totals below 2^53 and all doubles", "why_tests_cant": "the limits depend on k, the level and the block through a bit-reversal numbering; wrong ranges only show for particular k and per-block limits, and rounding for particular totals", "anchors": ["kaminpar-shm/partitioning/helper.cc:create_kway_context", "kaminpar-shm/partitioning/helper.cc:create_twoway_context", "kaminpar-shm/kaminpar.h:PartitionContext", "kaminpar-shm/partitioning/deep/vcycle_deep_multilevel.cc:compute_max_block_weights"]}
{"id": "C52", "title": "Recursive bipartitioning and k-way modes return complete partitions", "statement": "In the recursive bipartitioning mode, for every k that is a power of two (k >= 2), compute_partition ends without an out-of-bounds access and returns exactly k blocks with one label below k per node; the bits of a node's label are its sides in the bipartitions of its blocks from the whole graph downwards, so the blocks of every level are unions of the final blocks; if the bipartitions on the last level keep the limits they are given, the result keeps the caller's block weight limits. A k that is no power of two is refused. In the k-way mode, for every k >= 2, the call ends without an out-of-bounds access and returns one label below k per node of the input graph.", "quantifier": "all graphs with positive weights, all k below 2^31, all coarsening hierarchies, all bipartitions and refinements with legal labels, all schedules of the parallel extraction, all contents of fresh memory", "why_tests_cant": "The recursion depth, the hierarchies, the outcomes of the randomised bipartitions and the interleavings of the extraction are unbounded; a test sees a few of them.", "anchors": ["kaminpar-shm/partitioning/rb/rb_multilevel.cc: partition, partition_recursive, bipartition", "kaminpar-shm/partitioning/kway/kway_multilevel.cc: partition, initial_partition, uncoarsen", "kaminpar-shm/graphutils/subgraph_extractor.cc: extract_subgraphs, copy_subgraph_partitions", "kaminpar-shm/graphutils/subgraph_extractor.h: SubgraphMemory"]}
{"id": "C53", "title": "The label propagation clusterer returns valid clusterings within weight limits and communities", "statement": "For every interleaving of the threads and every stale value they read, the clusterer assigns to every node a cluster that is named by an existing node, and the label propagation rounds never put nodes of different communities into one cluster. A visited node joins an acceptable cluster with the highest rating, also if the ratings are scanned by several workers. If the rounds see current values, the stored cluster weights are exact at the end and every cluster of several nodes respects the maximum cluster weight, for every distribution of isolated and two-hop nodes to workers; two-hop matching forms only pairs of nodes that were alone before and favoured the same cluster.", "quantifier": "all graphs with positive weights, all maximum cluster weights and communities, all visiting orders and numbers of rounds, all stale observations, all random tie breaks, all distributions of nodes to workers, all strategies for isolated and two-hop (threadwise) nodes", "why_tests_cant": "The result depends on interleavings, random tie breaks and scheduling; a test observes one of them per run.", "anchors": ["kaminpar-shm/coarsening/clustering/lp_clusterer.cc: compute_clustering, select_best_cluster, cluster_two_hop_nodes, cluster_isolated_nodes", "kaminpar-shm/label_propagation.h: find_best_cluster, find_best_cluster_second_phase, try_node_move, handle_isolated_nodes_impl, handle_two_hop_nodes_threadwise_impl, OwnedRelaxedClusterWeightVector"]}
{"id": "C54", "title": "Restricted v-cycles only subdivide the blocks of the previous cycle", "statement": "With v-cycles and restricted refinement, every block of a cycle lies in one block of the previous cycle, for every order of the parallel loops; a further cycle with the same number of blocks returns the same partition. After any number of cycles, the final blocks lie in the blocks of the first cycle.", "quantifier": "all graphs, hierarchies, block counts that are powers of two or the final one, all store orders of the parallel projection, all executions of the restricted label propagation (including stale reads), all bipartitioners, memories and numbers of threads", "why_tests_cant": "It must hold for every interleaving of the projection and the refinement and for every sequence of cycles; the assertion in the code checks only adjacent nodes, and only in one execution.", "anchors": ["kaminpar-shm/partitioning/deep/vcycle_deep_multilevel.cc: partition", "kaminpar-shm/partitioning/deep/deep_multilevel.cc: use_communities, initial_partition_by_communities, refine", "kaminpar-shm/coarsening/cluster_coarsener.cc: current_communities", "kaminpar-shm/coarsening/contraction/cluster_contraction_preprocessing.h: project_down", "kaminpar-shm/refinement/lp/lp_refiner.cc: accept_neighbor"]}
{"id": "C55", "title": "Each round of label propagation visits every eligible node exactly once", "statement": "In every round of label propagation, no node is handled twice, however the parallel loops build, shuffle and execute the work packages; unless the round is stopped early, every active node with positive degree below the configured maximum degree is handled. Nodes of smaller degree buckets come first.", "quantifier": "all graphs (degree sequences and bucket indices), chunk sizes, maximum degrees, numbers of rounds, distributions of the work over threads, random shuffles and permutations, interleavings and early stops", "why_tests_cant": "The order depends on thread timing and random numbers; the work packages are built by concurrent fetch_adds and reused by later rounds, so a missed or duplicated node shows up only in some executions.", "anchors": ["kaminpar-shm/label_propagation.h: ChunkRandomLabelPropagation, init_chunks, shuffle_chunks, perform_iteration", "kaminpar-shm/initial_partitioning/initial_coarsener.cc: perform_label_propagation"]}
{"id": "C56", "title": "Label propagation refinement keeps partitions valid and does not worsen them", "statement": "Refining a k-way partition by label propagation keeps every node in a block below k, keeps the stored block weights equal to the weights of the blocks, lifts no block above both its maximum weight and its weight before, and does not increase the cut; nodes are skipped as inactive only if no neighbour has moved since they were last visited.", "quantifier": "all graphs, partitions, block weight limits, tie breaking strategies, random choices, orders of visits, numbers of threads and outdated reads of other threads' moves", "why_tests_cant": "What a visit sees depends on the timing of other threads; ties and orders are random.", "anchors": ["kaminpar-shm/refinement/lp/lp_refiner.cc: LPRefinerImpl", "kaminpar-shm/label_propagation.h: handle_node, find_best_cluster, try_node_move, activate_neighbors", "kaminpar-shm/datastructures/partitioned_graph.h: move_block_weight"]}
{"id": "C57", "title": "Jet refinement never returns a worse partition", "statement": "If Jet refinement of a k-way partition returns, the result is the partition with the smallest cut among the input and the partitions after its iterations, with every node in a block below k and exact block weights; the partitions after the iterations satisfy all block weight limits, so a balanced partition stays balanced. The moves of an iteration do not depend on the order in which the nodes are processed.", "quantifier": "all graphs, partitions, block weight limits, numbers of rounds and iterations, gain temperatures, orders of the nodes in every parallel loop, and schedules of the balancer", "why_tests_cant": "The loops run in parallel and the balancer may be scheduled in any way; that it comes back at all depends on weights that tests do not produce.", "anchors": ["kaminpar-shm/refinement/jet/jet_refiner.cc: JetRefiner::refine", "kaminpar-shm/refinement/balancer/greedy_balancer.cc: GreedyBalancerImpl::refine", "kaminpar-shm/metrics.h: edge_cut"]}
{"id": "C58", "title": "The sparse gain cache used by FM, Jet and the balancer reports exact gains", "statement": "After initialization and any history of concurrent moves, the sparse gain cache (hash tables for nodes of small degree, full rows for the others) reports for every node that is not being updated the exact connection to every block, the exact cut change of every move, the move targets and whether the node is a border node, provided that the weighted degrees of nodes with hash tables leave enough bits for the block. The tables of different nodes do not overlap, lie inside the array and have room for all neighbouring blocks.", "quantifier": "all simple graphs with positive weights, with or without degree buckets, all k, degree thresholds, partitions, numbers of workers and interleavings of their updates", "why_tests_cant": "Layout and table sizes depend on all degrees and on k, several tables share one array, and the updates of different workers interleave in unboundedly many ways.", "anchors": ["kaminpar-shm/refinement/gains/sparse_gain_cache.h: SparseGainCache::initialize, gain, gains, conn, move, is_border_node, find_bucket, index_dense", "kaminpar-common/datastructures/compact_hash_map.h: CompactHashMap", "kaminpar-shm/datastructures/csr_graph.cc: CSRGraph::init_degree_buckets"]}
{"id": "C59", "title": "The distributed balancer's sequential round never overloads a block and ends", "statement": "One sequential round of the distributed node balancer, for every number of ranks and every order in which they proceed: the reduction of the proposals ends on all ranks and only the root obtains a result, which consists of proposed moves that can all be performed together within the limits; the moves the root performs move every surviving node, the block weights of all ranks agree afterwards and are those implied by the moves, and every block is within its limit or at most as heavy as before. The round ends.", "quantifier": "every number of ranks, schedule, buffered or synchronous sends, all proposals, block weights, limits, node weights and sorting of equal gains", "why_tests_cant": "The outcome depends on the shape of the reduction tree, on the order of messages and on the proposals of all ranks; whether the search for a free block ends depends on the weights of all nodes.", "anchors": ["kaminpar-dist/refinement/balancer/reductions.h:reduce_candidates", "kaminpar-mpi/binary_reduction_tree.h:perform_binary_reduction", "kaminpar-dist/refinement/balancer/node_balancer.cc:perform_sequential_round, pick_sequential_candidates, try_pq_insertion, perform_move", "kaminpar-dist/refinement/gain_calculator.h:compute_max_gainer, relative_gain"]}
{"id": "C60", "title": "The ranks' local graphs together are the input graph, and ghost copies carry the owner's values", "statement": "When every rank passes the arrays of its own part of a graph, the parallel import ends on every rank under every schedule, and each rank then sees exactly its part of the graph through its interface: its own nodes, every neighbour that another rank owns as a ghost (once, with the right owner), mutually inverse translations between local and global identifiers, all edges with their weights and the weights of its own nodes. The edge distribution counts the edges of the ranks. An exchange between interface nodes and ghosts fills the send buffers completely, with exactly one message per node and rank that has a copy of it, and after a synchronisation every copy has the value of its owner, in whatever order the messages are handled.", "quantifier": "every graph, number of ranks (also ranks without nodes), node distribution, schedule of the threads, number of threads, order of hash map traversal and of message handling", "why_tests_cant": "The numbering of the ghosts depends on a race between the iterations of a parallel loop over a concurrent map, and the slots of the send buffers are assigned by counters of several threads; tests see one schedule on a few ranks.", "anchors": ["kaminpar-dist/dkaminpar.cc:import_graph", "kaminpar-dist/datastructures/ghost_node_mapper.h:GhostNodeMapper", "kaminpar-dist/datastructures/distributed_csr_graph.h:local_to_global_node, global_to_local_node, contains_global_node, map_remote_node, ghost_owner, adjacent_nodes, node_weight", "kaminpar-dist/graphutils/communication.h:sparse_alltoall_interface_to_pe", "kaminpar-dist/graphutils/synchronization.h:synchronize_ghost_node_weights", "kaminpar-dist/graphutils/synchronization.cc:synchronize_ghost_node_block_ids"]}
{"id": "C61", "title": "The distributed partitioner reports the cut, block weights and totals of the whole graph", "statement": "If the ranks' copies of a partition agree, the reported edge cut is the total weight of the edges of the whole graph between different blocks, each counted once, and this is what compute_partition returns; the block weights on every rank are those of the whole graph; a partition is reported as feasible exactly if no block exceeds its limit; every rank writes the blocks of its own nodes in order; total and maximum node weight are those of the whole graph.", "quantifier": "every graph, number of ranks, distribution, partition and numbering of the ghosts", "why_tests_cant": "The values are sums over all ranks of contributions in which every cut edge occurs twice, once per side, seen through rank-dependent local numberings; overflow needs weights that tests do not use.", "anchors": ["kaminpar-dist/metrics.cc:local_edge_cut, edge_cut, num_imbalanced_blocks, is_feasible", "kaminpar-dist/datastructures/distributed_partitioned_graph.cc:init_block_weights", "kaminpar-dist/datastructures/distributed_csr_graph.cc:init_total_weights", "kaminpar-dist/dkaminpar.cc:compute_partition"]}
{"id": "C62", "title": "The distributed label propagation refiner keeps all copies of the partition and all block weights consistent, and with its balance check overloads no block", "statement": "After any number of chunks and iterations of the distributed label propagation refiner, all ranks have copies of one and the same partition into the k blocks, for own nodes and ghosts alike, and every rank knows the exact weights of its blocks. All ranks accept or take back the same attempts, so none waits for another forever, and every message of the exchange refers to an existing node. With the balance check, no block ends above the larger of its limit and its weight before.", "quantifier": "every graph, number of ranks and threads, distribution, partition, proposals of the local label propagations, random decisions, chunk ranges and order of messages", "why_tests_cant": "Moves are proposed concurrently on many ranks from outdated information, tried, summed up, taken back and sent only for moved nodes; a lost or duplicated update shows only for particular combinations of proposals and random decisions.", "anchors": ["kaminpar-dist/refinement/lp/lp_refiner.cc:process_chunk, perform_moves, synchronize_state, refine", "kaminpar-dist/graphutils/communication.h:sparse_alltoall_interface_to_pe", "kaminpar-dist/presets.cc:create_default_context"]}
{"id": "C63", "title": "Copies of a distributed graph are the graph, and the best partition found on the copies is the one everybody gets", "statement": "When the distributed partitioner copies a distributed graph to every rank, each rank gets exactly the input graph (nodes, edges, weights). When it copies the graph to groups of ranks, each group holds exactly the input graph, distributed among its ranks. When the partitions of the copies are collected, all ranks end up with one and the same partition for their nodes and ghosts, and no copy has a partition with a smaller cut.", "quantifier": "every graph, number of ranks and groups, distribution of the nodes (also with ranks without nodes), split of the loops among threads, interleaving, order of messages, partitions of the copies", "why_tests_cant": "The displacements and offsets depend on the distribution of nodes and edges over all ranks, and uneven groups take a separate path; the tests run with a few ranks on small graphs, and ghost identifiers depend on the interleaving.", "anchors": ["kaminpar-dist/graphutils/replicator.cc:replicate_graph_everywhere, replicate_graph, distribute_best_partition", "kaminpar-mpi/wrapper.h:build_distribution_recvcounts, build_distribution_displs", "kaminpar-dist/partitioning/deep_multilevel.cc:partition", "kaminpar-dist/presets.cc:create_default_context"]}
{"id": "C64", "title": "Reordering a distributed graph keeps the graph, and the caller gets blocks in their own order", "statement": "When the distributed partitioner sorts the nodes of every rank by degree or by colour, the ranks together still hold the input graph, only renamed: every node stays on its rank, edges, node weights and ghost nodes agree with the renaming, ghost nodes are found under their new global identifiers, degree classes (colour classes) are contiguous. After any sequence of calls, the blocks that a rank writes for the caller are the blocks of the caller's nodes in the caller's order, and the reported cut and block weights are those of that partition of the caller's graph.", "quantifier": "every graph, number of ranks, distribution of the nodes, number of threads, interleaving, order of messages, colouring, sequence of calls with changing orders, partition", "why_tests_cant": "The new identifiers of ghosts come from other ranks in messages whose order and grouping depend on the interleaving; tests run with a few ranks and one order, and a wrong renaming still yields a valid partition.", "anchors": ["kaminpar-dist/graphutils/rearrangement.cc:rearrange_by_degree_buckets, rearrange_by_coloring, rearrange_by_permutation", "kaminpar-shm/graphutils/permutator.h:build_permuted_graph, compute_node_permutation_by_degree_buckets", "kaminpar-common/parallel/loops.h:chunked_for", "kaminpar-dist/dkaminpar.cc:compute_partition"]}
{"id": "C65", "title": "The distributed greedy colouring is proper, consistent and terminates", "statement": "The greedy colouring of a distributed graph (used to sort nodes by colour, by the coloured label propagation refiner and by the matching clusterer) returns after at most 2 n + 3 passes, without any access out of bounds. Then neighbours have different colours no matter on which ranks they are, all ranks that know a node have the same colour for it, the colour of a node is at most its degree, and sorting by these colours gives classes without adjacent nodes.", "quantifier": "every undirected graph without self-loops, number of ranks, distribution of the nodes (ranks may be empty), number of supersteps, number of threads, interleaving, order of messages", "why_tests_cant": "Ranks choose colours without knowing the choices of the others in the same superstep; whether clashes are always noticed and repaired, and whether repairs always come to an end, depends on the whole history of the colours on all ranks.", "anchors": ["kaminpar-dist/algorithms/greedy_node_coloring.h:compute_node_coloring_sequentially", "kaminpar-common/datastructures/marker.h:Marker", "kaminpar-dist/graphutils/communication.h:sparse_alltoall_interface_to_pe", "kaminpar-dist/graphutils/rearrangement.cc:rearrange_by_coloring"]}
{"id": "C66", "title": "The distributed Jet refiner returns the best partition it has seen, the same on all ranks", "statement": "After any number of rounds and iterations of the distributed Jet refiner, all ranks have the same block for every node they know, own or ghost, and the exact weights of the k blocks. The result is the input or a partition that was there after an iteration; its overload is not larger than that of the input or of any of those, and if one of those is feasible its cut is not larger. In every iteration a node that has not just been moved tries a block to which it is connected best, and the move is executed exactly if it does not lose, assuming that better moves of neighbours are executed. No access is out of bounds.", "quantifier": "every undirected graph, number of ranks, distribution of the nodes, number of blocks, limits of the block weights, number of rounds and iterations, gain test, order of messages, interleaving of the threads, random choice, and balancer that keeps the partition consistent", "why_tests_cant": "Ranks decide moves with the moves of their ghosts, execute them independently and keep snapshots independently; whether all copies stay consistent and whether the snapshot is really the best depends on the whole history on all ranks, and on cuts beyond those a test reaches.", "anchors": ["kaminpar-dist/refinement/jet/jet_refiner.cc:JetRefiner", "kaminpar-dist/refinement/snapshooter.cc:BestPartitionSnapshooter", "kaminpar-dist/refinement/gain_calculator.h:RandomizedGainCalculator", "kaminpar-dist/metrics.cc:imbalance_l1"]}
{"id": "C67", "title": "The distributed deep multilevel scheme returns with the requested number of blocks", "statement": "The distributed deep multilevel partitioner starts with min(k, K) blocks (K: the extension factor, 128 by default) and splits blocks while it uncoarsens. For every hierarchy of graphs it returns, and the partition has exactly k blocks; on the way all blocks are split into the same number of blocks, between 2 and K.", "quantifier": "every number of blocks k, extension factor K, contraction limit, input size and sequence of level sizes", "why_tests_cant": "Whether the loop that splits blocks ends depends on the arithmetic between k, K and the sizes of all levels; tests use a few values of k, mostly powers of two.", "anchors": ["kaminpar-dist/partitioning/deep_multilevel.cc:DeepMultilevelPartitioner::partition", "kaminpar-dist/graphutils/subgraph_extractor.cc:copy_subgraph_partitions", "kaminpar-common/math.h:ceil2"]}
{"id": "C68", "title": "The block weight limits of distributed graphs can be met and enforce the requested balance", "statement": "The limits that the distributed partitioner uses on every level are the same for all blocks, are at least the rounded-up average block weight, and can be met by some partition. For unweighted graphs they are (1 + epsilon) times the rounded-up average; on coarse graphs they are relaxed by the largest node weight at most.", "quantifier": "every graph with positive node weights and total weight below 2^53, number of blocks and finite non-negative double epsilon", "why_tests_cant": "Truncation and rounding of doubles matter for single values of weights, k and epsilon; that a feasible partition exists is a statement about all weight distributions.", "anchors": ["kaminpar-dist/context.cc:GraphContext::setup_perfectly_balanced_block_weights", "kaminpar-dist/context.cc:GraphContext::setup_max_block_weights"]}
{"id": "C69", "title": "Distributing the subgraphs of the blocks and combining their partitions is faithful", "statement": "When the distributed deep multilevel partitioner splits blocks, every rank gets for each block that it works on exactly the subgraph that the block induces (nodes, weights, inner edges), whichever ranks own its nodes. The partitions of the subgraphs are combined into one partition that all ranks agree on: every block is split as in the best partition (smallest cut) among the ranks that work on it.", "quantifier": "every distributed graph, number of ranks, number of blocks, partition, partitions of the subgraphs, order of iterations, threads and messages", "why_tests_cant": "Which part of which array goes to which rank depends on the arithmetic of numbers of ranks and blocks and on where the nodes of every block are; numbering depends on the order of threads. Tests run few ranks with few blocks.", "anchors": ["kaminpar-dist/graphutils/subgraph_extractor.cc:extract_local_block_induced_subgraphs", "kaminpar-dist/graphutils/subgraph_extractor.cc:gather_block_induced_subgraphs", "kaminpar-dist/graphutils/subgraph_extractor.cc:construct_subgraphs", "kaminpar-dist/graphutils/subgraph_extractor.cc:copy_subgraph_partitions", "kaminpar-dist/graphutils/subgraph_extractor.cc:copy_duplicated_subgraph_partitions", "kaminpar-dist/graphutils/subgraph_extractor.cc:BlockExtractionOffsets"]}
{"id": "C70", "title": "Heavy edge matching of a distributed graph is a matching that all ranks agree on", "statement": "The heavy edge matching clusterer for distributed graphs merges only pairs of adjacent nodes, on whatever ranks they are: every node is in at most one pair, no pair is heavier than the maximum cluster weight, and every rank has the same label for every node it knows. Of several edges that compete for a node, the heaviest wins. The number of clusters that decides whether label propagation runs as well is exact.", "quantifier": "every distributed graph, number of ranks, maximum cluster weight, proper colouring (in particular every one that the colouring algorithm can return), interleaving of threads, failure of weak compare-exchanges and order of messages", "why_tests_cant": "Two nodes agree on a match through several messages while other ranks ask for the same node; whether two ranks end up with different opinions depends on which of them asks for which node in which round and on the order of threads. Tests run a few small graphs on a few ranks.", "anchors": ["kaminpar-dist/coarsening/clustering/hem/hem_clusterer.cc:cluster", "kaminpar-dist/coarsening/clustering/hem/hem_clusterer.cc:compute_local_matching", "kaminpar-dist/coarsening/clustering/hem/hem_clusterer.cc:resolve_global_conflicts", "kaminpar-dist/coarsening/clustering/hem/hem_clusterer.cc:initialize_coloring", "kaminpar-dist/coarsening/clustering/hem/hem_lp_clusterer.cc:compute_size_after_matching_contraction"]}
{"id": "C71", "title": "The cluster balancer's gains stay exact under any sequence of moves", "statement": "When the distributed partitioner repairs balance by moving groups of nodes, every group lies inside one overloaded block, the groups cover exactly the nodes of overloaded blocks, and the gain by which a move of a group is judged is exactly the weight by which the cut edges of its nodes decrease, also after any number of groups of this and of other ranks moved.", "quantifier": "every rank of a distributed graph, partition, set of overloaded blocks, clustering of the rank's nodes, order in which equal ghosts are sorted, and every sequence of moves of the rank's own groups and of ghost nodes", "why_tests_cant": "The weights between groups and blocks are updated incrementally through two separate structures, one for the rank's own nodes and one for ghosts; an error shows only after particular sequences of moves, and only as a worse cut, never as a crash. The checks in the code are compiled out of release builds.", "anchors": ["kaminpar-dist/refinement/balancer/clusters.h:move_cluster", "kaminpar-dist/refinement/balancer/clusters.h:move_ghost_node", "kaminpar-dist/refinement/balancer/clusters.cc:init_ghost_node_adjacency", "kaminpar-dist/refinement/balancer/clusters.cc:build_singleton_clusters", "kaminpar-dist/refinement/balancer/clusters.cc:build_local_clusters", "kaminpar-dist/refinement/balancer/cluster_balancer.cc:perform_moves"]}
{"id": "C72", "title": "The independent border set of a distributed partition is independent across ranks and does not depend on the threads", "statement": "The nodes that all ranks together select as independent border set are border nodes, no two of them are adjacent, also not across ranks, every node is selected at most once, and the selection depends only on graph, partition, distribution and seed; it is not empty if there is a border. The list of border nodes has exactly the nodes with a neighbour in another block.", "quantifier": "every distributed graph, partition, distribution over ranks, score function and every interleaving of the threads of each rank", "why_tests_cant": "The ranks decide without communication, from scores that they compute themselves for nodes of other ranks, lazily and by several threads at once; a test sees one interleaving on a few graphs.", "anchors": ["kaminpar-dist/algorithms/independent_set.cc:find_independent_border_set", "kaminpar-dist/algorithms/border_nodes.cc:find_border_nodes", "kaminpar-dist/datastructures/distributed_partitioned_graph.h:check_border_node"]}
{"id": "C73", "title": "The sparse all-reduce gives every rank the sums over all ranks", "statement": "After the doubling variant of the sparse all-reduce on a number of ranks that is a power of two, every rank has in each reduced entry the sum of this entry over all ranks, entries beyond the given size are unchanged, and no rank sends to a rank that does not exist. On any other number of ranks some rank sends to a rank that does not exist.", "quantifier": "every number of ranks, buffer size and all buffers", "why_tests_cant": "Cannot run on every communicator size; entries that cancel to zero in the middle of the reduction are not sent and occur only for particular buffers.", "anchors": ["kaminpar-mpi/sparse_allreduce.h:inplace_sparse_allreduce"]}
{"id": "C74", "title": "The parallel rounds of the distributed node balancer keep block weights exact and create no new overload", "statement": "After a parallel round of the distributed node balancer the known block weights are those of the partition on all ranks, every node has a block, only nodes of overloaded blocks have moved, no block that was not overloaded is overloaded now, and no overloaded block has become heavier.", "quantifier": "every number of ranks and blocks, node weights, limits, contents of the priority queues, targets, cut-off buckets, number of attempts and all random numbers drawn by the ranks", "why_tests_cant": "Whether moves collide in a target block depends on the random numbers of all ranks; rejected candidates are swapped to the end of the array in place and tried again in later attempts, so that errors show only for particular sequences.", "anchors": ["kaminpar-dist/refinement/balancer/node_balancer.cc:perform_parallel_round", "kaminpar-dist/refinement/balancer/node_balancer.cc:assign_feasible_target_block", "kaminpar-dist/presets.cc:node_balancer"]}
{"id": "C75", "title": "The parallel rounds of the distributed cluster balancer keep block weights exact and create no new overload", "statement": "A parallel round of the distributed cluster balancer never fails. After it the known block weights are those of the partition on all ranks, every cluster has a block, only clusters of overloaded blocks have moved, no block that was not overloaded is overloaded now, and no overloaded block has become heavier.", "quantifier": "every number of ranks and blocks, clusters, cluster weights, limits, connections to blocks, cut-off buckets, number of attempts and all random numbers drawn by the ranks", "why_tests_cant": "Collisions of moves in a target block depend on the random numbers of all ranks, and a cluster for which no block has room appears only for particular combinations of weights and limits.", "anchors": ["kaminpar-dist/refinement/balancer/cluster_balancer.cc:perform_parallel_round", "kaminpar-dist/refinement/balancer/clusters.h:find_max_conn", "kaminpar-dist/presets.cc:cluster_balancer"]}
{"id": "C76", "title": "Cut-off buckets of the distributed balancers are the smallest ones that remove the overload", "statement": "Before a parallel round, all ranks agree on a cut-off for every block: 0 for blocks that are not overloaded; for an overloaded block the smallest number of gain buckets such that moving all queued nodes in them, on all ranks, removes the overload, or all buckets if that does not suffice. The cluster balancer does the same for the chosen fraction of the overload.", "quantifier": "every number of ranks, blocks and buckets, block weights and limits, and all queues of weighted nodes with any assignment of nodes to buckets", "why_tests_cant": "The rows of overloaded blocks are packed, summed over ranks and unpacked by counting overloaded blocks three times; an error shows only for particular patterns of overloaded blocks between other blocks.", "anchors": ["kaminpar-dist/refinement/balancer/weight_buckets.h:compactify", "kaminpar-dist/refinement/balancer/weight_buckets.h:compute_cutoff_buckets", "kaminpar-dist/refinement/balancer/reductions.h:reduce_buckets_mpireduce", "kaminpar-dist/refinement/balancer/cluster_balancer.cc:perform_parallel_round"]}
