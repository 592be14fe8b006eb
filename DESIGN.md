# Formal model of KaMinPar in Rocq

## Layout

* `properties.jsonl` – the English properties (C01, C02, ...).
* `rocq/theories/Lib` – general list / sum / bit lemmas, nothing specific to KaMinPar.
* `rocq/theories/Model` – the model: total, computable Gallina functions. Every definition
  cites the file and lines of `/repo` it models, and says where it simplifies. No proofs.
* `rocq/theories/Spec` – the vocabulary used to state properties (edge cut of a graph,
  multiset of neighbours, abstract priority queue, ...). Independent of the model's helpers.
* `rocq/theories/Proofs` – lemmas.
* `rocq/theories/Properties` – only the property theorems, each closed by `exact <lemma>` and
  followed by `Print Assumptions`, and next to each one an `Example` showing that a concrete
  non-trivial case satisfies the hypotheses.
* `MANIFEST.json` – property -> theorem names and status.
* `seeded/LOG.jsonl` – record of the "wrong program" experiments.

## Modelling conventions

* Arrays are lists, indices are `nat`; weights are `Z`; bit-level data are `N` (bytes are
  `N` below 256). Out-of-bounds accesses are a distinct outcome (`option`) wherever a
  property is about memory safety; otherwise the precondition is stated.
* Machine integers are unbounded unless a property is about overflow or wrap-around; in that
  case `mod 2^w` is written out.
* Loops are structural recursion, folds, or fuelled recursion whose exhaustion is an explicit
  error value that is proved unreachable.
* Sources of non-determinism (hash order, random bits, heuristics that choose *which* move to
  make, TBB range splitting, thread interleaving) are universally quantified: either an extra
  argument (oracle) or a small-step transition relation with one transition per atomic access.
  Sequential consistency is assumed for interleavings (relaxed memory effects are not modelled;
  the accesses concerned are single-location atomic read-modify-writes, for which a total
  modification order per location exists in C++ as well).
* Floating-point computations are modelled with IEEE 754 binary64 arithmetic (Flocq, C04) or left as an oracle.

## Per property: model and proof

| Id | What is modelled | How it is proved |
|----|------------------|------------------|
| C01 | facade `compute_partition` over histories of calls: rearrange, strip isolated nodes, partitioner (labels are an oracle), re-integrate, write back through the permutation (FacadeModel); complete calls with the deep multilevel partitioner: coarsening loop with the interleaved contraction, initial partition (oracle), uncoarsening, extension (PipelineModel) | induction over the calls; bijectivity of the permutation; composition with C10 and C12 |
| C02 | `metrics::edge_cut` on the permuted graph + write back | reindexing a double sum along a bijection |
| C03 | `assign_isolated_nodes` | invariant of the monotone first-fit scan, capacity argument; refutation for weighted isolated nodes |
| C04 | `PartitionContext::setup` in IEEE binary64 (Flocq) and in `w`-bit integers | rounding error analysis; refutations beyond 2^53 |
| C05 | bucket counting permutation with arbitrary chunks, `build_permuted_graph` | counting: injective + range; adjacency by induction over edges |
| C06 | CSR `remove_isolated_nodes` / `integrate_isolated_nodes` with restrict/unrestrict | state equality after the two operations |
| C07 | `compute_final_k` incl. nibble LUT bit reversal on 32-bit words | bit-reversal lemma, induction over the tree level |
| C08 | `compute_first_sub_block`, `compute_first_invalid_sub_block` | induction over tree level |
| C09 | `extend_partition_recursive`, `extend_partition` (preallocated and lazy), `copy_subgraph_partitions`; bipartitioner is an oracle with the interface that C50_bipartitioner_interface proves of the code | induction over the number of sub-blocks; order preservation |
| C10 | `uncoarsen` block-count evolution, `compute_k_for_n`, initial partitioning by copies | induction over the hierarchy; two memory refutations |
| C11 | `fill_leader_mapping`, prefix sum, `compute_mapping`, `fill_cluster_buckets` in any order | prefix-sum injectivity; permutation argument |
| C12 | buffered and unbuffered contraction (rating map, self loops dropped, prefix sum; thread interleavings for the latter) | sum re-association, invariant over interleavings |
| C13 | `project_up` | sums over fibres |
| C14 | `edge_cut` with arbitrary splitting tree, symmetric graph | sum over concatenation; symmetry |
| C15 | small-step CAS loop / fetch_sub / block store per thread | inductive invariant over all interleavings |
| C16 | small-step check, fetch_add, fetch_sub, label store | conservation invariant; overshoot bound; two-thread refutation of the hard limit |
| C17 | dense and compact hashing gain caches: layout, init, move with neighbour updates interleaved | invariant over histories |
| C18 | delta partitioned graph, generic and large-k delta gain caches | refinement to a copied state |
| C19 | `run_batch` of one FM worker; queues, seeds and stopping policy are oracles | invariant relating delta, cut and committed gain |
| C20 | greedy balancer tasks, one step per shared access | invariants over interleavings (overload per task; the queue of a block covers its overload, so it returns only balanced partitions); non-termination witness |
| C21 | NodeTracker + BorderNodes small-step | inductive invariant over interleavings |
| C22 | varint family on byte lists | induction on the value |
| C23 | builder and decoder for plain/interval/high-degree layouts | round trip by structural induction |
| C24 | StreamVByte encoder and SIMD decoders lane by lane (32 and 64 bit) | invariant of the buffer, induction over groups of four; refutations for 64 bit |
| C25 | circular vector with per-slot mutex, chunk processing | inductive invariant over interleavings, progress measure |
| C26 | encoder sizes vs. reservation | bound by induction |
| C27 | builder statistics | induction; refutations (max degree, zero weights) |
| C28 | addressable 4-ary heaps | heap invariant, refinement to a finite map |
| C29 | compact hash map, linear probing | probe-path invariant, refinement to a map |
| C30 | Marker with machine-width stamps | refinement; refutation for the 64-bit instantiation |
| C31 | FastResetArray, SparseMap, FixedSizeSparseMap, rating map, dynamic maps | refinement to maps |
| C32 | rank structure | popcount lemmas |
| C33 | CompactStaticArray on bytes | byte-store lemmas |
| C34 | subgraph extraction (parallel, sequential, lazy) | induced subgraph equality |
| C35 | `compute_local_range(_rank)`, `find_in_distribution` | arithmetic |
| C36 | METIS writer and parser on characters | refinement of the tokenizer to the described format; round trip |
| C37 | partition / block size file writer and reader | round trip |
| C38 | CSR weight detection | arithmetic; refutation with zero weights |
| C39 | degree buckets | counting |
| C40 | `distribute_round_robin` | arithmetic; refutation |
| C41 | `GridTopology`, the communicators, the four exchanges of `sparse_alltoall_grid` with their counts and displacements, `sparse_alltoall_alltoallv`; MPI collectives by the MPI standard; `sparse_alltoall_complete` as asynchronous programs with ordered channels, sends buffered or not | block decomposition of every buffer; induction over the members of a communicator; closed forms of rows and columns; for point-to-point messages one complete run, extended to all schedules by the diamond property |
| C42 | integer helpers | bit arithmetic |
| C43 | ParHIP binary reader (three ways) and writer on bytes | refinement to the described format, round trips across builds |
| C44 | compressed binary reader and writer | round trip, refusal of other settings |
| C45 | `validate_undirected_graph`, `debug::validate_graph` | soundness and completeness against symmetry |
| C46 | random, breadth-first and greedy growing bipartitioners, seed node search, markers and queues with capacities | invariants of queues, markers and partial partitions; measure of remaining queue slots; balance by the total weight |
| C47 | the sequential 2-way FM refiner: queues, selection policies, acceptance, rollback, rounds | loop invariant (gains in the queues, moves since the accepted state); rollback restores the accepted state |
| C48 | sequential label propagation interleaved with contraction, including stale contents of reused arrays and the 30-bit weight field | invariant of the clustering; counting sort; accumulation of coarse edges; composition over levels |
| C49 | Pool: repetitions over the registered bipartitioners, each a model of C46 followed by C47, the acceptance test on (feasible, cut, imbalance), arrays of earlier uses; the double statistics are an oracle that cannot select an algorithm without a feasible result | Invariant over the runs: the best entry is among the logged results and at least as good as each of them; feasibility for unit weights from the balance theorem of breadth-first growing |
| C50 | Composition of the models of C46-C49 with the projection and block weight set-up of the sequential hierarchy, cached arrays, refinement on every level, the per-thread stack of reused objects | Induction over the hierarchy: projection keeps cut and block weights (quotient lemmas), refinement does not worsen them; coarse node weights bounded by the cluster limit, hence random assignment is feasible and the pool keeps a feasible result; invariant (idle accumulators) over call histories |
| C51 | `create_kway_context`, `create_twoway_context` (limits without adaptive epsilon), `total_max_block_weights`, `total_unrelaxed_max_block_weights` (also in binary64), `compute_max_block_weights` of v-cycles with its int accumulator (ContextModel, ContextFloatModel) | runs of final blocks as a recursive split of the limit vector; the code's ranges are shown to be these runs (C07, C08); rounding analysis for the double version; refutations by computation |
| C52 | Model/RbModel.v: partition_recursive over the extraction and copying of C09 with fresh memory of the code's sizes, bipartition as coarsest bipartition + project/refine loop, constructor check; k-way initial partition and uncoarsening. Coarseners, the pool and refiners are arbitrary functions with legal results | Induction over the level: the run equals the labels of the tree of bipartitions (Spec/RbSpec.v); weights of final blocks by reindexing induced subgraphs; limits through C51; k-way through C09 |
| C53 | LP clusterer (LpClusterModel): visits with select_best_cluster (both tie breakings, one piece or workers), favoured clusters, weight moves; isolated nodes and threadwise two-hop nodes per worker; observations and random choices are parameters of each visit | Inductive executions with a history of clusterings (any stale read): invariants on labels and communities; selection folds carry a best-so-far invariant; weights by exactness + limit invariant, two-hop by a ghost list of unhandled nodes and unique representatives. Refuted: default two-hop and isolated matching ignore communities. Not modelled: relabelling before the second phase (off by default), the non-threadwise two-hop modes, the counter of clusters (the decision it takes is a parameter) |
| C54 | `VcycleModel`: project_down with any store order, community hierarchy, initial partition by communities, skipped refinement while there is one block per community, restricted label propagation as an inductive set of executions (any stale read), the loop over the cycles; uncoarsening and extension from DeepModel | stores of merged nodes agree, so the order does not matter; executions keep a witness node of equal community per block; an invariant per level for uncoarsening; induction over cycles. Refuted with default two-hop matching. `complete_partial_extend_partition` is not modelled: it returns immediately for powers of two, and for other community counts C51 shows that reading the limits is already out of bounds |
| C55 | `LpOrderModel`: init_chunks (bucket loop, fetch_add blocks dealt to workers, cutting into chunks, collection in any order), shuffles per bucket, sub-chunks and permutations with wrapping identifiers, chunks kept across iterations, ranged iterations, early stops; the bucket/chunk order of initial coarsening | interval coverage by induction over blocks and buckets; shuffles and deals are permutations; invariant over the history of iterations; any interleaving is a permutation of the visit list. The square roots that give the chunk sizes are parameters. Refuted for high degrees in sorted graphs, for a full iteration after a ranged one, and without an identifier margin |
| C56 | `LpRefineModel`: select_best_cluster of the LP refiner (both tie breaking strategies, whole or split among workers), visits with arbitrary observations, single-threaded runs with exact rating maps, the active set with one thread and as interleaved steps | fold invariants of the selection (the chosen block is the own one or rated at least as high as it); invariant over executions; gain lemma of C17 for the cut; induction over visits for the active set. The cut is refuted for two threads and for a limited number of neighbours, the active set for two threads |
| C57 | `JetModel`: find, filter and execute moves, rebalancing with any finished run of the balancer of C20, best partition, rollback, rounds | every loop is a fold of updates to distinct entries, so any order gives the same result; invariant over iterations and rounds with the balancer theorem of C20 and the cut of C14. That Jet returns, and that it balances, is refuted |
| C58 | `SparseGainModel`: threshold loop over the degree buckets, offsets, bucket search, hash tables and rows in one flat array of w-bit cells, moves as sequences of atomic updates (scheme of C17) | the start of a node's part equals the sum of the lengths of the parts before it, hence disjoint parts; the flat array refines a family of tables, then the proof of C17 with the hash map of C29; the bucket index comes from C39. Wide weights are refuted |
| C59 | `perform_binary_reduction` as asynchronous programs, the combiner of `reduce_candidates`, the moves on the root, `try_pq_insertion`, the proposals of the first round (exact rational gains) | one complete run of the reduction and the diamond property give all schedules; the value at every tree node by induction; invariant of the combiner (delta bounds the weight brought in), compaction by swaps as permutation; averaging argument for the search; closed witness for the search that never ends |
| C60 | `import_graph` with the loop over the edges as interleaved steps over a map with locked entries, `finalize`, the accessors of `DistributedCSRGraph`, `sparse_alltoall_interface_to_pe` (counting pass, prefix sums, interleaved filling), the two synchronisations | invariant of the interleaved loop (tasks, locks and numbers agree; a rank function bounds the steps); the filling is determined by a closed form of every reachable state; the receiver's array by induction over the messages; composed over all ranks |
| C61 | `local_edge_cut`, `edge_cut`, the narrowing of the result in `compute_partition`, `init_block_weights`, `init_total_weights`, `is_feasible`, the written partition | sums over ranks are re-indexed to a sum over the nodes of the whole graph; handshake lemma for the cut; closed witnesses for the overflows |
| C62 | `process_chunk`: proposals (oracle), attempts with per-rank weight changes, their sum, acceptance or revert, the exchange of the moved nodes, the reset of the proposals | state invariant (copies of one partition, proposals, exact weights) over attempts, chunks and iterations; the summed changes are the difference of the block weights of the old and the new partition; the exchange uses the closed form of C60 with a filter; closed run as witness for the refuted claim |
| C63 | `replicate_graph_everywhere`, `replicate_graph` and both `distribute_best_partition`: communicator splits, gathers (by the definition of MPI_Allgatherv), offsets, broadcast to the left-over groups, remapping of the edges with the interleaving import of C60, MPI_MINLOC, scatter | per-rank arrays in closed form from the local view; concatenation over consecutive ranks telescopes; the shifted offsets are the offsets of the whole graph; the groups' graphs satisfy the conditions of the import theorem; ghosts by the synchronisation theorem; closed witness for uneven groups |
| C64 | `rearrange_by_degree_buckets`, `rearrange_by_coloring` (counting sort with atomics in any order), `rearrange_by_permutation` with `build_permuted_graph<true>`, the exchange of the new labels (buffers of C60, any interleaving, any order of messages), `chunked_for`, the state of the dKaMinPar object over a history of calls and the blocks it writes | new arrays in closed form from `PermProofs`; invariant of the label messages gives the new ghost map; the new ranks satisfy `distributed` for the renamed graph; cut and block weights by isomorphism and C61; slices of the tagged buffers for the loop; closed witness for a rank without nodes |
| C65 | `compute_node_coloring_sequentially`: one node, the nodes of a superstep on every rank, the exchange (buffers of C60, any interleaving, any order of messages), passes, the convergence flag, the result. The marker is the set of marked colours (C30) | what one decision achieves; invariant over supersteps: a finished node has the colour of a neighbour only if the neighbour is larger and not finished; ghosts agree with their owners (`sync_some`); a measure on the smallest unfinished node bounds the number of passes; C64 for the classes; closed witness for a self-loop |
| C66 | `jet_refiner.cc` (find_moves, synchronize_ghost_node_move_candidates, filter_bad_moves, move_locked_nodes, synchronize_ghost_node_labels, apply_block_weight_deltas, rounds), `snapshooter.cc`, `compute_max_gainer`, `imbalance_l1`, the gain factor as doubles; the balancer and the end of the iterations (floating point) are parameters | candidates and executed moves are functions of the global graph and partition (per node, then synchronisation by C60); sums of the changes per rank are the differences of block weights; invariant over iterations: the snapshot is consistent and at least as good as all partitions seen; closed witnesses for cuts of 2^31 and for the factor 0 / 0 |
| C67 | `deep_multilevel.cc`: first_step_k, desired_k (ceil2 as in C42), the loop of extend_partition with 32-bit products, uncoarsening, the last extension; graphs are their numbers of nodes | the number of blocks stays a power of two or k (induction on the exponent and over levels), the run is deterministic; for K < k < 2 K the number of blocks stays K by induction over a supposed run; ceil2(0) by evaluation |
| C68 | `context.cc` GraphContext: perfectly balanced and maximum block weights with IEEE doubles and 64-bit block weights | C04's lemmas on the doubles; greedy assignment to a light block (pigeonhole) shows that a feasible partition exists; closed witnesses |
| C69 | `subgraph_extractor.cc`: all functions; threads number nodes in any order, messages in any order (C59's exchange); reads and writes outside of arrays fail; the cuts of the partitions are an input (C01's metric) | numbers of the nodes of a block are the concatenation over ranks; offsets by arithmetic; blocks of flat arrays by slices; projection by the exchange theorem; failures by lengths, one witness with 8 ranks |
| C70 | `hem_clusterer.cc` (except the colour blacklist, which is never read, and graphs sorted by colour already), `compute_size_after_matching_contraction`; stale reads and failing compare-exchanges are arbitrary, messages arrive in any order; the colouring is C65's | invariant over the rounds: the entries of all ranks are views of one partial matching; the effect of a round as a set of picked pairs; counting by concatenation over ranks |
| C71 | `clusters.{h,cc}` (constructor, ghost adjacency, moves, all three strategies), the moves of `cluster_balancer.cc`; the clustering, the sort order of equal ghosts and fresh memory are arbitrary | invariant: connections and ghost adjacency are exact; sums over edges between two sets are symmetric; prefix sums for the index arrays |
| C72 | `independent_set.cc`, `border_nodes.cc`, `check_border_node`; a score is an arbitrary function of the global node below the marker; threads take turns after every neighbour, in any order | invariant of the loops: own scores are fixed, ghost scores are unset or right, all neighbours passed have larger scores; independence from the symmetry of the graph |
| C73 | `sparse_allreduce.h` with `doubling_allreduce_tag`, all ranks in lock step; the default variant is a single `MPI_Allreduce` and is not modelled; no overflow | invariant: after `i` rounds a rank has the sums over its group of `2^i` ranks; partners of a round exist iff the number of ranks is a multiple of the group size |
| C74 | `perform_parallel_round` (candidates, dicing attempts with in-place swaps, balance check, moves) of all ranks; gains, buckets and targets arbitrary; the messages about moved ghosts and the update of the queues not modelled; exact probabilities, no overflow | loop invariants: candidates have distinct nodes of overloaded blocks, swaps permute, the changes are those of the accepted prefix; sums over ranks |
| C75 | `perform_parallel_round` of the cluster balancer with `find_max_conn` for all ranks; shares the dicing part with C74; buckets arbitrary; an invalid target is a distinct outcome; the messages about moved clusters and the update of connections (C71) not modelled here | picked clusters satisfy the invariant of C74's candidates; targets have room by induction over the blocks |
| C76 | `Buckets` (sizes in one array, `compactify`, `compute_cutoff_buckets`) and the sum over ranks; the variant of the cluster balancer with a fraction of the overload (exact rationals instead of doubles); the bucket of a gain is arbitrary (floating-point logarithms not modelled); unbounded integers | the row of a block is found by the number of overloaded blocks before it, in all three passes; invariant of the cut-off loop; sums over buckets and ranks |

## Trusted base

* Coq 8.16.1 kernel (including `vm_compute`), and the reading of the C++ sources.
* `Print Assumptions` stands below every property theorem. All of them are *Closed under the global context*, except the
  theorems of C04, `C51_uniform_limit_suffices`, `C51_uniform_limit_refuted`, `C66_large_cut_refuted`,
  `C66_dynamic_factor_refuted` and those of C68, which use the axioms of the standard library's real numbers through Flocq:
  `ClassicalDedekindReals.sig_forall_dec`, `ClassicalDedekindReals.sig_not_dec`,
  `FunctionalExtensionality.functional_extensionality_dep`, and `Classical_Prop.classic`. (A listing of all axioms and
  module parameters of the loaded libraries, such as `coqchk -o`, also mentions `Coq.ssr.ssrunder.Under_rel.*` and
  `Rdefinitions.RbaseSymbolsImpl.*`; these are standard library modules.)
* No axioms, admitted proofs, functors or module types of our own.
* `tools/gen.py` (generates `_CoqProject` and `MANIFEST.json`) is not part of the argument.

## What is not modelled

* Heuristic quality: which clustering, move or bipartition is chosen. These choices are oracles; the theorems hold for all.
* Relaxed-memory reorderings between different locations; TBB scheduling other than as arbitrary interleaving or splitting.
* Running time, allocation failure, timers, statistics output, command line parsing.
* Overflow of weights, except where a property mentions it (C04, C17 compact, C36, C43, C58).
* The distributed partitioner (kaminpar-dist) and kaminpar-mpi, except for C35, C40, C41 and what is listed for later properties.
* Hashing and on-the-fly gain caches; reads of a hash table while it is being updated, and the order in which the relaxed store
  of `unlock` becomes visible (C17, C58); `complete_partial_extend_partition`; two-hop clustering
  other than threadwise (C53); relabelling of clusters; flow refinement; the running statistics of the bipartitioner pool (doubles).

## Findings

Every finding is a theorem with the suffix `_refuted`: the claim is false of the code at the commit under study.

| Theorem | Finding |
|---------|---------|
| C01_edge_weights_refuted | complete call with an out-of-bounds write: weighted input whose coarse graphs have unit edge weights (same cause as C10_lazy_memory_refuted) |
| C03_weighted_isolated_refuted | re-inserting weighted isolated nodes can overload the last block |
| C04_large_total_refuted, C04_sum_fits_refuted | default limits are below the total weight for totals above 2^53; their sum overflows 32 bits |
| C08_first_sub_block_last_level_refuted | first sub-block on the last level is wrong if k is no power of two |
| C10_lazy_memory_refuted, C10_preallocated_memory_refuted | subgraph memory without room for edge weights; memory freed too early |
| C16_hard_limit_refuted | two threads can exceed the cluster weight limit |
| C18_large_k_values_refuted | large-k delta cache mixes gains and connections when enumerating |
| C20_return_refuted | the greedy balancer can run forever |
| C23_limit_zero_refuted | `adjacent_nodes` limited to zero neighbours visits one |
| C24_three_bytes_refuted, C24_delta_64_refuted, C24_largest_unsorted_refuted | StreamVByte loses 64-bit values of 3, 5, 6, 7 bytes; 64-bit differential decoding reports nothing; coding relative to the maximum needs sorted input |
| C25_local_buffer_refuted | thread-local compression buffer too small |
| C27_max_degree_refuted, C27_zero_node_weights_refuted | compressed graphs report maximum degree 0; zero node weights are lost |
| C28_remove_extreme_key_refuted | removing from a heap fails if a key equals the reserved value |
| C30_marker_64_bit_refuted | 64-bit marker forgets or invents marks after 2^(32-k) resets |
| C31_fast_reset_array_zero_refuted, C31_fixed_size_full_refuted | zero values are enumerated twice; lookups in a full map do not end |
| C32_rank_of_length_refuted | rank query at the end reads outside the memory |
| C36_*_refuted | METIS files: length a multiple of the page size, wide weights, empty graph with compression, node sizes |
| C37_empty_refuted, C37_many_nodes_refuted | empty partition file; block sizes above 2^31 |
| C38_zero_weights_refuted | weights that sum up to n are dropped |
| C39_bucket_index_with_isolated_refuted | bucket index wrong while isolated nodes are present |
| C40_round_robin_permutation_refuted | round robin distribution is no permutation |
| C42_pow2_rounding_64_refuted | floor2 / ceil2 shift a 32-bit literal |
| C43_large_file_refuted | byte offsets of large ParHIP files overflow in 32-bit builds |
| C45_parallel_edges_refuted | parallel edges that are not adjacent in the input are accepted |
| C46_greedy_growing_ignores_edges, C46_greedy_growing_refuted | greedy graph growing tests the wrong node and never follows an edge: it picks random nodes |
| C47_balance_refuted | 2-way FM does not accept the first balanced cut, an overloaded bipartition stays overloaded |
| C48_heavy_nodes_refuted | cluster weights are kept in a signed 30-bit field: a node of weight 2^29 gets a negative weight during initial bipartitioning |
| C49_adaptive_only_refuted | With min_num_non_adaptive_repetitions = 0 and adaptive selection, no bipartitioner ever runs and the pool returns whatever an earlier use left in its arrays (initial_pool_bipartitioner.cc:124-131, :152-156) |
| C49_stopping_rule_refuted | create_initial_refiner swaps the stopping rules: the configured rule "simple" creates the adaptive refiner and vice versa, so num_fruitless_moves is ignored by the default configuration (initial_refiner.cc:21-27) |
| C51_vcycle_out_of_bounds_refuted | v-cycles whose block counts are no powers of two read block weight limits out of bounds (10 then 12 blocks; 3 then 4 blocks) |
| C51_vcycle_wide_refuted | with 64-bit weights the limits of v-cycles are summed up in an int and truncated |
| C51_uniform_limit_refuted | for a common epsilon the limit of an intermediate block can exceed the sum of the limits of its final blocks (200, k = 4, epsilon = 0.03: 103 > 2 * 51), so a feasible intermediate partition may have no feasible extension |
| C52_rb_one_block_refuted | `k = 1` passes the power-of-two check of the recursive bipartitioning mode and yields a partition into two blocks (labels 0 and 1). |
| `C75_no_room_refuted` | If no block has room for a picked cluster, `find_max_conn` returns `kInvalidBlockID` and the round uses it as an index; the assertion against it is off at the default assertion level. |
| `C75_default_refuted` | With the default preset (`par_num_dicing_attempts = 0`, `par_accept_imbalanced = true`), a parallel round of the cluster balancer may overload a block that was not overloaded. |
| `C74_default_refuted` | The default preset has `par_num_dicing_attempts = 0` and `par_accept_imbalanced_moves = true`: a parallel round may overload a block that was not overloaded. |
| `C72_empty_refuted` | `find_independent_border_set` gives a score to every ghost, but among its own nodes only to border nodes: an inner node on another rank keeps a border node out, and the set may be empty although there is a border. The result for the same graph, partition and seed therefore depends on the distribution. |
| `C71_empty_rank_refuted` | `build_local_clusters` calls `back()` on an empty vector on a rank without nodes. |
| `C71_gain_refuted` | The same for a cluster that has nodes of an overloaded and of another block: the edges between them are not counted as connections, gains are wrong. |
| `C71_greedy_refuted` | `finish_cluster` of the strategy greedy-batch-prefix starts to release dropped nodes one position too late: the first dropped node stays marked as a member of a set that does not contain it, is never moved, and gains miss its edges. |
| `C71_two_blocks_refuted` | `build_local_clusters` calls the clusterer without `set_communities` (which has no caller in kaminpar-dist): a move set can have nodes of two blocks, all of which are then moved as if they were in the block of the first. |
| `C70_empty_rank_refuted` | `initialize_coloring` dereferences the maximum of the colours of the rank's nodes: undefined for a rank without nodes. |
| `C70_heavier_edge_refuted` | The compare-exchange loop for competing requests in `resolve_global_conflicts` repeats after success and stops after failure: the heavier request is dropped if another thread was faster. |
| `C69_ranks_left_refuted` | `first_block_on_pe` compares with rem * min instead of rem * (min + 1): with e.g. 8 ranks and 3 blocks, rank 5 is sent block 2 although it is counted for block 1; its buffers are too small. |
| `C69_blocks_left_refuted` | With fewer ranks than blocks and a number of blocks that is not a multiple of the number of ranks, the ranks with fewer blocks compute the positions of the received parts with the wrong number of blocks and read outside of the array. |
| `C69_more_blocks_refuted`, `C69_more_blocks_exist_refuted` | With fewer ranks than blocks, `copy_subgraph_partitions` takes the block number for the rank that holds the block (`first_pe_with_block`) and reads outside of the receive buffers. |
| `C68_weighted_input_refuted` | The distributed limits are relaxed by the largest node weight for every weighted graph, also for the input graph ("only relax weight on coarse levels"): with epsilon = 3% a partition with all nodes in one of two blocks can count as feasible. |
| `C68_zero_weight_refuted` | The distributed limits are not relaxed if the number of nodes equals the total weight; with nodes of weight 0 this happens for weighted graphs too, and then no feasible partition may exist. |
| `C67_small_graph_refuted` | With more than K blocks and an input graph with fewer nodes than the contraction limit, the partitioner computes ceil2(0): __builtin_clz(0) and a shift by its result are undefined. |
| `C67_number_of_blocks_refuted` | For K < k < 2 K (129 to 255 blocks with the default K = 128) the distributed deep multilevel partitioner never returns: next_k / k rounds down to 1 and the loop repeats with the same number of blocks (the assertion is disabled by default). |
| `C66_dynamic_factor_refuted` | With dynamic gain factors and one round (`max_num_rounds >= 1` instead of `> 1`), the gain factor is 0 / 0 = NaN: every test of a gain fails and Jet never moves a node. |
| `C66_large_cut_refuted` | The snapshot of the distributed Jet refiner stores cuts in 32-bit EdgeWeights: a partition with cut 2^31 counts as -2^31 and replaces one with half the cut, although all edge weights fit. |
| `C65_self_loop_refuted` | With a self-loop at a node that has a neighbour on another rank, the greedy colouring never returns: the node marks its own colour in every pass. |
| `C64_color_empty_rank_refuted` | Reordering by colour dereferences `std::max_element` of an empty colour array on every rank that has no nodes (and no ghosts). |
| `C63_large_cut_refuted` | The choice of the best partition casts the cut (64 bit) to `EdgeWeight` (32 bit) with an assertion that is enabled by default: a graph whose weights all fit aborts. |
| `C63_uneven_groups_refuted` | If the number of ranks is not a multiple of the number of groups (5 ranks, 2 groups; PE splitting is on by default), `replicate_graph` broadcasts edges as `GlobalNodeID` (64 bit) that are received as `NodeID` (32 bit), broadcasts 0 edge weights of an unweighted graph that are received as one per edge, and never transfers the left-over node weights; `distribute_best_partition` computes a different number of replications on different ranks. |
| `C62_default_overloads_refuted` | The default preset sets `ignore_probabilities`, which also disables the balance check of `perform_moves`: two ranks move nodes into the same block in one chunk, each move fits alone, together they overload it. The preset runs a balancer afterwards (but see C59). |
| `C61_total_weight_refuted` | `DistributedCSRGraph::init_total_weights` adds the node weights of a rank in 32 bits (default build): two nodes of weight 1610612736 overflow (undefined behaviour) although the total is a 64-bit number. |
| `C61_returned_cut_refuted` | `dKaMinPar::compute_partition` stores the 64-bit cut in an `EdgeWeight` (32 bits in the default build) before returning it as 64 bits: a cut of 3221225472 is returned as -1073741824. |
| `C60_large_weights_refuted` | The distributed interface takes 64-bit weights; in the default build `import_graph` stores them as 32-bit integers without a check, so a node weight 2^31 becomes negative. |
| `C59_round_hangs_refuted` | Distributed node balancer: the queue of a block may hold far more weight than the excess (a heavy node displaces a light one, `try_pq_insertion`). The root then looks for a block for nodes that no longer need to move; if no block has room, the loop in `perform_sequential_round` (lines 277-283) never ends. Witness: two blocks, limits average plus maximum node weight, one rank. |
| `C58_wide_weights_refuted` | Hash table cells of the sparse gain cache hold block and weight in one integer; a weight of 2^30 with k = 4 (weights fit the 32-bit type) overwrites the block, and the cache reports connection 0 instead of 2^30 |
| `C57_balance_refuted` | Jet compares cuts only: from an overloaded partition it can return the overloaded input although the partition after an iteration was balanced |
| `C57_returns_refuted` | From a balanced partition, the moves of the first iteration of Jet can lead to a partition from which the greedy balancer never comes back, whatever the schedule (see `C20_termination_refuted`) |
| `C56_lost_activation_refuted` | A visit reads the blocks of the neighbours before it clears the active flag of its node; a neighbour that moves in between is missed and the node stays inactive. Clearing the flag first would avoid this |
| `C56_neighbor_limit_refuted` | With max_num_neighbors set, ratings are incomplete and even a single thread can increase the cut (the default is no limit) |
| `C56_concurrent_cut_refuted` | Two threads that move adjacent nodes at the same time can increase the cut, although both moves have positive gain |
| `C55_identifier_wrap_refuted` | With more than 2^32 - 64 nodes, the last sub-chunk wraps around and nodes outside the chunk are visited |
| `C55_full_after_ranged_refuted` | perform_iteration() after perform_iteration(from, to) reuses the chunks of the range. No caller in kaminpar-shm does this |
| `C55_below_the_bound_refuted` | In a degree-sorted graph, label propagation skips nodes although their degree is below the configured maximum: with L the binary logarithm of the maximum, all degrees from 2^(L-1) on are skipped (for a maximum of 1000000: from 2^18 = 262144 on). The loop bound should count the bucket of the maximum degree; the heavy assertion behind init_chunks fails for such graphs |
| `C54_two_hop_refuted` | With default two-hop matching, a restricted v-cycle with the same number of blocks returns a different partition with a larger cut: blocks contain nodes of different blocks of the previous cycle. The assertion in the code does not notice, as the merged nodes are not adjacent |
| `C53_two_hop_communities_refuted`, `C53_isolated_communities_refuted` | Two-hop and isolated-node matching (on by default, threshold 0.5) ignore the communities that a v-cycle sets: nodes of different communities are merged although the label propagation itself never does this |
