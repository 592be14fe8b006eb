(* C10: block counts and labels of deep multilevel uncoarsening. *)
From Verif Require Import Lib.Prelude Spec.Induced Spec.Level Spec.ExtendSpec Model.SubgraphModel Model.ExtendModel Model.DeepModel
  Proofs.DeepProofs Proofs.ExtendCases.

(** C10. The number of blocks for a graph with n nodes is at least 2, at most k, a power of two or k, and
    unless it is k there are at most C nodes per block (rounded down). *)
Theorem C10_block_count_for_size : forall n c k, 2 <= k -> (N.of_nat k < 2 ^ 31)%N -> 1 <= c -> (N.of_nat (n / c) <= 2 ^ 31)%N ->
  exists d, k_for_n n c k = Some d /\ 2 <= d /\ level_ok d k /\ (d = k \/ n / c <= d).
Proof. exact k_for_n_ok. Qed.
Print Assumptions C10_block_count_for_size.

(** C10. Uncoarsening with lazy subgraph memory (the default), for every hierarchy of graphs, every
    bipartitioner and schedule, every refinement algorithm that keeps labels in range and every setting of
    the parameters: it ends with one label in [0, k) per node of the input graph; all block counts on the
    way are powers of two or k. Missing (hence _partial): hierarchies in which a finer graph has edge
    weights although a coarser one has none; see C10_lazy_memory_refuted. *)
Theorem C10_uncoarsening_reaches_k_partial : forall ub k factor threads last_lvl nthreads choices tid refine c refine_after lvs g mems part kp,
  2 <= k -> (N.of_nat k < 2 ^ 31)%N -> 1 <= c -> (factor = 0 \/ exists j, 1 <= j /\ factor = 2 ^ j) ->
  (forall lvl g kp, choice_ok g kp (choices lvl g kp)) -> (forall b, tid b < nthreads) -> length mems = nthreads ->
  (forall lvl ph g kp part, labelled g kp part -> labelled g kp (refine lvl ph g kp part)) ->
  (forall m, In m mems -> lazy_mem_ok (lg_is_nw g) (lg_is_ew g) m) ->
  levels_ok c weights_carry g lvs -> lg_ok g -> labelled g kp part -> level_ok kp k ->
  exists mems' part' tr,
    uncoarsen (ext_lazy ub k factor threads last_lvl nthreads choices tid) refine c k refine_after lvs g mems part kp =
      Some (finest g lvs, mems', part', k, true, tr) /\
    labelled (finest g lvs) k part' /\ forall x, In x tr -> level_ok x k.
Proof. exact deep_lazy_ok. Qed.
Print Assumptions C10_uncoarsening_reaches_k_partial.

Example C10_ex :
  levels_ok 2 weights_carry coarse2 [Level coarse4 (pairs 4)] /\ lg_ok coarse2 /\ labelled coarse2 2 [0; 1] /\ level_ok 2 5 /\
  lazy_mem_ok (lg_is_nw coarse2) (lg_is_ew coarse2) free_smem /\
  match uncoarsen (ext_lazy 0 5 0 1 9 1 any_choice (fun _ => 0)) no_refine 2 5 false [Level coarse4 (pairs 4)] coarse2 [free_smem] [0; 1] 2 with
  | Some (_, _, part, kp, _, tr) => Some (part, kp, tr)
  | None => None
  end = Some ([2; 0; 4; 3], 5, [5; 2]).
Proof. exact ex_uncoarsen. Qed.

(** Finding. The lazy memory grows the array of edge weights only when it also grows the array of edges. In
    this hierarchy the coarser graph has unit edge weights (no array of weights is allocated) and the finer
    one does not: writing its edge weights is out of bounds. *)
Theorem C10_lazy_memory_refuted :
  exists c k lvs g part, levels_ok c (fun _ _ => True) g lvs /\ lg_ok g /\ labelled g 2 part /\ level_ok 2 k /\
    uncoarsen (ext_lazy 0 k 0 1 (length lvs) 1 any_choice (fun _ => 0)) no_refine c k false lvs g [free_smem] part 2 = None.
Proof. exact lazy_memory_too_small. Qed.
Print Assumptions C10_lazy_memory_refuted.

(** Finding. With preallocated memory of the size planned during coarsening, the memory is freed after the
    extension on the finest level; if the input graph is too small for k blocks, the final extension to k
    blocks then accesses it. *)
Theorem C10_preallocated_memory_refuted :
  exists c k lvs g part n m nw mw last_lvl,
    levels_ok c (fun _ _ => True) g lvs /\ lg_ok g /\ labelled g 2 part /\ level_ok 2 k /\
    plan_search c k (lg_is_nw (finest g lvs)) (lg_is_ew (finest g lvs)) 1 (length (finest g lvs), lg_m (finest g lvs)) [(length g, lg_m g)] = Some (n, m, nw, mw, last_lvl) /\
    uncoarsen (ext_prealloc 0 k 0 1 last_lvl any_choice) no_refine c k false lvs g (weighted_resize n k m nw mw) part 2 = None.
Proof. exact prealloc_freed_too_early. Qed.
Print Assumptions C10_preallocated_memory_refuted.

(** C10. Parallel initial partitioning with a power-of-two number of threads ends with an admissible block
    count for every sequence of graph sizes, and it ends if coarsening that does not converge shrinks. *)
Theorem C10_initial_block_count : forall c k sizes conv, 2 <= k -> (N.of_nat k < 2 ^ 31)%N -> 1 <= c -> (forall d, sizes d <= c * 2 ^ 30) ->
  forall fuel depth a r, async_k fuel c k sizes conv depth (2 ^ a) = Some r -> 2 <= r /\ level_ok r k.
Proof. exact async_k_ok. Qed.
Print Assumptions C10_initial_block_count.

Theorem C10_initial_partitioning_ends : forall c k sizes conv, 2 <= k -> (N.of_nat k < 2 ^ 31)%N -> 1 <= c -> (forall d, sizes d <= c * 2 ^ 30) ->
  (forall d, conv (S d) = false -> sizes (S d) < sizes d) ->
  forall fuel depth a, sizes depth + 2 <= fuel -> exists r, async_k fuel c k sizes conv depth (2 ^ a) = Some r.
Proof. exact async_k_total. Qed.
Print Assumptions C10_initial_partitioning_ends.

Example C10_initial_ex : async_k 20 2 11 (fun d => 16 - 4 * d) (fun _ => false) 0 (2 ^ 3) = Some 8.
Proof. reflexivity. Qed.
