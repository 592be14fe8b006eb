(* Property theorems for the sparse gain cache (C58). *)
From Verif Require Import Lib.Prelude Spec.Graph Spec.Gain Spec.SparseGainSpec Model.CsrModel Model.GainModel Model.SparseGainModel
  Proofs.SparseGainTop Proofs.SparseGainIndex Proofs.SparseGainExamples.

(** C58: initialized for any partition, then used by [T] workers that move nodes (each node by one worker at a time) and
    update the neighbours' connections in any interleaving, the cache reports exact connections, gains, move targets and
    border nodes for every node whose connections nobody is currently updating. [w] is the number of bits of an edge
    weight, [thr] the degree from which nodes have a full row, [junk] what memory held before. *)
Theorem C58_reports : forall (g : graph) (k : nat) (w : Z) (sorted : bool) (bk : nat -> nat) (nb thr : nat) (junk lab : list nat) (T : nat) (es : list gev),
  closed_graph g -> undirected g -> simple_graph g -> positive_edges g ->
  (sorted = true -> bucket_ordered g bk nb) -> sparse_fits g k w sorted nb thr -> labels_ok g k lab ->
  exists L m0 s, sg_layout g k sorted bk thr junk = Some L /\ sg_init g k w bk nb L lab = Some m0 /\
    sg_run g k w bk nb L es (g_start _ lab m0 T) = Some s /\ labels_ok g k (s_lab s) /\
    forall u, u < gn g -> dst_idle u s = true ->
      reports g k (label_of (s_lab s)) u (sg_conn g k w bk nb L (s_mem s) u) (sg_gain g k w bk nb L (s_mem s) u)
        (fun all exact => sg_gains g k w bk nb L all exact (s_mem s) u) (sg_border g k w bk nb L (s_mem s) u).
Proof. exact sparse_reports. Qed.
Print Assumptions C58_reports.

(** C58: the cells of different nodes are different cells of the array and lie inside it; every hash table has more cells
    than its node has neighbours, so that looking up a block ends at an empty cell. *)
Theorem C58_layout : forall (g : graph) (k : nat) (sorted : bool) (bk : nat -> nat) (nb thr : nat) (junk : list nat),
  (sorted = true -> bucket_ordered g bk nb) -> nb <= 31 ->
  exists L, sg_layout g k sorted bk thr junk = Some L /\
    (forall u, u < gn g -> (exists i, cells_of g k bk nb L u i) \/ k = 0) /\
    (forall u i, u < gn g -> cells_of g k bk nb L u i -> i < sl_size L) /\
    (forall u v i, u < gn g -> v < gn g -> cells_of g k bk nb L u i -> cells_of g k bk nb L v i -> u = v) /\
    (forall u, u < gn g -> sg_in_sparse L u = false -> exists s c, sg_index_dense g bk nb L u = Some (s, c) /\ length (gadj g u) < c).
Proof. exact sparse_layout. Qed.
Print Assumptions C58_layout.

(** C58: the bucket index of a graph ordered by degree buckets, after its isolated nodes have been removed, is what the
    cache needs. *)
Theorem C58_index_of_sorted_graph : forall xadj adjncy vwgt adjwgt perm n' h,
  wf_csr xadj adjncy vwgt adjwgt -> (N.of_nat (length adjncy) < 2 ^ 32)%N -> sorted_by_degree_class xadj n' -> 0 < n' ->
  let g := cg_set_permutation perm (cg_make (sa_make xadj) adjncy (sa_make vwgt) adjwgt true) in
  let g' := cg_remove_isolated_nodes (count_isolated_nodes g) g in
  gn h = n' -> (forall u, u < n' -> length (gadj h u) = CsrModel.cg_degree g' u) ->
  bucket_ordered h (fun b => nth b (cg_buckets g') 0) (cg_number_of_buckets g').
Proof. exact index_ordered. Qed.
Print Assumptions C58_index_of_sorted_graph.

(** C58: the bound on weights is needed. If all weights and their sum fit the (signed) type of edge weights but a weight
    does not leave enough bits for the block, the cache reports a wrong connection right after its initialization. *)
Theorem C58_wide_weights_refuted : exists g k bk nb thr lab L m0 u b,
  closed_graph g /\ undirected g /\ simple_graph g /\ positive_edges g /\ bucket_ordered g bk nb /\ 2 <= k /\ nb <= 31 /\
  (zsum (map (weighted_degree g) (seq 0 (gn g))) <= 2 ^ 31)%Z /\ labels_ok g k lab /\
  sg_layout g k true bk thr [] = Some L /\ sg_init g k 32 bk nb L lab = Some m0 /\ u < gn g /\ b < k /\
  sg_conn g k 32 bk nb L m0 u b = Some 0%Z /\ block_conn g (label_of lab) u b = (2 ^ 30)%Z.
Proof. exact wide_weights. Qed.
Print Assumptions C58_wide_weights_refuted.

(** A path with a hub meets the hypotheses; the nodes of the path have hash tables, the hub has a row. *)
Example C58_hypotheses_ex : closed_graph sp_graph /\ undirected sp_graph /\ simple_graph sp_graph /\ positive_edges sp_graph /\
  bucket_ordered sp_graph sp_bk 4 /\ sparse_fits sp_graph 4 32 true 4 4 /\ labels_ok sp_graph 4 [0; 1; 2; 3; 0].
Proof. exact sp_ok. Qed.
Definition C58_ex_events : list gev := [EMove 0 2 3; EMove 1 4 1; ETick 1; ETick 0; ETick 1; ETick 0; ETick 0; ETick 1; ETick 0; ETick 1; ETick 1].
Example C58_reports_ex :
  match sg_layout sp_graph 4 true sp_bk 4 [7; 7] with
  | None => False
  | Some L =>
      match sg_init sp_graph 4 32 sp_bk 4 L [0; 1; 2; 3; 0] with
      | None => False
      | Some m0 =>
          match sg_run sp_graph 4 32 sp_bk 4 L C58_ex_events (g_start _ [0; 1; 2; 3; 0] m0 2) with
          | None => False
          | Some s => map (sg_in_sparse L) (seq 0 5) = [false; false; false; false; true] /\ sl_size L = 20 /\ s_lab s = [0; 1; 3; 3; 1] /\
              forallb (fun u => dst_idle u s) (seq 0 5) = true /\
              map (sg_conn sp_graph 4 32 sp_bk 4 L (s_mem s) 3) (seq 0 4) = map Some [0; 3; 0; 7]%Z /\
              map (sg_conn sp_graph 4 32 sp_bk 4 L (s_mem s) 4) (seq 0 4) = map Some [1; 1; 0; 6]%Z /\
              sg_gains sp_graph 4 32 sp_bk 4 L false true (s_mem s) 4 1 = Some [(0, 0%Z); (3, 5%Z)]
          end
      end
  end.
Proof. vm_compute. repeat split. Qed.
