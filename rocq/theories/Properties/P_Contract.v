(* C11, C12, C13: contraction of a clustering and projection of partitions. *)
From Verif Require Import Lib.Prelude Spec.Graph Spec.Quotient Model.ContractModel
  Proofs.ContractPreProofs Proofs.ContractProofs Proofs.ContractExamples.

(** C11. Whatever the order in which the parallel loop marks the leaders, the computed mapping numbers the clusters
    consecutively from 0, and two nodes get the same number iff they have the same label. *)
Theorem C11_mapping_numbers_clusters : forall n clustering order,
  0 < n -> Permutation order (seq 0 n) -> (forall u, u < n -> nth u clustering 0 < n) ->
  let '(c_n, mapping) := compute_mapping n clustering order in
  length mapping = n /\ numbers_clusters n c_n (fun u => nth u clustering 0) (fun u => nth u mapping 0).
Proof. exact mapping_correct. Qed.
Print Assumptions C11_mapping_numbers_clusters.

(** C11. The buckets contain every node exactly once, in the bucket of its coarse node. *)
Theorem C11_buckets_partition_nodes : forall n c_n mapping order1 order2 garbage,
  (forall u, u < n -> nth u mapping 0 < c_n) -> Permutation order1 (seq 0 n) -> Permutation order2 (seq 0 n) -> length garbage = n ->
  forall c, c < c_n ->
    let bucket := bucket_of (fill_cluster_buckets c_n mapping order1 order2 garbage) c in
    NoDup bucket /\ (forall u, In u bucket <-> u < n /\ nth u mapping 0 = c).
Proof. exact buckets_correct. Qed.
Print Assumptions C11_buckets_partition_nodes.

Example C11_ex : compute_mapping 4 ex_clustering [3; 1; 0; 2] = (3, [2; 2; 0; 1]) /\ Permutation [3; 1; 0; 2] (seq 0 4) /\
  bucket_of (fill_cluster_buckets 3 [2; 2; 0; 1] [2; 0; 3; 1] [1; 0; 2; 3] (repeat 9 4)) 2 = [0; 1].
Proof.
  split; [reflexivity|]. split; [|reflexivity]. exact (proj1 (proj2 (proj2 (proj2 (proj2 ex_inputs))))).
Qed.

(** C12. Buffered contraction, for every graph with positive edge weights, every clustering, every schedule of the
    parallel loops, every number of threads [T], list chunk size [K], hash function, chunk splitting and every
    initial contents of uninitialised memory: the resulting CSR arrays are the quotient graph of the clustering. *)
Theorem C12_buffered_contraction_quotient : forall K T hash g clustering order0 order1 order2 garbage split limit sch junk junkw,
  0 < K -> valid_inputs g clustering order0 order1 order2 garbage junk junkw ->
  (forall a b, a <= b -> valid_sched T a b (sch a b)) ->
  exists mapping nodes edges nw ew,
    contract_clustering_buffered K T hash g clustering order0 order1 order2 garbage split limit sch junk junkw
      = Some (mapping, (nodes, edges, nw, ew)) /\
    mapping = snd (compute_mapping (gn g) clustering order0) /\
    is_quotient g (fun u => nth u mapping 0) (user_graph nodes edges nw ew) /\
    gn (user_graph nodes edges nw ew) = fst (compute_mapping (gn g) clustering order0).
Proof. exact buffered_quotient. Qed.
Print Assumptions C12_buffered_contraction_quotient.

Example C12_buffered_ex :
  valid_inputs ex_graph ex_clustering [3; 1; 0; 2] [2; 0; 3; 1] [1; 0; 2; 3] (repeat 9 4) (repeat 7 10) (repeat 5%Z 10) /\
  (forall a b, a <= b -> valid_sched 2 a b (ex_sched a b)) /\
  contract_clustering_buffered 2 2 (fun x => x) ex_graph ex_clustering [3; 1; 0; 2] [2; 0; 3; 1] [1; 0; 2; 3]
    (repeat 9 4) true 4 ex_sched (repeat 7 10) (repeat 5%Z 10)
  = Some ([2; 2; 0; 1], ([0; 2; 4; 6], [2; 1; 0; 2; 0; 1], [3; 4; 3]%Z, [7; 3; 3; 4; 7; 4]%Z)).
Proof. exact (conj ex_inputs (conj ex_sched_valid ex_result)). Qed.

(** C12. A quotient graph is a legal graph again: neighbours are in range, it is undirected if the fine graph is,
    and the total node weight is preserved. *)
Theorem C12_quotient_well_formed : forall g f h, closed_graph g -> is_quotient g f h ->
  closed_graph h /\ (undirected g -> undirected h) /\ total_weight h = total_weight g.
Proof. exact quotient_well_formed. Qed.
Print Assumptions C12_quotient_well_formed.

(** C13. Projecting a partition through a whole hierarchy of contractions changes neither the cut nor any block
    weight nor the total weight. *)
Theorem C13_projection_preserves_cut_and_weights : forall levels g coarse,
  closed_graph g -> undirected g -> hierarchy g levels ->
  let fine := uncoarsen_all g levels coarse in
  let top := coarsest g levels in
  cut_weight g (fun u => nth u fine 0) = cut_weight top (fun c => nth c coarse 0) /\
  (forall b, block_weight g (fun u => nth u fine 0) b = block_weight top (fun c => nth c coarse 0) b) /\
  total_weight g = total_weight top.
Proof. exact uncoarsen_hierarchy. Qed.
Print Assumptions C13_projection_preserves_cut_and_weights.

Example C13_ex :
  let h := user_graph [0; 2; 4; 6] [2; 1; 0; 2; 0; 1] [3; 4; 3]%Z [7; 3; 3; 4; 7; 4]%Z in
  closed_graph ex_graph /\ undirected ex_graph /\ hierarchy ex_graph [([2; 2; 0; 1], h)] /\
  uncoarsen_all ex_graph [([2; 2; 0; 1], h)] [0; 1; 1] = [1; 1; 0; 1] /\
  cut_weight h (fun c => nth c [0; 1; 1] 0) = 10%Z.
Proof. exact ex_hierarchy. Qed.
