(* C23, C26, C27: graph compression (kaminpar-common/graph_compression/, compressed_graph.h). *)
From Coq Require Import Sorted.
From Verif Require Import Lib.Prelude Spec.Compress Spec.CompressInput Model.VarintModel Model.CompressModel
  Model.CompressedGraphModel Proofs.CompressSize Proofs.CompressFacts Proofs.CompressExamples.
Local Open Scope Z_scope.

(** C23: for every configuration (ID widths, interval / high-degree encoding on or off, weighted or
    not), every graph (also with multiple edges) and every node, the compressed graph reports the
    node's degree and the callbacks of adjacent_nodes see exactly the node's neighbours with their
    weights, in one fixed order, until the callback asks to stop, and at most [k] of them if a
    limit is given. [sort] is std::sort; that it permutes is all that matters. The two limits of
    the format are explicit: the data must be addressable with an EdgeID and a neighbourhood with
    one bit less than a NodeID. *)
Theorem C23_compression_lossless : forall c sort nbs m,
  conf_ok c -> (forall l, Permutation (sort l) l) -> graph_ok c nbs ->
  let g := cn_build c sort m nbs in
  Z.of_nat (length (cn_edges g)) < 2 ^ c_wi c ->
  Forall (fun nb => 40 * Z.of_nat (length nb) < 2 ^ (c_wn c - 1)) nbs ->
  forall u, (u < length nbs)%nat ->
  cn_degree c g u = Some (Z.of_nat (length (nth u nbs []))) /\
  exists order, Permutation order (nth u nbs []) /\
    (forall (St : Type) (cb : St -> Z -> Z -> St * bool) s,
      cn_adjacent_nodes c g u cb s = Some (fst (visit cb s (map (eff c) order)))) /\
    (forall (St : Type) (cb : St -> Z -> Z -> St * bool) s k, 1 <= k ->
      cn_adjacent_nodes_max c g u k cb s = Some (fst (visit cb s (firstn (Z.to_nat k) (map (eff c) order))))).
Proof. exact lossless. Qed.
Print Assumptions C23_compression_lossless.

Example C23_compression_lossless_ex :
  conf_ok cfg32 /\ graph_ok cfg32 ex_graph /\
  let g := cn_build cfg32 isort 10 ex_graph in
  Z.of_nat (length (cn_edges g)) < 2 ^ 32 /\
  cn_degree cfg32 g 0 = Some 5 /\
  cn_adjacent_nodes cfg32 g 0 collect [] = Some [(1, 7); (2, 1); (3, 9); (4, 1); (5, 2)] /\
  cn_adjacent_nodes_max cfg32 g 0 2 collect [] = Some [(1, 7); (2, 1)] /\
  cn_adjacent_nodes cfg32 g 6 collect [] = Some [].
Proof. split; [exact cfg32_ok|]. split; [exact ex_graph_ok|]. vm_compute. auto 10. Qed.
(** A node of degree 10500, which is split into parts, meets the hypotheses. *)
Example C23_compression_lossless_big_ex :
  graph_ok cfg32 big_graph /\
  Z.of_nat (length (cn_edges (cn_build cfg32 isort 10500 big_graph))) < 2 ^ 32 /\
  Forall (fun nb => 40 * Z.of_nat (length nb) < 2 ^ (c_wn cfg32 - 1)) big_graph /\
  cn_degree cfg32 (cn_build cfg32 isort 10500 big_graph) 1 = Some 10500.
Proof. exact (conj big_graph_ok (conj big_size (conj big_small big_degree))). Qed.

(** C23: the same for the parallel traversal of high-degree nodes, for every order in which the
    parts are executed. *)
Theorem C23_parallel_traversal : forall c sort nbs m,
  conf_ok c -> (forall l, Permutation (sort l) l) -> graph_ok c nbs ->
  let g := cn_build c sort m nbs in
  Z.of_nat (length (cn_edges g)) < 2 ^ c_wi c ->
  Forall (fun nb => 40 * Z.of_nat (length nb) < 2 ^ (c_wn c - 1)) nbs ->
  forall u sched, (u < length nbs)%nat -> (forall np, Permutation (sched np) (seq 0 np)) ->
  exists order, Permutation order (nth u nbs []) /\
    forall (St : Type) (cb : St -> Z -> Z -> St * bool) s, (forall s v w, snd (cb s v w) = false) ->
      cn_parallel_adjacent_nodes c g u sched cb s = Some (fst (visit cb s (map (eff c) order))).
Proof. exact lossless_par. Qed.
Print Assumptions C23_parallel_traversal.
Example C23_parallel_traversal_ex :
  cn_parallel_adjacent_nodes cfg32 (cn_build cfg32 isort 10 ex_graph) 0 (fun np => rev (seq 0 np)) collect [] =
    Some [(1, 7); (2, 1); (3, 9); (4, 1); (5, 2)] /\
  (forall np, Permutation (rev (seq 0 np)) (seq 0 np)).
Proof. split; [vm_compute; reflexivity|intros np; apply Permutation_sym, Permutation_rev]. Qed.

(** C23, finding: with the limit 0, adjacent_nodes on the compressed graph still visits one
    neighbour (the uncompressed graph visits none). *)
Theorem C23_limit_zero_refuted : exists c sort nbs u,
  conf_ok c /\ (forall l, Permutation (sort l) l) /\ graph_ok c nbs /\
  cn_adjacent_nodes_max c (cn_build c sort 2 nbs) u 0 collect [] <> Some [].
Proof. exact limit_zero. Qed.
Print Assumptions C23_limit_zero_refuted.

(** C26: for every simple graph (n below half of the NodeID range, all widths and encodings), the
    bytes written by the sequential compressor are at most compressed_edge_array_max_size(n, m),
    the amount of memory that is reserved. *)
Theorem C26_size_within_reservation : forall c sort nbs,
  conf_ok c -> (forall l, Permutation (sort l) l) ->
  Z.of_nat (length nbs) < 2 ^ (c_wn c - 1) -> num_edges_of nbs < 2 ^ c_wi c ->
  Forall (fun nb => simple_nb c (Z.of_nat (length nbs)) (sort nb)) nbs ->
  Z.of_nat (length (cn_edges (cn_build c sort (num_edges_of nbs) nbs))) <=
    compressed_edge_array_max_size c true (Z.of_nat (length nbs)) (num_edges_of nbs).
Proof. exact build_size. Qed.
Print Assumptions C26_size_within_reservation.
Example C26_size_within_reservation_ex :
  Forall (fun nb => simple_nb cfg32 7 (isort nb)) ex_graph /\
  length (cn_edges (cn_build cfg32 isort (num_edges_of ex_graph) ex_graph)) = 24%nat /\
  compressed_edge_array_max_size cfg32 true 7 (num_edges_of ex_graph) = 103.
Proof. split; [exact ex_graph_simple|vm_compute; auto]. Qed.

(** C26: without any assumption on the graph, 40 bytes per edge suffice (this makes the size
    condition of C23 satisfiable: m < 2^w / 40). *)
Theorem C26_size_any_graph : forall c sort nbs m,
  conf_ok c -> (forall l, Permutation (sort l) l) -> graph_ok c nbs ->
  Z.of_nat (length (cn_edges (cn_build c sort m nbs))) <= 40 * num_edges_of nbs.
Proof. exact size_bound_any. Qed.
Print Assumptions C26_size_any_graph.
Example C26_size_any_graph_ex :
  length (cn_edges (cn_build cfg32 isort 10 [[(1, 3); (1, 3)]; [(0, 3); (0, 3)]])) = 18%nat.
Proof. vm_compute. reflexivity. Qed.

(** C27: number of nodes, number of edges and total edge weight survive compression. *)
Theorem C27_edge_metadata : forall c sort nbs vwgt,
  conf_ok c -> (forall l, Permutation (sort l) l) -> graph_ok c nbs ->
  num_edges_of nbs < 2 ^ (c_we c - 1) -> total_weight nbs < 2 ^ (c_we c - 1) ->
  let g := cgr_build c sort (num_edges_of nbs) nbs vwgt in
  cgr_n g = Z.of_nat (length nbs) /\ cgr_m g = num_edges_of nbs /\
  cgr_total_edge_weight g = (if c_ew c then total_weight nbs else num_edges_of nbs).
Proof. exact metadata_edges. Qed.
Print Assumptions C27_edge_metadata.
Example C27_edge_metadata_ex :
  cgr_total_edge_weight (cgr_build cfg32 isort (num_edges_of ex_graph) ex_graph None) = 40 /\ total_weight ex_graph = 40.
Proof. vm_compute. auto. Qed.

(** C27: positive node weights, their total and their maximum survive. *)
Theorem C27_node_weights : forall c sort m nbs vwgt,
  (0 < length nbs)%nat -> length vwgt = length nbs -> Forall (fun x => 1 <= x) vwgt ->
  let g := cgr_build c sort m nbs (Some vwgt) in
  (forall u, (u < length nbs)%nat -> cgr_node_weight g u = nth_error vwgt u) /\
  cgr_total_node_weight g = zsum vwgt /\
  In (cgr_max_node_weight g) vwgt /\ (forall w, In w vwgt -> w <= cgr_max_node_weight g).
Proof. exact node_weights. Qed.
Print Assumptions C27_node_weights.
Example C27_node_weights_ex :
  let g := cgr_build cfg32 isort 2 [[(1, 1)]; [(0, 1)]] (Some [3; 8]) in
  cgr_node_weight g 1 = Some 8 /\ cgr_total_node_weight g = 11 /\ cgr_max_node_weight g = 8.
Proof. vm_compute. auto. Qed.

Theorem C27_unit_node_weights : forall c sort m nbs,
  let g := cgr_build c sort m nbs None in
  (forall u, (u < length nbs)%nat -> cgr_node_weight g u = Some 1) /\
  cgr_total_node_weight g = Z.of_nat (length nbs) /\ cgr_max_node_weight g = 1.
Proof. exact no_node_weights. Qed.
Print Assumptions C27_unit_node_weights.

(** C27, finding: with zero weights allowed, node weights summing up to n - 1 are thrown away. *)
Theorem C27_zero_node_weights_refuted : exists vwgt,
  length vwgt = 2%nat /\ Forall (fun x => 0 <= x) vwgt /\
  cgr_node_weight (cgr_build cfg32 isort 2 edge_graph (Some vwgt)) 0 <> nth_error vwgt 0.
Proof. exact zero_weights. Qed.
Print Assumptions C27_zero_node_weights_refuted.

(** C27, finding: the compressed graph reports maximum degree 0, whatever the graph. *)
Theorem C27_max_degree_refuted : forall c sort m nbs vwgt,
  cgr_max_degree (cgr_build c sort m nbs vwgt) = 0.
Proof. exact max_degree_zero. Qed.
Print Assumptions C27_max_degree_refuted.
