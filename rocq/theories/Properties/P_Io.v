(* C36, C37: text files. *)
From Coq Require Import Sorting.Sorted.
From Verif Require Import Lib.Prelude Spec.Graph Spec.Gain Spec.TextFormat Spec.IoBuild Model.CompressModel Model.CompressedGraphModel Model.CsrModel
  Model.IoTextModel Proofs.CompressFacts Proofs.CompressExamples Proofs.IoTextTop Proofs.IoTextRound.
Local Open Scope Z_scope.

(** C36: reading a METIS file returns the graph that the file describes: for every file in the format (comment lines,
    indentation, repeated and trailing spaces, extra lines at the end, missing newline at the very end are all allowed),
    the nodes, the neighbours in order and all weights are those of the file, no assertion fails and no access is out of
    bounds. The file length must not be a multiple of the page size (see C36_page_multiple_refuted). *)
Theorem C36_read_what_is_described : forall c g nw ew text sorted,
  build_ok c -> expressible g nw ew -> fits_build c g -> metis_text g nw ew text ->
  Z.of_nat (length text) mod io_page c <> 0 ->
  exists h, metis_csr_read c text sorted = Ok h /\ same_graph (cg_graph h) g /\ Z.of_nat (cg_m h) = num_arcs g /\
    cg_sorted h = sorted.
Proof. intros c g nw ew text sorted H1 H2 H3 H4 H5. exact (csr_read_ok c g nw ew text H1 H2 H3 H4 H5 sorted). Qed.
Print Assumptions C36_read_what_is_described.
Example C36_read_what_is_described_ex :
  build_ok conf32 /\ expressible (cg_graph pair_graph) true true /\ fits_build conf32 (cg_graph pair_graph) /\
  metis_text (cg_graph pair_graph) true true pair_text /\ Z.of_nat (length pair_text) mod 4096 <> 0 /\
  metis_csr_read conf32 pair_text false = Ok pair_graph.
Proof.
  split; [unfold build_ok; cbn; lia|]. split; [exact pair_expressible|]. split; [vm_compute; repeat split; discriminate|].
  split; [exact pair_text_ok|]. vm_compute. split; [discriminate|reflexivity].
Qed.

(** C36: writing a graph and reading the file returns the graph: the same nodes, neighbours in the same order, the same
    node and edge weights. *)
Theorem C36_round_trip : forall c xadj adjncy vwgt adjwgt deg_sorted sorted,
  build_ok c -> wf_csr xadj adjncy vwgt adjwgt ->
  (forall x, In x vwgt -> 1 <= x) -> (forall x, In x adjwgt -> 1 <= x) ->
  let g := user_graph xadj adjncy vwgt adjwgt in
  undirected g -> simple_graph g -> fits_build c g ->
  let file := metis_write c (cg_make (sa_make xadj) adjncy (sa_make vwgt) adjwgt deg_sorted) in
  Z.of_nat (length file) mod io_page c <> 0 ->
  exists h, metis_csr_read c file sorted = Ok h /\ same_graph (cg_graph h) g /\ cg_sorted h = sorted.
Proof.
  intros c xadj adjncy vwgt adjwgt ds sorted H1 H2 H3 H4 g H5 H6 H7 file H8.
  exact (metis_round_trip c xadj adjncy vwgt adjwgt ds H1 H2 H3 H4 H5 H6 H7 sorted H8).
Qed.
Print Assumptions C36_round_trip.
Example C36_round_trip_ex : let g := user_graph [0; 1; 2]%nat [1; 0]%nat [3; 1] [7; 7] in
  wf_csr [0; 1; 2]%nat [1; 0]%nat [3; 1] [7; 7] /\ undirected g /\ simple_graph g /\ fits_build conf32 g /\
  metis_write conf32 pair_graph = [50; 32; 49; 32; 49; 49; 10; 51; 32; 50; 32; 55; 32; 10; 49; 32; 49; 32; 55; 32; 10] /\
  metis_csr_read conf32 (metis_write conf32 pair_graph) false = Ok pair_graph.
Proof.
  split.
  { unfold wf_csr. cbn. split; [lia|]. split; [auto|]. split; [intros [|[|[|i]]]; cbn; lia|]. split; [auto|].
    split; [intros v [<-|[<-|[]]]; lia|]. split; right; reflexivity. }
  split; [intros [|[|u]] [|[|v]] Hu Hv; cbn in Hu, Hv; try lia; reflexivity|].
  split; [intros [|[|u]] Hu; cbn in Hu; [| |lia]; cbn; (split; [repeat constructor; cbn; tauto|intros [|[]]; discriminate])|].
  split; [vm_compute; repeat split; discriminate|]. vm_compute. split; reflexivity.
Qed.

(** C36: reading a METIS file directly into a compressed graph gives the graph that the compressor builds from the
    neighbourhoods and weights described by the file (whose content is the subject of C23 and C27). *)
Theorem C36_compress_read : forall c g nw ew text cc sort,
  build_ok c -> expressible g nw ew -> fits_build c g -> metis_text g nw ew text ->
  Z.of_nat (length text) mod io_page c <> 0 -> (0 < gn g)%nat ->
  metis_compress_read c cc sort text =
    Ok (cgr_build (cc ew) sort (num_arcs g)
         (map (fun u => map (fun e => (Z.of_nat (fst e), snd e)) (gadj g u)) (seq 0 (gn g)))
         (if nw then Some (map (gvw g) (seq 0 (gn g))) else None)).
Proof. intros c g nw ew text cc sort H1 H2 H3 H4 H5. exact (compress_read_ok c g nw ew text H1 H2 H3 H4 H5 cc sort). Qed.
Print Assumptions C36_compress_read.
Example C36_compress_read_ex :
  metis_compress_read conf32 (fun _ => cfg32) isort pair_text =
    Ok (cgr_build cfg32 isort 2 [[(1, 7)]; [(0, 7)]] (Some [3; 1])).
Proof. vm_compute. reflexivity. Qed.

(** C36 is false of files whose length is a multiple of the page size: the parser looks at the byte behind the last one,
    which is not mapped. Writing the graph with 4089 nodes and no edges and reading it again is such a case. *)
Theorem C36_page_multiple_refuted : exists c n, build_ok c /\
  Z.of_nat (length (metis_write c (edgeless n))) mod io_page c = 0 /\
  metis_csr_read c (metis_write c (edgeless n)) false = Fault.
Proof. exact page_multiple_refuted. Qed.
Print Assumptions C36_page_multiple_refuted.

(** C36 is false of builds with 64-bit weights and 32-bit IDs: a node of weight 2^32 + 1 is read as a node of weight 1,
    although the weight fits into the type of weights. *)
Theorem C36_wide_weights_refuted : exists c w h, io_wn c = 32 /\ io_ww c = 64 /\ 1 <= w < 2 ^ 63 /\
  cg_node_weight (heavy_graph w) 0 = w /\
  metis_csr_read c (metis_write c (heavy_graph w)) false = Ok h /\ cg_node_weight h 0 <> w.
Proof.
  exists conf32w64, (2 ^ 32 + 1), (edgeless 1). vm_compute. repeat split; discriminate.
Qed.
Print Assumptions C36_wide_weights_refuted.

(** C36: a compressed graph cannot be read from the file of an empty graph, although the file is well-formed and can be
    read as an uncompressed graph. *)
Theorem C36_compress_empty_refuted : forall cc sort, exists c text g h,
  build_ok c /\ metis_text g false false text /\ gn g = 0%nat /\
  metis_csr_read c text false = Ok h /\ metis_compress_read c cc sort text = Fault.
Proof.
  intros cc sort. exists conf32, (metis_write conf32 (edgeless 0)), (cg_graph (edgeless 0)), (edgeless 0).
  split; [unfold build_ok; cbn; lia|]. split.
  - apply (write_ok conf32 (edgeless 0)); cbn; intros; lia.
  - vm_compute. repeat split.
Qed.
Print Assumptions C36_compress_empty_refuted.

(** C36: the parser announces that it ignores node sizes (format 1xx), but takes them for weights or neighbours: in the
    file "2 1 100\n9 2\n9 1\n" node 1 has size 9. *)
Theorem C36_node_sizes_refuted : metis_csr_read conf32
  [50; 32; 49; 32; 49; 48; 48; 10; 57; 32; 50; 10; 57; 32; 49; 10] false = Assert.
Proof. vm_compute. reflexivity. Qed.
Print Assumptions C36_node_sizes_refuted.

(** C37: writing a partition and reading the file returns the same labels in the same order; more generally, reading a file
    with one number per line (trailing spaces allowed) returns the numbers. *)
Theorem C37_partition_round_trip : forall p, p <> [] -> Forall (fun b => 0 <= b < 2 ^ 32) p ->
  partition_read (partition_write p) = Ok p.
Proof. exact partition_round_trip. Qed.
Print Assumptions C37_partition_round_trip.
Theorem C37_partition_read : forall p text, p <> [] -> number_lines p text -> Forall (fun b => 0 <= b < 2 ^ 32) p ->
  partition_read text = Ok p.
Proof. exact partition_read_ok. Qed.
Print Assumptions C37_partition_read.
Theorem C37_partition_file : forall p, Forall (fun b => 0 <= b) p -> number_lines p (partition_write p).
Proof. exact write_lines_ok. Qed.
Print Assumptions C37_partition_file.
Example C37_partition_ex : partition_write [0; 12; 4294967295] = [48; 10; 49; 50; 10; 52; 50; 57; 52; 57; 54; 55; 50; 57; 53; 10] /\
  partition_read (partition_write [0; 12; 4294967295]) = Ok [0; 12; 4294967295] /\ partition_read [48; 32; 32; 10; 48; 55; 10] = Ok [0; 7].
Proof. vm_compute. repeat split. Qed.

(** C37: the partition of the empty graph can be written, but not read. *)
Theorem C37_empty_refuted : partition_read (partition_write []) = Throws.
Proof. reflexivity. Qed.
Print Assumptions C37_empty_refuted.

(** C37: writing the block sizes of a partition and reading them returns the same labels, sorted (the nodes of block 0 first,
    and so on). Fewer than 2^31 nodes. *)
Theorem C37_block_sizes : forall c k p, build_ok c -> (0 < k)%nat -> Z.of_nat k < 2 ^ 32 ->
  Forall (fun b => 0 <= b < Z.of_nat k) p -> Z.of_nat (length p) < 2 ^ 31 ->
  exists text q, write_block_sizes c k p = Ok text /\ read_block_sizes c text = Ok q /\ Permutation q p /\ StronglySorted Z.le q.
Proof. exact block_sizes_sorted. Qed.
Print Assumptions C37_block_sizes.
Example C37_block_sizes_ex : write_block_sizes conf32 4 [2; 0; 2; 3; 2] = Ok [49; 10; 48; 10; 51; 10; 49; 10] /\
  read_block_sizes conf32 [49; 10; 48; 10; 51; 10; 49; 10] = Ok [0; 2; 2; 2; 3].
Proof. vm_compute. repeat split. Qed.

(** C37: the sizes are summed up in a 32-bit signed integer: with 64-bit node IDs, the file of a partition of 2^32 nodes
    into one block cannot be read back. *)
Theorem C37_many_nodes_refuted : exists c text, build_ok c /\ number_lines [2 ^ 32] text /\ 2 ^ 32 < 2 ^ io_wn c /\
  read_block_sizes c text = Fault.
Proof.
  exists conf64, (write_lines [2 ^ 32]). split; [unfold build_ok; cbn; lia|]. split; [|vm_compute; split; reflexivity].
  apply write_lines_ok. repeat constructor. discriminate.
Qed.
Print Assumptions C37_many_nodes_refuted.
