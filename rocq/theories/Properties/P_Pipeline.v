(* C01, C02: complete calls of compute_partition, from the caller's arrays to the output span. *)
From Verif Require Import Lib.Prelude Spec.Graph Spec.Quotient Spec.Induced Spec.Level Spec.ExtendSpec Spec.PipelineSpec Model.CsrModel Model.PermModel Model.FacadeModel
  Model.UnbufModel Model.SubgraphModel Model.ExtendModel Model.DeepModel Model.PipelineModel Proofs.PipelineProofs Proofs.PipelineExamples.

(** C01, C02. After any history of legal calls on an undirected graph with positive weights, a further legal call with
    deep multilevel partitioning (every clustering on every level, every interleaving of the contractions, every initial
    partitioner, bipartitioner and refinement that respects its interface, every parameter) has no undefined behaviour,
    writes a block below k for each of the n nodes and nothing beyond, and returns the cut of what it wrote. [Bad] means
    that the given script of the environment is no execution. Missing (hence _partial): hierarchies in which an
    edge-weighted graph is coarsened to one without edge weights, see C01_edge_weights_refuted; fewer than 2 blocks;
    preallocated subgraph memory; v-cycles; compressed graphs. *)
Theorem C01_complete_call_partial : forall xadj adjncy vwgt adjwgt bits (borrowed : bool) cs e c,
  wf_csr xadj adjncy vwgt adjwgt ->
  (forall x, In x vwgt -> (1 <= x)%Z) -> (forall x, In x adjwgt -> (1 <= x)%Z) ->
  (N.of_nat (length adjncy) < 2 ^ 31)%N -> 0 < length xadj - 1 ->
  undirected (user_graph xadj adjncy vwgt adjwgt) ->
  let n := length xadj - 1 in
  let f0 := if borrowed then borrow_and_mutate_graph xadj adjncy vwgt adjwgt else copy_graph xadj adjncy vwgt adjwgt in
  legal_history (length adjncy) (length adjwgt) n bits cs f0 ->
  full_calls bits cs f0 = Bad \/
  exists f, full_calls bits cs f0 = Ok f /\
  (legal_call (length adjncy) (length adjwgt) n e c f -> n <= length (pc_out c) ->
   full_call bits e c f = Bad \/
   exists f' out ret, full_call bits e c f = Ok (f', out, ret) /\
     length out = length (pc_out c) /\ (forall u, u < n -> nth u out 0 < pc_k c) /\
     (forall u, n <= u -> nth u out 0 = nth u (pc_out c) 0) /\
     let cut := cut_weight (user_graph xadj adjncy vwgt adjwgt) (fun u => nth u out 0%nat) in
     ((- 2 ^ (bits - 1) <= cut < 2 ^ (bits - 1))%Z -> ret = Some cut)).
Proof. intros xadj adjncy vwgt adjwgt bits borrowed cs e c H1 H2 H3 H4 H5 H6. exact (pipeline_ok xadj adjncy vwgt adjwgt H1 H2 H3 H4 H5 H6 bits borrowed cs e c). Qed.
Print Assumptions C01_complete_call_partial.

(** Six nodes, two of them isolated, into three blocks: one level of coarsening, extension from two to three blocks. *)
Example C01_complete_call_ex :
  wf_csr ex_xadj ex_adjncy [] ex_adjwgt /\ undirected (user_graph ex_xadj ex_adjncy [] ex_adjwgt) /\
  let f0 := copy_graph ex_xadj ex_adjncy [] ex_adjwgt in
  legal_call 8 8 6 (ex_env [half_step 10] 1) (ex_call 3) f0 /\
  match full_call 32 (ex_env [half_step 10] 1) (ex_call 3) f0 with
  | Ok (f, out, ret) => out = [0; 0; 1; 2; 0; 2; 77; 77] /\ ret = Some 10%Z
  | _ => False
  end.
Proof. exact ex_full. Qed.

(** Finding: a legal call with undefined behaviour. A path of eight nodes with edge weights 5, 1, 5, 1, 5, 1, 5 is
    coarsened twice by joining pairs; the coarse graphs have unit edge weights, so that the extension on the coarse level
    allocates no memory for edge weights; on the finest level they are written to this memory out of bounds. *)
Theorem C01_edge_weights_refuted :
  exists xadj adjncy adjwgt e c,
    let n := length xadj - 1 in
    let f0 := copy_graph xadj adjncy [] adjwgt in
    wf_csr xadj adjncy [] adjwgt /\ (forall x, In x adjwgt -> (1 <= x)%Z) /\ undirected (user_graph xadj adjncy [] adjwgt) /\
    2 <= pc_k c <= n /\ length (pc_junk_edges c) = length adjncy /\ length (pc_junk_weights c) = length adjwgt /\ 0 < pc_concurrency c /\
    valid_schedule (pc_threads c) n (pc_schedule c) /\ env_ok e (pc_k c) /\ (N.of_nat (n / pe_c e) <= 2 ^ 31)%N /\ n <= length (pc_out c) /\
    full_call 32 e c f0 = Ub.
Proof. exact edge_weights_lost. Qed.
Print Assumptions C01_edge_weights_refuted.
