(* C25: parallel compression. *)
From Verif Require Import Lib.Prelude Model.VarintModel Model.CompressModel Model.CompressParModel Spec.CompressInput
  Proofs.CompressProofs Proofs.CompressFacts Proofs.CompressExamples Proofs.CompressParMain Proofs.CompressParOver.
Local Open Scope Z_scope.

(** C25: for every number of threads and every schedule, no assertion fails, no thread writes behind its buffer or behind
    the reserved memory, and when all threads are done the result is the one of the sequential builder: the same offsets,
    the same bytes, the same edge weight. The bytes must be addressable by an EdgeID; a chunk must not contain more edges
    than the node of maximum degree (see C25_local_buffer_refuted). *)
Theorem C25_parallel_equals_sequential : forall c sort nbs T ts,
  conf_ok c -> (forall l, Permutation (sort l) l) ->
  let n := Z.of_nat (length nbs) in let m := num_edges_of nbs in
  let degs := map (fun nb => Z.of_nat (length nb)) nbs in
  n < 2 ^ (c_wn c - 1) -> m < 2 ^ c_wi c -> Forall (fun nb => simple_nb c n (sort nb)) nbs ->
  Z.of_nat (length (cn_edges (cn_build c sort m nbs))) < 2 ^ c_wi c ->
  m / 5000 <= max_degree_of degs + 1 ->
  let chunks := compute_chunks m degs in
  exists s, p_run c sort nbs chunks (compressed_edge_array_max_size c false n (max_degree_of degs)) ts
              (p_init nbs chunks T (Z.to_nat (compressed_edge_array_max_size c true n m))) = Some s /\
    (p_finished s = true -> p_build c nbs m s = cn_build c sort m nbs).
Proof. intros c sort nbs T ts H1 H2 n m degs H3 H4 H5 H6 H7. exact (parallel_ok c sort nbs H1 H2 H3 H4 H5 H6 H7 T ts). Qed.
Print Assumptions C25_parallel_equals_sequential.
Example C25_parallel_equals_sequential_ex :
  let m := num_edges_of ex_graph in let degs := map (fun nb => Z.of_nat (length nb)) ex_graph in
  let chunks := compute_chunks m degs in
  Forall (fun nb => simple_nb cfg32 7 (isort nb)) ex_graph /\ m / 5000 <= max_degree_of degs + 1 /\ length chunks = 7%nat /\
  match p_run cfg32 isort ex_graph chunks (compressed_edge_array_max_size cfg32 false 7 (max_degree_of degs))
          (concat (repeat [1; 0; 2; 0; 1]%nat 200)) (p_init ex_graph chunks 3 (Z.to_nat (compressed_edge_array_max_size cfg32 true 7 m))) with
  | Some s => p_finished s = true /\ length (cn_edges (p_build cfg32 ex_graph m s)) = 24%nat
  | None => False
  end.
Proof. split; [exact ex_graph_simple|vm_compute; repeat split; discriminate]. Qed.

(** C25: if every thread is scheduled again and again, all threads finish; in particular nobody waits forever for a mutex
    of the circular buffer. *)
Theorem C25_parallel_never_blocks : forall c sort nbs T (sched : nat -> nat),
  conf_ok c -> (forall l, Permutation (sort l) l) ->
  let n := Z.of_nat (length nbs) in let m := num_edges_of nbs in
  let degs := map (fun nb => Z.of_nat (length nb)) nbs in
  n < 2 ^ (c_wn c - 1) -> m < 2 ^ c_wi c -> Forall (fun nb => simple_nb c n (sort nb)) nbs ->
  Z.of_nat (length (cn_edges (cn_build c sort m nbs))) < 2 ^ c_wi c ->
  m / 5000 <= max_degree_of degs + 1 ->
  (0 < T)%nat -> (forall t N, (t < T)%nat -> exists j, (N <= j)%nat /\ sched j = t) ->
  let chunks := compute_chunks m degs in
  exists N s, p_run c sort nbs chunks (compressed_edge_array_max_size c false n (max_degree_of degs)) (map sched (seq 0 N))
                (p_init nbs chunks T (Z.to_nat (compressed_edge_array_max_size c true n m))) = Some s /\ p_finished s = true.
Proof. intros c sort nbs T sched H1 H2 n m degs H3 H4 H5 H6 H7 H8 H9. exact (parallel_finishes c sort nbs H1 H2 H3 H4 H5 H6 H7 T sched H8 H9). Qed.
Print Assumptions C25_parallel_never_blocks.
Example C25_parallel_never_blocks_ex : forall t N, (t < 3)%nat -> exists j, (N <= j)%nat /\ (fun j => (j mod 3)%nat) j = t.
Proof.
  intros t N H. exists (t + N * 3)%nat. split; [lia|]. cbv beta. rewrite Nat.mod_add by lia. now apply Nat.mod_small.
Qed.

(** C25: the chunks cover every node exactly once; the first edge of a chunk is the number of edges before it; no chunk has
    more nodes than reserved for its offsets; a chunk of several nodes has fewer than m / 5000 edges. *)
Theorem C25_chunks : forall m degs, let chunks := compute_chunks m degs in
  (forall u, (u < length degs)%nat -> exists ch a b fe, nth_error chunks ch = Some (a, b, fe) /\ (a <= u < b)%nat /\
     forall ch' a' b' fe', nth_error chunks ch' = Some (a', b', fe') -> (a' <= u < b')%nat -> ch' = ch) /\
  (forall ch a b fe, nth_error chunks ch = Some (a, b, fe) ->
     (a < b <= length degs)%nat /\ fe = zsum (firstn a degs) /\ (b - a <= max_chunk_size chunks)%nat /\
     (b = S a \/ zsum (firstn (b - a) (skipn a degs)) < m / 5000)).
Proof. exact chunks_main. Qed.
Print Assumptions C25_chunks.
Example C25_chunks_ex : compute_chunks 25000 [2; 2; 9; 1; 1; 1; 0; 7] = [(0%nat, 2%nat, 0); (2%nat, 3%nat, 4); (3%nat, 7%nat, 13); (7%nat, 8%nat, 16)].
Proof. vm_compute. reflexivity. Qed.

(** C25, C26 (finding): the thread-local buffer is sized by the maximum degree, but a chunk may contain m / 5000 edges. With
    64-bit edge IDs the complete bipartite graph on 200000 nodes makes the first chunk overflow the buffer. *)
Theorem C25_local_buffer_refuted : exists c nbs, conf_ok c /\ Z.of_nat (length nbs) = 200000 /\
  Forall (simple_nb c (Z.of_nat (length nbs))) nbs /\
  (forall u v, (u < length nbs)%nat -> (v < length nbs)%nat -> In (Z.of_nat v, 1) (nth u nbs []) <-> In (Z.of_nat u, 1) (nth v nbs [])) /\
  let n := Z.of_nat (length nbs) in let m := num_edges_of nbs in let degs := map (fun nb => Z.of_nat (length nb)) nbs in
  let chunks := compute_chunks m degs in
  p_run c (fun l => l) nbs chunks (compressed_edge_array_max_size c false n (max_degree_of degs)) [0%nat; 0%nat]
    (p_init nbs chunks 1 (Z.to_nat (compressed_edge_array_max_size c true n m))) = None.
Proof. exact local_buffer_refuted. Qed.
Print Assumptions C25_local_buffer_refuted.
