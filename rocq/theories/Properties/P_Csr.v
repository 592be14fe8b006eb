(* C06, C14, C38, C39: the graph container, isolated nodes, the edge cut. *)
From Verif Require Import Lib.Prelude Spec.Graph Model.CsrModel Proofs.GraphFacts Proofs.CsrProofs Proofs.Decide.

(** C14: for every undirected graph, every assignment and every schedule of the parallel reduction,
    the reported cut is the total weight of the edges between different blocks, each counted once
    (as long as that number fits into the signed [bits]-bit result type). *)
Theorem C14_edge_cut_is_cut_weight : forall bits threads s g part,
  closed_graph g -> undirected g -> valid_schedule threads (gn g) s ->
  (- 2 ^ (bits - 1) <= cut_weight g part < 2 ^ (bits - 1))%Z ->
  edge_cut bits threads s (gadj g) part = Some (cut_weight g part).
Proof. exact edge_cut_correct. Qed.
Print Assumptions C14_edge_cut_is_cut_weight.

Definition path4 : graph :=
  user_graph [0; 1; 3; 5; 6] [1; 0; 2; 1; 3; 2] [] [3; 3; 4; 4; 5; 5]%Z.
Example C14_edge_cut_is_cut_weight_ex :
  closed_graph path4 /\ undirected path4 /\
  valid_schedule 2 (gn path4) [(1, [2; 3]); (0, [0; 1])] /\
  cut_weight path4 (fun u => if u <? 2 then 0 else 1) = 4%Z /\
  edge_cut 32 2 [(1, [2; 3]); (0, [0; 1])] (gadj path4) (fun u => if u <? 2 then 0 else 1) = Some 4%Z.
Proof.
  split; [|split; [|split; [split|split]]].
  - apply check_closed_ok; reflexivity.
  - apply check_undirected_ok; reflexivity.
  - intros t c [E|[E|[]]]; injection E as <- _; lia.
  - simpl. apply (Permutation_app_comm [2; 3] [0; 1]).
  - reflexivity.
  - reflexivity.
Qed.

(** C14: any two schedules (also with different thread counts) report the same value, on any input
    (also directed or weighted with negative weights), and so does the sequential version. *)
Theorem C14_edge_cut_schedule_independent : forall bits t1 s1 t2 s2 n adj part,
  valid_schedule t1 n s1 -> valid_schedule t2 n s2 ->
  edge_cut bits t1 s1 adj part = edge_cut bits t2 s2 adj part /\
  edge_cut bits t1 s1 adj part = edge_cut_seq bits n adj part.
Proof.
  exact (fun bits t1 s1 t2 s2 n adj part H1 H2 =>
    conj (eq_trans (edge_cut_par_seq bits t1 s1 n adj part H1) (eq_sym (edge_cut_par_seq bits t2 s2 n adj part H2)))
         (edge_cut_par_seq bits t1 s1 n adj part H1)).
Qed.
Print Assumptions C14_edge_cut_schedule_independent.

(** C38: for positive weights the graph object presents exactly the graph that the caller's arrays
    describe (borrowed or copied arrays). *)
Theorem C38_positive_weights_faithful : forall (borrowed : bool) xadj adjncy vwgt adjwgt sorted,
  wf_csr xadj adjncy vwgt adjwgt ->
  (forall x, In x vwgt -> (1 <= x)%Z) -> (forall x, In x adjwgt -> (1 <= x)%Z) ->
  same_graph
    (cg_graph (cg_make (if borrowed then sa_span xadj else sa_make xadj) adjncy
                       (if borrowed then sa_span vwgt else sa_make vwgt) adjwgt sorted))
    (user_graph xadj adjncy vwgt adjwgt).
Proof.
  exact (fun borrowed xadj adjncy vwgt adjwgt sorted Hwf Hv He =>
    cg_make_faithful (if borrowed then sa_span xadj else sa_make xadj) adjncy
      (if borrowed then sa_span vwgt else sa_make vwgt) adjwgt sorted xadj vwgt
      (if borrowed as b return full (if b then sa_span xadj else sa_make xadj) xadj
       then conj eq_refl eq_refl else conj eq_refl eq_refl)
      (if borrowed as b return full (if b then sa_span vwgt else sa_make vwgt) vwgt
       then conj eq_refl eq_refl else conj eq_refl eq_refl) Hwf Hv He).
Qed.
Print Assumptions C38_positive_weights_faithful.
Example C38_positive_weights_faithful_ex :
  wf_csr [0; 1; 2] [1; 0] [1; 5]%Z [7; 7]%Z /\
  gvw (cg_graph (cg_make (sa_make [0; 1; 2]) [1; 0] (sa_make [1; 5]%Z) [7; 7]%Z false)) 1 = 5%Z.
Proof.
  split; [|reflexivity]. apply check_wf_ok; reflexivity.
Qed.

(** C38 fails when zero weights are allowed: weights 0 and 2 sum up to the number of nodes, so the
    graph object reports unit weights for both nodes. *)
Theorem C38_zero_weights_refuted : exists xadj adjncy vwgt adjwgt,
  wf_csr xadj adjncy vwgt adjwgt /\ (forall x, In x vwgt -> (0 <= x)%Z) /\
  gvw (cg_graph (cg_make (sa_make xadj) adjncy (sa_make vwgt) adjwgt false)) 0
  <> gvw (user_graph xadj adjncy vwgt adjwgt) 0.
Proof.
  exists [0; 1; 2], [1; 0], [0; 2]%Z, []. split; [|split].
  - apply check_wf_ok; reflexivity.
  - intros x [<-|[<-|[]]]; lia.
  - vm_compute. discriminate.
Qed.
Print Assumptions C38_zero_weights_refuted.

(** C06: on a degree-sorted graph, removing the isolated nodes and integrating them again restores
    the graph object exactly (all fields), and reports the number of isolated nodes. *)
Theorem C06_remove_integrate_restores : forall xadj adjncy vwgt adjwgt perm n',
  wf_csr xadj adjncy vwgt adjwgt -> (N.of_nat (length adjncy) < 2 ^ 32)%N -> 0 < length xadj - 1 ->
  sorted_by_degree_class xadj n' ->
  let g := cg_set_permutation perm (cg_make (sa_make xadj) adjncy (sa_make vwgt) adjwgt true) in
  cg_integrate_isolated_nodes (cg_remove_isolated_nodes (count_isolated_nodes g) g)
  = (count_isolated_nodes g, g).
Proof. exact isolated_roundtrip. Qed.
Print Assumptions C06_remove_integrate_restores.

Definition ex_xadj := [0; 1; 2; 4; 4; 4].
Definition ex_adjncy := [2; 2; 0; 1].
Lemma ex_wf : wf_csr ex_xadj ex_adjncy [1; 2; 3; 4; 5]%Z [].
Proof. apply check_wf_ok; reflexivity. Qed.
Lemma ex_sorted : sorted_by_degree_class ex_xadj 3.
Proof. apply check_sorted_ok; reflexivity. Qed.
Example C06_remove_integrate_restores_ex :
  let g := cg_make (sa_make ex_xadj) ex_adjncy (sa_make [1; 2; 3; 4; 5]%Z) [] true in
  count_isolated_nodes g = 2 /\ cg_n (cg_remove_isolated_nodes 2 g) = 3 /\
  cg_total_node_weight (cg_remove_isolated_nodes 2 g) = 6%Z /\
  cg_integrate_isolated_nodes (cg_remove_isolated_nodes 2 g) = (2, g).
Proof. vm_compute. auto. Qed.

(** C06: between removal and integration, the partitioner sees exactly the subgraph of the
    non-isolated nodes, with the right total weight. *)
Theorem C06_removed_state_is_nonisolated_subgraph : forall xadj adjncy vwgt adjwgt perm n',
  wf_csr xadj adjncy vwgt adjwgt -> sorted_by_degree_class xadj n' ->
  (forall x, In x vwgt -> (1 <= x)%Z) -> (forall x, In x adjwgt -> (1 <= x)%Z) ->
  let g := cg_set_permutation perm (cg_make (sa_make xadj) adjncy (sa_make vwgt) adjwgt true) in
  let g' := cg_remove_isolated_nodes (count_isolated_nodes g) g in
  same_graph (cg_graph g') (prefix_graph n' (user_graph xadj adjncy vwgt adjwgt)) /\
  cg_total_node_weight g' = total_weight (prefix_graph n' (user_graph xadj adjncy vwgt adjwgt)).
Proof. exact removed_graph. Qed.
Print Assumptions C06_removed_state_is_nonisolated_subgraph.

(** C39: while the isolated nodes are removed, the bucket index of a degree-sorted graph puts a node
    into bucket b+1 if and only if its degree is in [2^b, 2^(b+1)). *)
Theorem C39_bucket_index : forall xadj adjncy vwgt adjwgt perm n' b u,
  wf_csr xadj adjncy vwgt adjwgt -> (N.of_nat (length adjncy) < 2 ^ 32)%N ->
  sorted_by_degree_class xadj n' -> b < 32 -> u < n' ->
  let g := cg_set_permutation perm (cg_make (sa_make xadj) adjncy (sa_make vwgt) adjwgt true) in
  let g' := cg_remove_isolated_nodes (count_isolated_nodes g) g in
  (nth (S b) (cg_buckets g') 0 <= u < nth (S (S b)) (cg_buckets g') 0
   <-> 2 ^ b <= cg_degree g' u < 2 ^ (S b)).
Proof. exact bucket_index_correct. Qed.
Print Assumptions C39_bucket_index.
Example C39_bucket_index_ex :
  let g := cg_make (sa_make ex_xadj) ex_adjncy (sa_make [1; 2; 3; 4; 5]%Z) [] true in
  let g' := cg_remove_isolated_nodes (count_isolated_nodes g) g in
  firstn 4 (cg_buckets g') = [0; 0; 2; 3] /\ cg_number_of_buckets g' = 3.
Proof. vm_compute. auto. Qed.

(** C39: the buckets cover all nodes: they start at 0, are monotone and the last one ends at n. *)
Theorem C39_bucket_index_covers : forall xadj adjncy vwgt adjwgt perm n',
  wf_csr xadj adjncy vwgt adjwgt -> (N.of_nat (length adjncy) < 2 ^ 32)%N ->
  sorted_by_degree_class xadj n' -> 0 < n' ->
  let g := cg_set_permutation perm (cg_make (sa_make xadj) adjncy (sa_make vwgt) adjwgt true) in
  let g' := cg_remove_isolated_nodes (count_isolated_nodes g) g in
  nth 0 (cg_buckets g') 0 = 0 /\ nth (cg_number_of_buckets g') (cg_buckets g') 0 = n' /\
  (forall i j, i <= j <= num_degree_buckets -> nth i (cg_buckets g') 0 <= nth j (cg_buckets g') 0).
Proof. exact bucket_index_bounds. Qed.
Print Assumptions C39_bucket_index_covers.

(** C39 fails while the isolated nodes are still present: they are stored last, but the index counts
    them in bucket 0, so it does not describe the node order. *)
Theorem C39_bucket_index_with_isolated_refuted : exists xadj adjncy n' u,
  wf_csr xadj adjncy [] [] /\ sorted_by_degree_class xadj n' /\ u < n' /\
  let g := cg_make (sa_make xadj) adjncy (sa_make []) [] true in
  nth 0 (cg_buckets g) 0 <= u < nth 1 (cg_buckets g) 0 /\ cg_degree g u = 1.
Proof.
  exists [0; 1; 2; 2], [1; 0], 2, 0. split; [|split; [|split]].
  - apply check_wf_ok; reflexivity.
  - apply check_sorted_ok; reflexivity.
  - lia.
  - vm_compute. split; auto.
Qed.
Print Assumptions C39_bucket_index_with_isolated_refuted.
