(* C12: unbuffered contraction (the default algorithm). *)
From Verif Require Import Lib.Prelude Spec.Graph Spec.Quotient Model.ContractModel Model.UnbufModel
  Proofs.ContractExamples Proofs.UnbufFinish Proofs.UnbufExamples.

(** C12. Unbuffered contraction in one or two phases: for every graph with positive edge weights, every clustering,
    every number of threads [T], buffer capacities, map size [ms] and second-phase threshold [thr] <= [ms], every
    hash function and every interleaving of the threads' steps ([evs], [sched]): if the interleaving is one that
    the algorithm can take and runs to completion (otherwise [Bad]), then no store is out of bounds, no
    uninitialised cell is read ([Ub]), the CSR arrays are the quotient graph of the returned mapping, and the
    mapping numbers the clusters. *)
Theorem C12_unbuffered_contraction_quotient : forall MAXN MAXE T ms thr hash g clustering order0 order1 order2 garbage single evs sched,
  0 < thr -> thr <= ms -> 0 < gn g -> closed_graph g -> positive_edges g -> (forall u, u < gn g -> nth u clustering 0 < gn g) ->
  Permutation order0 (seq 0 (gn g)) -> Permutation order1 (seq 0 (gn g)) -> Permutation order2 (seq 0 (gn g)) -> length garbage = gn g ->
  contract_clustering_unbuffered MAXN MAXE T ms thr hash g clustering order0 order1 order2 garbage single evs sched = Bad \/
  exists mapping nodes edges nw ew,
    contract_clustering_unbuffered MAXN MAXE T ms thr hash g clustering order0 order1 order2 garbage single evs sched
      = Ok (mapping, (nodes, edges, nw, ew)) /\
    is_quotient g (fun u => nth u mapping 0) (user_graph nodes edges nw ew) /\
    length mapping = gn g /\
    numbers_clusters (gn g) (gn (user_graph nodes edges nw ew)) (fun u => nth u clustering 0) (fun u => nth u mapping 0).
Proof. exact unbuffered_quotient. Qed.
Print Assumptions C12_unbuffered_contraction_quotient.

Example C12_unbuffered_ex1 :
  valid_inputs ex_graph ex_clustering [3; 1; 0; 2] [2; 0; 3; 1] [1; 0; 2; 3] (repeat 9 4) (repeat 7 10) (repeat 5%Z 10) /\
  contract_clustering_unbuffered 2 8 2 4 3 (fun x => x) ex_graph ex_clustering [3; 1; 0; 2] [2; 0; 3; 1] [1; 0; 2; 3]
    (repeat 9 4) false ex_evs1 (fun _ => ([], []))
  = Ok ([2; 2; 1; 0], ([0; 2; 4; 6], [1; 2; 2; 0; 1; 0], [4; 3; 3]%Z, [3; 4; 7; 3; 7; 4]%Z)).
Proof. exact (conj ex_inputs ex_unbuf1). Qed.
Example C12_unbuffered_ex2 :
  contract_clustering_unbuffered 2 8 2 4 2 (fun x => x) ex_graph ex_clustering [3; 1; 0; 2] [2; 0; 3; 1] [1; 0; 2; 3]
    (repeat 9 4) false ex_evs2 ex_sched2
  = Ok ([2; 2; 1; 0], ([0; 2; 4; 6], [1; 2; 2; 0; 0; 1], [4; 3; 3]%Z, [3; 4; 7; 3; 4; 7]%Z)).
Proof. exact ex_unbuf2. Qed.
