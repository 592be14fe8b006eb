(* C48: the multilevel hierarchy of initial bipartitioning. *)
From Verif Require Import Lib.Prelude Spec.Graph Spec.Quotient Spec.InitialCoarsenSpec Model.InitialCoarsenModel Proofs.InitialCoarsenTop
  Proofs.InitialCoarsenExamples.

(** C48. For every graph with positive edge weights whose node weights (and maximum cluster weight) are below half the range
    of the bit-field, every order of the nodes, every random bit and convergence test, and whatever an earlier call left in
    the arrays: coarsening ends without a violated precondition and builds a hierarchy in which every level is the quotient
    of the previous one, has fewer nodes, and merges nodes up to the maximum cluster weight only; it stops at the
    contraction limit or when converged; and nothing is left in the accumulators for the next call. *)
Theorem C48_initial_coarsening : forall bits limit env climit g co,
  (1 <= bits)%Z -> (limit < 2 ^ (bits - 1))%Z ->
  0 < gn g -> closed_graph g -> positive_edges g -> fits (2 ^ (bits - 1)) g -> idle co -> legal_env (gn g) env ->
  exists levels co', coarsen_loop bits limit (gn g) env climit 0 g (init_coarsener g co) = Some (levels, co') /\
    coarsening limit g levels /\
    (gn (coarsest g levels) <= climit \/
     exists c, c <= gn (coarsest g levels) /\ ce_converged env c (gn (coarsest g levels)) = true) /\
    idle co'.
Proof. intros bits limit env climit g co H1 H2. exact (initial_coarsening_ok bits limit H1 H2 env climit g co). Qed.
Print Assumptions C48_initial_coarsening.

(** A path of six nodes, clusters of weight at most 4, and a coarsener that was used for a graph of eight nodes before. *)
Example C48_ex :
  closed_graph path6 /\ positive_edges path6 /\ fits (2 ^ 29) path6 /\ idle used8 /\ legal_env 6 (env_of 6) /\
  exists levels co', coarsen_loop 30 4 6 (env_of 6) 1 0 path6 (init_coarsener path6 used8) = Some (levels, co') /\
    show_levels levels =
      [([0; 0; 1; 1; 2; 2], [[(1, 1%Z)]; [(0, 1%Z); (2, 1%Z)]; [(1, 1%Z)]], [2; 2; 2]%Z);
       ([0; 0; 1], [[(1, 1%Z)]; [(0, 1%Z)]], [4; 2]%Z)].
Proof. exact coarsening_example. Qed.

(** Finding: the weight of a cluster is stored in a signed bit-field of 30 bits (32-bit weights), although node weights and
    their total may be almost 2^31. A node that weighs 2^29 becomes a coarse node of negative weight. *)
Theorem C48_heavy_nodes_refuted :
  exists g limit env co levels co', closed_graph g /\ undirected g /\ positive_edges g /\ fits (2 ^ 31) g /\ (total_weight g < 2 ^ 31)%Z /\
    (0 < limit < 2 ^ 29)%Z /\ idle co /\ legal_env (gn g) env /\
    coarsen_loop 30 limit (gn g) env 1 0 g (init_coarsener g co) = Some (levels, co') /\
    exists mapping h rest c u, levels = (mapping, h) :: rest /\ u < gn g /\ nth u mapping 0 = c /\ (0 < gvw g u)%Z /\ (gvw h c < 0)%Z /\
      (total_weight h < 0)%Z.
Proof. exact heavy_refuted. Qed.
Print Assumptions C48_heavy_nodes_refuted.
