(* C46: the flat initial bipartitioners. *)
From Verif Require Import Lib.Prelude Spec.Graph Spec.InitialSpec Model.InitialFmModel Model.InitialFlatModel Proofs.InitialFlatTop Proofs.InitialExamples.

(** C46. Random assignment, breadth-first growing (with every rule for the next block) and greedy graph growing end for
    every graph, limits and random numbers without an access outside of an array, and return a block 0 or 1 for every
    node together with the exact weights of the two blocks. *)
Theorem C46_bipartition : forall g (limit perfect : nat -> Z) a, closed_graph g ->
  exists lab bw, flat_bipartition g limit perfect a = Some (lab, bw) /\ bipartition g lab bw.
Proof. intros g limit perfect a H. exact (flat_bipartition_ok g limit perfect H a). Qed.
Print Assumptions C46_bipartition.

(** Breadth-first growing exceeds no limit by the weight of the heaviest node or more if the nodes fit into both blocks
    together. In particular both limits are met if all nodes have weight 1. *)
Theorem C46_breadth_first_balance : forall g (limit perfect : nat -> Z) M st iters rnd lab bw, closed_graph g ->
  (forall v, v < gn g -> (0 <= gvw g v <= M)%Z) -> (0 < M)%Z -> (0 <= limit 0%nat)%Z -> (0 <= limit 1%nat)%Z ->
  (total_weight g <= limit 0%nat + limit 1%nat)%Z ->
  flat_bipartition g limit perfect (ABfs st iters rnd) = Some (lab, bw) ->
  forall b, b < 2 -> (block_weight g (fun u => nth u lab 0%nat) b < limit b + M)%Z.
Proof. intros g limit perfect M st iters rnd lab bw H. exact (bfs_balance g limit perfect H M st iters rnd lab bw). Qed.
Print Assumptions C46_breadth_first_balance.

(** The random assignment exceeds the perfectly balanced weights by at most half of the weight of the heaviest node. *)
Theorem C46_random_balance : forall g (limit perfect : nat -> Z) M rnd lab bw, closed_graph g ->
  (forall v, v < gn g -> (0 <= gvw g v <= M)%Z) -> (0 <= M)%Z -> (0 <= perfect 0%nat)%Z -> (0 <= perfect 1%nat)%Z ->
  (total_weight g <= perfect 0%nat + perfect 1%nat)%Z ->
  flat_bipartition g limit perfect (ARandom rnd) = Some (lab, bw) ->
  forall b, b < 2 -> (2 * (block_weight g (fun u => nth u lab 0%nat) b - perfect b) <= M)%Z.
Proof. intros g limit perfect M rnd lab bw H. exact (random_balance g limit perfect H M rnd lab bw). Qed.
Print Assumptions C46_random_balance.

(** Greedy graph growing stops with the first node that brings the second block to its perfectly balanced weight. *)
Theorem C46_greedy_growing_balance : forall g (limit perfect : nat -> Z) rnd lab bw, closed_graph g -> gn g <> 0 ->
  (forall v, v < gn g -> (0 <= gvw g v)%Z) -> (perfect 1%nat <= total_weight g)%Z ->
  flat_bipartition g limit perfect (AGgg rnd) = Some (lab, bw) ->
  (perfect 1%nat <= block_weight g (fun u => nth u lab 0%nat) 1)%Z /\
  exists u, u < gn g /\ nth u lab 0 = 1 /\
    ((block_weight g (fun u => nth u lab 0%nat) 1 - gvw g u < perfect 1%nat)%Z \/ forall v, v < gn g -> nth v lab 0 = 1 -> v = u).
Proof. intros g limit perfect rnd lab bw H. exact (ggg_balance g limit perfect H rnd lab bw). Qed.
Print Assumptions C46_greedy_growing_balance.

(** Finding: greedy graph growing does not grow a region along edges. Its visit of the neighbours v of a node u that was
    just moved to the second block tests the block of u where it should test the one of v, hence does nothing: the result
    is the same for all graphs with the same node weights. *)
Theorem C46_greedy_growing_ignores_edges : forall g1 g2 (limit perfect : nat -> Z) rnd, closed_graph g1 -> closed_graph g2 ->
  gn g1 = gn g2 -> (forall u, gvw g1 u = gvw g2 u) ->
  flat_bipartition g1 limit perfect (AGgg rnd) = flat_bipartition g2 limit perfect (AGgg rnd).
Proof. intros g1 g2 limit perfect rnd H1 H2 Hn Hw. exact (ggg_same g1 g2 limit perfect Hn Hw rnd H1 H2). Qed.
Print Assumptions C46_greedy_growing_ignores_edges.

(** In particular the second block of a connected graph need not be connected: it has several nodes, but one of them has
    no neighbour in it. *)
Theorem C46_greedy_growing_refuted :
  exists g limit perfect rnd lab bw, closed_graph g /\ undirected g /\
    (forall u v, u < gn g -> v < gn g -> exists p, walk g u p v) /\
    flat_bipartition g limit perfect (AGgg rnd) = Some (lab, bw) /\
    exists u, u < gn g /\ nth u lab 0 = 1 /\ (exists u', u' < gn g /\ u' <> u /\ nth u' lab 0 = 1) /\
      forall v w, In (v, w) (gadj g u) -> nth v lab 0 = 0.
Proof. exact growing_disconnected. Qed.
Print Assumptions C46_greedy_growing_refuted.

(** Path of four nodes with unit weights; limits 3 and 3, perfectly balanced weights 2 and 2. *)
Example C46_ex : closed_graph path4 /\
  flat_bipartition path4 limit2 perfect2 (ABfs alternating 1 (fun _ => (2, true))) = Some ([1; 0; 0; 0], [3; 1]%Z) /\
  flat_bipartition path4 limit2 perfect2 (ARandom (fun _ => true)) = Some ([1; 0; 1; 0], [2; 2]%Z) /\
  flat_bipartition path4 limit2 perfect2 (AGgg ends) = Some ([1; 0; 0; 1], [2; 2]%Z).
Proof. exact (conj path4_closed (conj bfs_example (conj random_example growing_example))). Qed.
