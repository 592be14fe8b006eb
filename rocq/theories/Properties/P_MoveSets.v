(* C71: the move sets of the cluster balancer. *)
From Verif Require Import Lib.Prelude Model.DistGraphModel Model.HemModel Model.MoveSetModel Model.MoveSetGreedyModel Spec.MoveSetSpec Proofs.MoveSetFinal Proofs.MoveSetGreedy.

(** The strategies build disjoint, non-empty sets, each inside one block, that cover exactly the nodes of overloaded blocks, and the connection of every
    set to every block is exact. Missing: clusters with nodes of two blocks (false, see the refuted theorems), the strategy greedy-batch-prefix (false, see C71_greedy_refuted), overflow. *)
Theorem C71_sets_partial d k over blk s : rank_graph (dn d) (dghost_n d) (row d) -> valid_blocks d k blk -> built d k over blk s ->
  exact_sets d k s blk /\ forall u, u < dn d -> ((exists l, In l (set_list s) /\ In u l) <-> over (nth u blk 0) = true).
Proof. exact (fun a b c => built_exact d k over blk s a b c). Qed.
Print Assumptions C71_sets_partial.

(** Whatever sets of the rank and ghosts are moved wherever and in whatever order: the sets stay the same, the partition is what the moves say, the connections
    stay exact, and the gain of a move of a set is exactly the weight by which the cut edges of its nodes decrease. *)
Theorem C71_moves_partial d k over blk s ms : rank_graph (dn d) (dghost_n d) (row d) -> valid_blocks d k blk -> built d k over blk s ->
  (forall m, In m ms -> allowed_move d k s m) -> let r := perform_all d k ms (s, blk) in
  set_list (fst r) = set_list s /\ exact_sets d k (fst r) (snd r) /\ valid_blocks d k (snd r) /\
  (forall v, v < dn d + dghost_n d -> nth v (snd r) 0 = fold_left (block_after (set_list s)) ms (fun u => nth u blk 0) v) /\
  (forall c to, c < length (set_list s) -> to < k ->
    gain k (fst r) (snd r) c to = (cut_of (row d) (fun u => nth u (snd r) 0%nat) (nth c (set_list s) []) - cut_of (row d) (moved (nth c (set_list s) []) to (fun u => nth u (snd r) 0%nat)) (nth c (set_list s) []))%Z).
Proof. exact (fun a b c => moves_exact d k over blk s a b c ms). Qed.
Print Assumptions C71_moves_partial.
Example C71_example : rank_graph (dn y_d) (dghost_n y_d) (row y_d) /\ valid_blocks y_d 3 y_blk /\ built y_d 3 y_over y_blk y_s /\ built y_d 3 y_over y_blk y_single /\
  set_list y_s = [[0; 1]; [2]] /\ map (conn 3 y_s 0) [0; 1; 2] = [0; 7; 0]%Z /\ (forall m, In m [Ghost 3 0; OwnSet 0 2; Ghost 4 1; OwnSet 1 0] -> allowed_move y_d 3 y_s m) /\
  map (conn 3 (fst (perform_all y_d 3 [Ghost 3 0; OwnSet 0 2; Ghost 4 1; OwnSet 1 0] (y_s, y_blk))) 0) [0; 1; 2] = [7; 0; 0]%Z.
Proof. exact (conj y_graph (conj y_valid (conj y_built (conj y_built_single y_values)))). Qed.

(** build_local_clusters calls the clusterer without the partition: adjacent nodes of different overloaded blocks that are clustered become one set. *)
Theorem C71_two_blocks_refuted : exists d k over blk cl junk b s, rank_graph (dn d) (dghost_n d) (row d) /\ valid_blocks d k blk /\ own_clusters d over blk cl /\ memory d junk /\
  local_sets d k over blk cl junk = Some b /\ constructed d b s /\ exists l u v, In l (set_list s) /\ In u l /\ In v l /\ nth u blk 0 <> nth v blk 0.
Proof. exact two_blocks_spoil. Qed.
Print Assumptions C71_two_blocks_refuted.

(** If a node of an overloaded block is clustered with one of a block that is not overloaded, the edge between them is missing in the connections: gains are wrong. *)
Theorem C71_gain_refuted : exists d k over blk cl junk b s, rank_graph (dn d) (dghost_n d) (row d) /\ valid_blocks d k blk /\ own_clusters d over blk cl /\ memory d junk /\
  local_sets d k over blk cl junk = Some b /\ constructed d b s /\ exists c to, set_list s = [[0]; [1]] /\ c < 2 /\ to < k /\
    gain k s blk c to <> (cut_of (row d) (fun u => nth u blk 0%nat) (nth c (set_list s) []) - cut_of (row d) (moved (nth c (set_list s) []) to (fun u => nth u blk 0%nat)) (nth c (set_list s) []))%Z.
Proof. exact other_block_spoils. Qed.
Print Assumptions C71_gain_refuted.

(** On a rank without nodes, build_local_clusters reads the last element of an empty vector. *)
Theorem C71_empty_rank_refuted : exists d k blk, rank_graph (dn d) (dghost_n d) (row d) /\ valid_blocks d k blk /\ forall over cl junk, memory d junk -> local_sets d k over blk cl junk = None.
Proof. exact no_nodes_spoil. Qed.
Print Assumptions C71_empty_rank_refuted.

(** The strategy greedy-batch-prefix does not release the first node that it drops from a set: the node of an overloaded block is in no set, but marked as if it
    were, and the edges of the set to it are missing in the gains. (The stopping policy cannot stop before ln(n) steps, n > 2.) *)
Theorem C71_greedy_refuted : exists d k blk bw lim maxw, rank_graph (dn d) (dghost_n d) (row d) /\ valid_blocks d k blk /\ 2 < dn d /\
  forall stop, (forall c steps, steps <= 1 -> stop c steps = false) -> forall nodes0 idx0 conn0, length nodes0 = dn d -> length idx0 = dn d + 1 -> length conn0 = dn d * k ->
  exists b, greedy_sets d k blk bw lim maxw stop (nodes0, idx0, conn0) = Some b /\ (exists s, constructed d b s) /\ forall s, constructed d b s ->
    (exists u, u < dn d /\ (nth (nth u blk 0%nat) lim 0 < nth (nth u blk 0%nat) bw 0)%Z /\ nth u (ms_of s) None = Some 0 /\ forall l, In l (set_list s) -> ~ In u l) /\
    (exists to, to < k /\ gain k s blk 0 to <> (cut_of (row d) (fun u => nth u blk 0%nat) (nth 0 (set_list s) []) - cut_of (row d) (moved (nth 0 (set_list s) []) to (fun u => nth u blk 0%nat)) (nth 0 (set_list s) []))%Z).
Proof. exact greedy_spoils. Qed.
Print Assumptions C71_greedy_refuted.
