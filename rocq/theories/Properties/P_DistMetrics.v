(* C61: what the distributed partitioner reports about a partition. *)
From Verif Require Import Lib.Prelude Model.GridModel Model.DistGraphModel Model.DistMetricsModel Spec.Graph Spec.DistGraphSpec
  Proofs.DistMetricsProofs Proofs.DistExamples.

(** [d]: the graphs of the ranks; [parts]: their copies of the partition [part] (see C60_ghost_values). The reported cut is the weight
    of the cut edges of the whole graph, each counted once. *)
Theorem C61_edge_cut P G dist d parts part :
  distribution P (gn G) dist ->
  (forall r, r < P -> local_view G dist r (dn (d r)) (dghost_n (d r)) (dlocal_to_global (d r)) (dglobal_to_local (d r)) (dghost_owner (d r)) (dcontains (d r)) (dadj (d r))) ->
  (forall r l g, r < P -> dlocal_to_global (d r) l = Some g -> nth_error (parts r) l = Some (part g)) ->
  closed_graph G -> undirected G ->
  dist_edge_cut (map d (seq 0 P)) (map parts (seq 0 P)) = Some (cut_weight G part).
Proof. exact (fun a b c => dist_cut_ok P G dist a d b parts part c). Qed.
Print Assumptions C61_edge_cut.
(** What compute_partition returns is that cut if it fits into the type of local edge weights. *)
Theorem C61_returned_cut_partial P G dist d parts part bits :
  distribution P (gn G) dist ->
  (forall r, r < P -> local_view G dist r (dn (d r)) (dghost_n (d r)) (dlocal_to_global (d r)) (dglobal_to_local (d r)) (dghost_owner (d r)) (dcontains (d r)) (dadj (d r))) ->
  (forall r l g, r < P -> dlocal_to_global (d r) l = Some g -> nth_error (parts r) l = Some (part g)) ->
  closed_graph G -> undirected G -> (0 < bits)%Z ->
  reported_cut bits (map d (seq 0 P)) (map parts (seq 0 P)) = Some (narrow bits (cut_weight G part)) /\
  ((0 <= cut_weight G part < 2 ^ (bits - 1))%Z -> reported_cut bits (map d (seq 0 P)) (map parts (seq 0 P)) = Some (cut_weight G part)).
Proof. exact (fun a b c => reported_cut_ok P G dist a d b parts part c bits). Qed.
Print Assumptions C61_returned_cut_partial.
Example C61_cut_example : undirected x_graph /\ (forall r l g, r < 3 -> dlocal_to_global (x_dcsr r) l = Some g -> nth_error (x_parts r) l = Some (x_part g)) /\
  dist_edge_cut (map x_dcsr (seq 0 3)) (map x_parts (seq 0 3)) = Some 7%Z.
Proof. exact (conj x_undirected (conj x_parts_ok eq_refl)). Qed.
(** Otherwise it is wrong, and may be negative. *)
Theorem C61_returned_cut_refuted : distribution 4 (gn z_graph) z_dist /\ closed_graph z_graph /\ undirected z_graph /\ weights_fit 32 z_graph /\
  (forall r, r < 4 -> rank_arrays z_graph z_dist r [0; 1] [z_other r] [] [z_w] /\ import_outcome 32 z_dist z_edist r [0; 1] [z_other r] [] [z_w] (z_dcsr r)) /\
  (forall r l g, r < 4 -> dlocal_to_global (z_dcsr r) l = Some g -> nth_error (z_parts r) l = Some (z_part g)) /\
  cut_weight z_graph z_part = 3221225472%Z /\ dist_edge_cut (map z_dcsr (seq 0 4)) (map z_parts (seq 0 4)) = Some 3221225472%Z /\
  reported_cut 32 (map z_dcsr (seq 0 4)) (map z_parts (seq 0 4)) = Some (-1073741824)%Z.
Proof. exact large_cut. Qed.
Print Assumptions C61_returned_cut_refuted.

(** The block weights are those of the whole graph. *)
Theorem C61_block_weights P G dist d parts part k :
  distribution P (gn G) dist ->
  (forall r, r < P -> local_view G dist r (dn (d r)) (dghost_n (d r)) (dlocal_to_global (d r)) (dglobal_to_local (d r)) (dghost_owner (d r)) (dcontains (d r)) (dadj (d r))) ->
  (forall r l g, r < P -> dlocal_to_global (d r) l = Some g -> nth_error (parts r) l = Some (part g)) ->
  (forall r u, r < P -> u < dn (d r) -> dnode_weight (dc_nw (d r)) u = Some (gvw G (nth r dist 0 + u))) ->
  (forall g, g < gn G -> part g < k) ->
  exists bw, dist_block_weights k (map d (seq 0 P)) (map parts (seq 0 P)) = Some bw /\ length bw = k /\ forall b, b < k -> nth b bw 0%Z = block_weight G part b.
Proof. exact (fun a b c e => dist_block_weights_ok P G dist a d b parts part c e k). Qed.
Print Assumptions C61_block_weights.
Example C61_block_weights_example : dist_block_weights 2 (map x_dcsr (seq 0 3)) (map x_parts (seq 0 3)) = Some [30; 70]%Z.
Proof. reflexivity. Qed.
(** A partition is reported as feasible exactly if no block exceeds its limit. *)
Theorem C61_feasible bw mx : length bw = length mx -> (is_feasible bw mx = true <-> forall b, b < length bw -> (nth b bw 0 <= nth b mx 0)%Z).
Proof. exact (feasible_ok bw mx). Qed.
Print Assumptions C61_feasible.

(** Every rank writes the blocks of its own nodes, in order, into the caller's array. *)
Theorem C61_written_partition P G dist d parts part r :
  (forall r, r < P -> local_view G dist r (dn (d r)) (dghost_n (d r)) (dlocal_to_global (d r)) (dglobal_to_local (d r)) (dghost_owner (d r)) (dcontains (d r)) (dadj (d r))) ->
  (forall r l g, r < P -> dlocal_to_global (d r) l = Some g -> nth_error (parts r) l = Some (part g)) -> r < P ->
  written_partition (d r) (parts r) = Some (map (fun u => part (nth r dist 0 + u)) (seq 0 (nth (S r) dist 0 - nth r dist 0))).
Proof. exact (fun b c => written_ok P G dist d b parts part c r). Qed.
Print Assumptions C61_written_partition.

(** The total node weight, if the total of every rank fits into the type of local weights. *)
Theorem C61_total_weight_partial P G dist d bits :
  distribution P (gn G) dist ->
  (forall r, r < P -> local_view G dist r (dn (d r)) (dghost_n (d r)) (dlocal_to_global (d r)) (dglobal_to_local (d r)) (dghost_owner (d r)) (dcontains (d r)) (dadj (d r))) ->
  (forall r u, r < P -> u < dn (d r) -> dnode_weight (dc_nw (d r)) u = Some (gvw G (nth r dist 0 + u))) ->
  (forall r, r < P -> dc_nw (d r) = [] \/ Z.lt (zsum (map (fun u => gvw G (nth r dist 0 + u)) (seq 0 (dn (d r))))) (2 ^ (bits - 1))%Z) ->
  global_total (local_total_node_weight bits) (map d (seq 0 P)) = Some (total_weight G).
Proof. exact (fun a b e => total_weight_ok P G dist a d b e bits). Qed.
Print Assumptions C61_total_weight_partial.
Example C61_total_weight_example : global_total (local_total_node_weight 32) (map x_dcsr (seq 0 3)) = Some 100%Z /\ global_max local_max_node_weight (map x_dcsr (seq 0 3)) = Some 40%Z.
Proof. exact (conj eq_refl eq_refl). Qed.
(** Otherwise a 32-bit sum overflows although every single weight fits and the result is a 64-bit number. *)
Theorem C61_total_weight_refuted : exists G dist xadj adj vw aw d, distribution 1 (gn G) dist /\ closed_graph G /\ weights_fit 32 G /\
  rank_arrays G dist 0 xadj adj vw aw /\ import_outcome 32 dist [0; 0] 0 xadj adj vw aw d /\
  total_weight G = 3221225472%Z /\ global_total (local_total_node_weight 32) [d] = None.
Proof. exact large_total. Qed.
Print Assumptions C61_total_weight_refuted.

(** The maximum node weight, for positive weights, also if some ranks have no nodes. *)
Theorem C61_max_weight P G dist d :
  distribution P (gn G) dist ->
  (forall r, r < P -> local_view G dist r (dn (d r)) (dghost_n (d r)) (dlocal_to_global (d r)) (dglobal_to_local (d r)) (dghost_owner (d r)) (dcontains (d r)) (dadj (d r))) ->
  (forall r u, r < P -> u < dn (d r) -> dnode_weight (dc_nw (d r)) u = Some (gvw G (nth r dist 0 + u))) ->
  0 < gn G -> (forall g, g < gn G -> (1 <= gvw G g)%Z) -> (forall r, r < P -> dc_nw (d r) <> [] -> 0 < dn (d r)) ->
  exists m, global_max local_max_node_weight (map d (seq 0 P)) = Some m /\ (forall g, g < gn G -> (gvw G g <= m)%Z) /\ exists g, g < gn G /\ gvw G g = m.
Proof. exact (fun a b e => max_weight_ok P G dist a d b e). Qed.
Print Assumptions C61_max_weight.
