(* C63: copies of a distributed graph for all ranks or for groups of ranks, and the choice of the best partition. *)
From Verif Require Import Lib.Prelude Model.GridModel Model.DistGraphModel Model.ReplicateModel Spec.Graph Spec.DistGraphSpec Spec.ReplicateSpec
  Proofs.ReplicateBest Proofs.ReplicateTheorems Proofs.ReplicateExamples.

(** For the initial partitioning every rank gets the whole graph, and all ranks get the same one, however the loop over its nodes is split
    among the threads. *)
Theorem C63_replicated_graph P G dist edist d :
  distributed P G dist edist d -> weights_everywhere P d -> closed_graph G ->
  exists c, wf_csr (cs_nodes c) (cs_edges c) (cs_nw c) (cs_ew c) /\ same_graph (user_graph (cs_nodes c) (cs_edges c) (cs_nw c) (cs_ew c)) G /\
    forall r chunks, r < P -> ranges_of (gn G) chunks -> replicate_everywhere (map d (seq 0 P)) r chunks = Some c.
Proof. exact (everywhere_correct P G dist edist d). Qed.
Print Assumptions C63_replicated_graph.

(** Every rank has computed a partition of the whole graph; the cuts (C14_edge_cut_is_cut_weight) fit into the integer type of the edge
    weights. All ranks then use the same partition, which is one with the smallest cut, for their own nodes and their ghosts. *)
Theorem C63_best_partition P G dist edist d bits parts :
  distributed P G dist edist d -> 0 < P -> (forall r, r < P -> length (parts r) = gn G) ->
  (forall r, r < P -> (- 2 ^ (bits - 1) <= cut_weight G (fun u => nth u (parts r) 0%nat) < 2 ^ (bits - 1))%Z) ->
  exists b, b < P /\ (forall r, r < P -> (cut_weight G (fun u => nth u (parts b) 0%nat) <= cut_weight G (fun u => nth u (parts r) 0%nat))%Z) /\
    forall r, r < P -> exists blocks,
      best_partition bits (map (fun q => cut_weight G (fun u => nth u (parts q) 0)) (seq 0 P)) (map parts (seq 0 P)) (d r) = Some blocks /\
      length blocks = dn (d r) + dghost_n (d r) /\ forall l g, dlocal_to_global (d r) l = Some g -> nth_error blocks l = nth_error (parts b) g /\ g < gn G.
Proof. exact (fun a => best_correct P G dist edist d a bits parts). Qed.
Print Assumptions C63_best_partition.

(** [R] groups of [Q] ranks each: after the replication every group holds the whole graph, distributed among its ranks. *)
Theorem C63_groups_hold_graph P R Q G dist edist d wglobal wlocal d' :
  0 < R -> P = R * Q -> distributed P G dist edist d -> weights_everywhere P d -> closed_graph G ->
  (forall r, r < P -> replicate_outcome P R (map d (seq 0 P)) wglobal wlocal r (d' r)) ->
  forall c, c < R -> distributed Q G (new_distribution P R Q dist) (new_distribution P R Q edist) (fun q => d' (q * R + c)) /\
    weights_everywhere Q (fun q => d' (q * R + c)).
Proof. exact (fun a b x y c e => groups_correct P R Q a b G dist edist d x y wglobal wlocal d' c e). Qed.
Print Assumptions C63_groups_hold_graph.

(** There is a result: nothing fails, and the loop over the edges ends for every interleaving. *)
Theorem C63_groups_complete P R Q G dist edist d wglobal wlocal r :
  0 < R -> P = R * Q -> distributed P G dist edist d -> weights_everywhere P d -> closed_graph G -> r < P ->
  exists data, all_data P R (map d (seq 0 P)) wglobal wlocal r = Some data /\
  let adj := snd (fst data) in let a := nth (r / R) (new_distribution P R Q dist) 0 in let b := nth (S (r / R)) (new_distribution P R Q dist) 0 in
  forall junk sched s, length junk = length adj -> import_run a b adj sched (import_start a b adj junk) = Some s ->
    length sched <= 3 * length adj /\
    ((exists e s', import_step a b adj e s = Some s') \/
     forall order, Permutation order (entries (im_map s)) -> exists d', replicate_outcome P R (map d (seq 0 P)) wglobal wlocal r d' /\ dc_edges d' = im_edges s).
Proof. exact (fun a b x y c e => groups_complete P R Q a b G dist edist d x y wglobal wlocal r c e). Qed.
Print Assumptions C63_groups_complete.

(** [blocks c]: the partition of group c, of which its ranks have the blocks of their own nodes. One with the smallest cut (the ranks of a
    group have computed its cut, C61_edge_cut) goes back to the original distribution of the nodes, and all ranks agree on it. *)
Theorem C63_best_of_groups P R Q G dist edist d blocks parts :
  0 < R -> P = R * Q -> distributed P G dist edist d -> closed_graph G -> symmetric_adjacency G ->
  let dist' := new_distribution P R Q dist in
  (forall r, r < P -> nth (S (r / R)) dist' 0 - nth (r / R) dist' 0 <= length (parts r) /\
     forall u, u < nth (S (r / R)) dist' 0 - nth (r / R) dist' 0 -> nth_error (parts r) u = Some (blocks (r mod R) (nth (r / R) dist' 0 + u))) ->
  exists c, c < R /\ (forall c', c' < R -> (cut_weight G (blocks c) <= cut_weight G (blocks c'))%Z) /\
    exists own, (forall r, r < P -> scatter_best P R (fun r => cut_weight G (blocks (r mod R))) parts dist r = Some (own r) /\ length (own r) = dn (d r)) /\
    forall fresh threads bufs, (forall r, r < P -> length (fresh r) = dghost_n (d r)) -> (forall r, r < P -> 0 < threads r) ->
      (forall r, r < P -> buffers_outcome P (d r) (fun u => u) (fun _ _ => true) (value_message (own r ++ fresh r) 0) (threads r) 0 (dn (d r)) (bufs r)) ->
      forall r msgs, r < P -> Permutation msgs (inbox P bufs r) ->
      exists arr, receive_values (d r) (own r ++ fresh r) msgs = Some arr /\ length arr = dn (d r) + dghost_n (d r) /\
        forall l g, dlocal_to_global (d r) l = Some g -> nth_error arr l = Some (blocks c g).
Proof. exact (scatter_everywhere P R Q G dist edist d blocks parts). Qed.
Print Assumptions C63_best_of_groups.

(** Four ranks with one node each, two groups of two ranks. *)
Example C63_example : distributed 4 v_graph (z_dist 4) (z_edist 4) v_dcsr /\ weights_everywhere 4 v_dcsr /\ closed_graph v_graph /\ symmetric_adjacency v_graph /\
  ranges_of 4 [(2, 2); (0, 2)] /\
  replicate_everywhere (map v_dcsr (seq 0 4)) 2 [(2, 2); (0, 2)] = Some (Csr [0; 2; 4; 6; 8] [3; 1; 0; 2; 1; 3; 2; 0] [10; 20; 30; 40]%Z [4; 1; 1; 2; 2; 3; 3; 4]%Z) /\
  best_partition 32 [6; 4; 8; 4]%Z [[0; 0; 1; 1]; [0; 1; 1; 0]; [0; 1; 0; 1]; [1; 0; 0; 1]] (v_dcsr 2) = Some [1; 1; 0] /\
  (forall r, r < 4 -> replicate_outcome 4 2 (map v_dcsr (seq 0 4)) 64 32 r (v_out r)) /\
  (dn (v_out 3) = 2 /\ dghost_n (v_out 3) = 2 /\ map (dlocal_to_global (v_out 3)) [0; 1; 2; 3] = [Some 2; Some 3; Some 1; Some 0] /\ dadj (v_out 3) 0 = Some [(2, 2%Z); (1, 3%Z)]) /\
  map (fun c => cut_weight v_graph (v_blocks c)) [0; 1] = [6; 4]%Z /\
  map (scatter_best 4 2 (fun r => cut_weight v_graph (v_blocks (r mod 2))) v_parts (z_dist 4)) [0; 1; 2; 3] = [Some [0]; Some [1]; Some [1]; Some [0]].
Proof. exact (conj v_distributed (conj v_weights (conj v_closed (conj v_symmetric (conj v_ranges (conj v_everywhere (conj v_best (conj v_groups (conj v_out_rank3 v_scatter))))))))). Qed.

(** If the number of ranks is not a multiple of the number of groups, the replication does not work: the last rank sends its edges as 64-bit
    integers and its edge weights (none in an unweighted graph) to a rank that expects 32-bit integers and one weight per edge; and the
    ranks disagree on the number of groups when the best partition is distributed. Witness: five ranks, two groups. *)
Theorem C63_uneven_groups_refuted : exists P R G dist edist d r, 0 < R /\ R < P /\ r < P /\ distributed P G dist edist d /\ weights_everywhere P d /\ closed_graph G /\ undirected G /\
  (forall wglobal wlocal d', ~ replicate_outcome P R (map d (seq 0 P)) wglobal wlocal r d') /\
  exists cuts parts q, q < P /\ scatter_best P R cuts parts dist q = None.
Proof. exact uneven_groups. Qed.
Print Assumptions C63_uneven_groups_refuted.

(** All weights fit into 32 bits, but the cut of a partition does not: the program aborts. *)
Theorem C63_large_cut_refuted : exists G part, closed_graph G /\ undirected G /\ weights_fit 32 G /\ length part = gn G /\
  forall d, best_partition 32 [cut_weight G (fun u => nth u part 0)] [part] d = None.
Proof. exact large_cut. Qed.
Print Assumptions C63_large_cut_refuted.
