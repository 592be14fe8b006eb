(* C64: reordering of a distributed graph before partitioning; the caller gets blocks in their own order. *)
From Verif Require Import Lib.Prelude Model.GridModel Model.DistGraphModel Model.DistMetricsModel Model.RearrangeModel Spec.Graph Spec.DistGraphSpec Spec.ReplicateSpec Spec.RearrangeSpec
  Proofs.RearrangeChunks Proofs.RearrangeFinal Proofs.RearrangeExamples.

(** Sorted by degree, whatever the threads do and in whatever order the messages arrive: the ranks together hold the same graph, renamed by
    [f]; every node stays on its rank; [f] is the permutation that the ranks remember; the nodes of every rank are in order of their degree
    classes. *)
Theorem C64_degree_sorted P G dist edist d o2n n2o d' :
  distributed P G dist edist d -> closed_graph G -> symmetric_adjacency G -> room_for_ghosts P d -> degrees_fit P d ->
  order_outcome P d DegreeBuckets o2n n2o -> rearrange_outcome P d o2n n2o d' ->
  exists f G', isomorphic_by f G G' /\ closed_graph G' /\ symmetric_adjacency G' /\ keeps_ranks P dist f /\ distributed P G' dist edist d' /\
    (forall r u, r < P -> u < dn (d r) -> f (nth r dist 0 + u) = nth r dist 0 + nth u (o2n r) 0) /\
    room_for_ghosts P d' /\ (weights_everywhere P d -> weights_everywhere P d') /\ (ghost_weights P G d -> ghost_weights P G' d') /\
    forall r u v, r < P -> u <= v -> v < dn (d' r) -> degree_class (degree_of (dc_nodes (d' r)) u) <= degree_class (degree_of (dc_nodes (d' r)) v).
Proof. exact (degree_sorted P G dist edist d o2n n2o d'). Qed.
Print Assumptions C64_degree_sorted.
Example C64_degree_example : distributed 2 w_graph w_dist w_edist w_dcsr /\ room_for_ghosts 2 w_dcsr /\ degrees_fit 2 w_dcsr /\
  order_outcome 2 w_dcsr DegreeBuckets w_o2n w_n2o /\ rearrange_outcome 2 w_dcsr w_o2n w_n2o w_new /\ dadj (w_new 0) 2 = Some [(4, 5%Z); (3, 4%Z); (1, 3%Z); (0, 2%Z)].
Proof. exact (conj w_distributed (conj w_room (conj w_degrees (conj w_order (conj w_rearrange (proj1 w_result)))))). Qed.

(** Sorted by colour ([c]: the colours of the nodes): the same, and every colour class is a range of nodes on every rank. If neighbours have
    different colours then no two nodes of a class are adjacent, on whatever ranks they are. *)
Theorem C64_color_sorted P G dist edist d col c colors o1 o2 s d' :
  distributed P G dist edist d -> closed_graph G -> symmetric_adjacency G -> room_for_ghosts P d ->
  (forall r, r < P -> length (col r) = dn (d r) + dghost_n (d r)) ->
  (forall r l g, r < P -> dlocal_to_global (d r) l = Some g -> nth l (col r) 0 = c g) ->
  num_colors (map col (seq 0 P)) = Some colors ->
  (forall r, r < P -> Permutation (o1 r) (seq 0 (dn (d r))) /\ Permutation (o2 r) (seq 0 (dn (d r))) /\ color_order colors (dn (d r)) (col r) (o1 r) (o2 r) = Some (s r)) ->
  rearrange_outcome P d (fun r => pl_o2n (s r)) (fun r => pl_n2o (s r)) d' ->
  exists f G', isomorphic_by f G G' /\ closed_graph G' /\ symmetric_adjacency G' /\ keeps_ranks P dist f /\ distributed P G' dist edist d' /\
    (forall r u, r < P -> u < dn (d r) -> f (nth r dist 0 + u) = nth r dist 0 + nth u (pl_o2n (s r)) 0) /\
    (forall r, r < P -> length (pl_sizes (s r)) = colors + 1 /\ nth 0 (pl_sizes (s r)) 0 = 0 /\ nth colors (pl_sizes (s r)) 0 = dn (d' r) /\
       forall a, a < colors -> nth a (pl_sizes (s r)) 0 <= nth (S a) (pl_sizes (s r)) 0) /\
    (forall r g, r < P -> owns dist r g -> c g < colors /\ nth (c g) (pl_sizes (s r)) 0 <= f g - nth r dist 0 < nth (S (c g)) (pl_sizes (s r)) 0) /\
    ((forall g h w, g < gn G -> In (h, w) (gadj G g) -> c g <> c h) ->
     forall a r q u v w, a < colors -> r < P -> q < P -> nth a (pl_sizes (s r)) 0 <= u < nth (S a) (pl_sizes (s r)) 0 -> nth a (pl_sizes (s q)) 0 <= v < nth (S a) (pl_sizes (s q)) 0 ->
       ~ In (nth q dist 0 + v, w) (gadj G' (nth r dist 0 + u))).
Proof. exact (color_sorted P G dist edist d col c colors o1 o2 s d'). Qed.
Print Assumptions C64_color_sorted.
Example C64_color_example : (forall r, r < 2 -> length (w_col r) = dn (w_dcsr r) + dghost_n (w_dcsr r)) /\
  (forall r l g, r < 2 -> dlocal_to_global (w_dcsr r) l = Some g -> nth l (w_col r) 0 = w_color g) /\ num_colors (map w_col (seq 0 2)) = Some 3 /\
  (forall r, r < 2 -> Permutation (w_order1 r) (seq 0 (dn (w_dcsr r))) /\ Permutation (w_order2 r) (seq 0 (dn (w_dcsr r))) /\
     color_order 3 (dn (w_dcsr r)) (w_col r) (w_order1 r) (w_order2 r) = Some (w_placed r)) /\
  (forall g h w, g < gn w_graph -> In (h, w) (gadj w_graph g) -> w_color g <> w_color h).
Proof. exact w_colors. Qed.
(** If a rank has no nodes, sorting by colour reads the largest element of an empty array. *)
Theorem C64_color_empty_rank_refuted : exists P G dist edist d, 0 < gn G /\ distributed P G dist edist d /\ closed_graph G /\ undirected G /\ symmetric_adjacency G /\ room_for_ghosts P d /\
  forall col, (forall r, r < P -> length (col r) = dn (d r) + dghost_n (d r)) -> num_colors (map col (seq 0 P)) = None.
Proof. exact empty_rank. Qed.
Print Assumptions C64_color_empty_rank_refuted.

(** Reordering never fails. *)
Theorem C64_complete P G dist edist d ord o2n n2o threads bufs :
  distributed P G dist edist d -> closed_graph G -> symmetric_adjacency G -> room_for_ghosts P d -> degrees_fit P d -> order_outcome P d ord o2n n2o ->
  (forall r, r < P -> 0 < threads r /\ buffers_outcome P (d r) (fun u => u) (fun _ _ => true) (label_message (o2n r)) (threads r) 0 (dn (d r)) (bufs r)) ->
  forall r je jn jw msgs, r < P -> length je = length (dc_edges (d r)) -> length jn = length (dc_nw (d r)) -> length jw = length (dc_ew (d r)) -> Permutation msgs (inbox P bufs r) ->
  exists d', rearrange_rank (d r) (o2n r) (n2o r) je jn jw msgs = Some d'.
Proof. exact (fun a b c e h o => rearranged_complete P G dist edist d o2n n2o a b c e (order_inverse P d ord o2n n2o h (dist_nodes P G dist edist d a) o) threads bufs). Qed.
Print Assumptions C64_complete.

(** Any history of calls after the import, with any orders, and any partition of the graph that was partitioned (of which the ranks have
    consistent copies): the caller gets the blocks [out] of their own nodes, in their own order, and the reported cut and block weights are
    those of [out] in the caller's graph. *)
Theorem C64_returned_blocks P G dist edist d ords f parts part :
  distributed P G dist edist d -> closed_graph G -> undirected G -> symmetric_adjacency G -> room_for_ghosts P d -> degrees_fit P d ->
  prepares P ords (df_import d) f ->
  (forall r l g, r < P -> dlocal_to_global (df_graph f r) l = Some g -> nth_error (parts r) l = Some (part g)) ->
  exists out, (forall r, r < P -> written_blocks f r (parts r) = Some (map (fun u => out (nth r dist 0 + u)) (seq 0 (nth (S r) dist 0 - nth r dist 0)))) /\
    dist_edge_cut (map (df_graph f) (seq 0 P)) (map parts (seq 0 P)) = Some (cut_weight G out) /\
    forall k, (forall g, g < gn G -> part g < k) -> (forall g, g < gn G -> out g < k) /\
      exists bw, dist_block_weights k (map (df_graph f) (seq 0 P)) (map parts (seq 0 P)) = Some bw /\ length bw = k /\ forall b, b < k -> nth b bw 0%Z = block_weight G out b.
Proof. exact (returned_ok P G dist edist d ords f parts part). Qed.
Print Assumptions C64_returned_blocks.
Example C64_returned_example : prepares 2 [Natural; DegreeBuckets; Coloring] (df_import w_dcsr) w_facade /\
  (forall r l g, r < 2 -> dlocal_to_global (df_graph w_facade r) l = Some g -> nth_error (w_parts r) l = Some (w_part g)) /\
  map (fun r => written_blocks w_facade r (w_parts r)) [0; 1] = [Some [1; 0; 1]; Some [1; 0]] /\ undirected w_graph.
Proof. exact (conj w_prepares (conj w_parts_ok (conj w_written w_undirected))). Qed.

(** A parallel loop over the received messages visits every message once, with the rank that has sent it. *)
Theorem C64_message_loop {X} (bufs : list (list X)) chunks : bufs <> [] -> (forall c, In c chunks -> 0 < snd c) -> ranges_of (length (concat bufs)) chunks ->
  exists rs, traverse (fun c => chunked_range bufs (fst c) (snd c)) chunks = Some rs /\ Permutation (concat rs) (tagged bufs).
Proof. exact (chunked_for_ok bufs chunks). Qed.
Print Assumptions C64_message_loop.
Example C64_loop_example : traverse (fun c => chunked_range [[]; [10; 11]; []; [12]] (fst c) (snd c)) [(1, 2); (0, 1)] = Some [[(1, 11); (3, 12)]; [(1, 10)]].
Proof. reflexivity. Qed.
