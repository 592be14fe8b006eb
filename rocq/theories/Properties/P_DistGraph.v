(* C60: the graph that the ranks build together. *)
From Verif Require Import Lib.Prelude Model.GridModel Model.DistGraphModel Spec.Graph Spec.DistGraphSpec
  Proofs.DistSystemProofs Proofs.DistExamples.

(** The parallel translation of the edges ends under every schedule: after at most three steps per edge, some iteration can
    proceed until all are done, and then the import succeeds, in whatever order the ghost nodes are visited. *)
Theorem C60_import_ends P G dist bits edist r xadj adj vw aw junk sched s :
  distribution P (gn G) dist -> closed_graph G -> weights_fit bits G -> r < P -> rank_arrays G dist r xadj adj vw aw -> length junk = length adj ->
  import_run (nth r dist 0) (nth (S r) dist 0) adj sched (import_start (nth r dist 0) (nth (S r) dist 0) adj junk) = Some s ->
  length sched <= 3 * length adj /\
  ((exists e s', import_step (nth r dist 0) (nth (S r) dist 0) adj e s = Some s') \/
   (forall order fresh, Permutation order (entries (im_map s)) ->
      exists d, import_graph bits fresh r dist edist xadj vw aw s order = Some d /\ import_outcome bits dist edist r xadj adj vw aw d)).
Proof. exact (fun a b c => import_total P G dist bits a b c edist r xadj adj vw aw junk sched s). Qed.
Print Assumptions C60_import_ends.

(** Under every schedule, what a rank gets is its part of the graph: own nodes, exactly the neighbours of own nodes on other ranks
    as ghosts, once each and with the right owners, mutually inverse translations of identifiers, all edges with their weights,
    the weights of the own nodes, and the translation of the identifiers of other ranks. *)
Theorem C60_local_view P G dist bits edist r xadj adj vw aw d :
  distribution P (gn G) dist -> closed_graph G -> weights_fit bits G -> r < P -> rank_arrays G dist r xadj adj vw aw ->
  import_outcome bits dist edist r xadj adj vw aw d ->
  local_view G dist r (dn d) (dghost_n d) (dlocal_to_global d) (dglobal_to_local d) (dghost_owner d) (dcontains d) (dadj d) /\
  (forall u, u < dn d -> dnode_weight (dc_nw d) u = Some (gvw G (nth r dist 0 + u))) /\
  (forall l q u, dmap_remote d u q = Some l <-> q <= P /\ dlocal_to_global d l = Some (nth q dist 0 + u)) /\
  dc_rank d = r /\ dc_dist d = dist /\ dc_edist d = edist /\ length (dc_edges d) = length adj.
Proof. exact (fun a b c => import_correct P G dist bits a b c edist r xadj adj vw aw d). Qed.
Print Assumptions C60_local_view.
Example C60_import_example : distribution 3 (gn x_graph) x_dist /\ closed_graph x_graph /\ weights_fit 32 x_graph /\
  (forall r, r < 3 -> rank_arrays x_graph x_dist r (x_xadj r) (x_adj r) (x_vw r) (x_aw r) /\
     import_outcome 32 x_dist x_edist r (x_xadj r) (x_adj r) (x_vw r) (x_aw r) (x_dcsr r)) /\
  map dn (map x_dcsr [0; 1; 2]) = [2; 0; 2] /\ map (dlocal_to_global (x_dcsr 2)) [0; 1; 2; 3; 4] = [Some 2; Some 3; Some 1; Some 0; None].
Proof.
  exact (conj x_distribution (conj x_closed (conj x_fit (conj (fun r Hr => conj (x_arrays r Hr) (x_import r Hr)) (conj (proj1 x_ranks) (proj1 (proj2 (proj2 x_ranks)))))))).
Qed.

(** The interface takes 64-bit weights; in the default build they are cut to 32 bits without a check. *)
Theorem C60_large_weights_refuted : exists G dist xadj adj vw aw d, distribution 1 (gn G) dist /\ closed_graph G /\
  rank_arrays G dist 0 xadj adj vw aw /\ import_outcome 32 dist [0; 0] 0 xadj adj vw aw d /\ 0 < dn d /\
  dnode_weight (dc_nw d) 0 = Some (-2147483648)%Z /\ gvw G 0 = 2147483648%Z.
Proof. exact large_weights. Qed.
Print Assumptions C60_large_weights_refuted.

(** The edge distribution: rank r's edges start after those of the ranks below; the last entry is the number of all edges. [x], the
    entry that no rank writes, does not matter. *)
Theorem C60_edge_distribution ms x : length (edge_distribution ms x) = length ms + 1 /\
  forall r, r <= length ms -> nth r (edge_distribution ms x) 0 = list_sum (firstn r ms).
Proof. exact (edge_distribution_ok ms x). Qed.
Print Assumptions C60_edge_distribution.
Example C60_edge_distribution_example : edge_distribution [4; 0; 4] 77 = [0; 4; 4; 8].
Proof. reflexivity. Qed.

(** The exchange: for every number of threads and every interleaving the send buffers are filled without an access out of bounds,
    and the buffer for a rank then contains exactly one message for each sending node that is a ghost of that rank. *)
Theorem C60_interface_messages P G dist bits edist xadj adj vw aw d {X} (mapper : nat -> nat) (filter_ : nat -> nat -> bool) (builder : nat -> nat -> nat -> X) r threads a b :
  distribution P (gn G) dist -> closed_graph G -> weights_fit bits G ->
  (forall q, q < P -> rank_arrays G dist q (xadj q) (adj q) (vw q) (aw q)) ->
  (forall q, q < P -> import_outcome bits dist edist q (xadj q) (adj q) (vw q) (aw q) (d q)) ->
  symmetric_adjacency G -> r < P -> 0 < threads -> (forall s, a <= s < b -> mapper s < dn (d r)) ->
  (exists ms s0, all_messages (d r) mapper filter_ builder threads a b = Some ms /\ fill_start P ms = Some s0 /\
    forall sched s, fill_run sched s0 = Some s -> length sched <= length (concat ms) /\
      ((exists t s', fill_step t s = Some s') \/
       exists bufs, buffers_outcome P (d r) mapper filter_ builder threads a b bufs /\ f_bufs s = map (map Some) bufs)) /\
  forall bufs, buffers_outcome P (d r) mapper filter_ builder threads a b bufs -> length bufs = P /\
    forall pe, pe < P -> exists senders, NoDup senders /\
      (forall s, In s senders <-> a <= s < b /\ filter_ s (mapper s) = true /\ ghost_of G dist pe (nth r dist 0 + mapper s)) /\
      Permutation (nth pe bufs []) (map (fun s => builder s (mapper s) pe) senders).
Proof. exact (fun a1 a2 a3 a4 a5 => buffers_system P G dist bits a1 a2 a3 edist xadj adj vw aw d a4 a5 mapper filter_ builder r threads a b). Qed.
Print Assumptions C60_interface_messages.

(** Synchronisation: every rank has an array with the values of its own nodes (blocks, labels, ...) and room for the ghosts. After
    the exchange, whatever the threads and the order in which messages are handled, every copy has the owner's value. *)
Theorem C60_ghost_values P G dist bits edist xadj adj vw aw d {V} (f : nat -> V) (dflt : V) (arr : nat -> list V) (threads : nat -> nat)
    (bufs : nat -> list (list (nat * V))) :
  distribution P (gn G) dist -> closed_graph G -> weights_fit bits G ->
  (forall q, q < P -> rank_arrays G dist q (xadj q) (adj q) (vw q) (aw q)) ->
  (forall q, q < P -> import_outcome bits dist edist q (xadj q) (adj q) (vw q) (aw q) (d q)) ->
  symmetric_adjacency G -> (forall r, r < P -> 0 < threads r) ->
  (forall r, r < P -> dn (d r) + dghost_n (d r) <= length (arr r)) ->
  (forall r u, r < P -> u < dn (d r) -> nth_error (arr r) u = Some (f (nth r dist 0 + u))) ->
  (forall r, r < P -> buffers_outcome P (d r) (fun u => u) (fun _ _ => true) (value_message (arr r) dflt) (threads r) 0 (dn (d r)) (bufs r)) ->
  forall q msgs, q < P -> Permutation msgs (inbox P bufs q) ->
  exists arr', receive_values (d q) (arr q) msgs = Some arr' /\ length arr' = length (arr q) /\
    forall l g, dlocal_to_global (d q) l = Some g -> nth_error arr' l = Some (f g).
Proof. exact (fun a1 a2 a3 a4 a5 => sync_system P G dist bits a1 a2 a3 edist xadj adj vw aw d a4 a5 f dflt arr threads bufs). Qed.
Print Assumptions C60_ghost_values.

(** The node weights, if every rank that has nodes passes weights. *)
Theorem C60_ghost_weights P G dist bits edist xadj adj vw aw d (dflt : Z) (threads : nat -> nat) (bufs : nat -> list (list (nat * Z))) :
  distribution P (gn G) dist -> closed_graph G -> weights_fit bits G ->
  (forall q, q < P -> rank_arrays G dist q (xadj q) (adj q) (vw q) (aw q)) ->
  (forall q, q < P -> import_outcome bits dist edist q (xadj q) (adj q) (vw q) (aw q) (d q)) ->
  symmetric_adjacency G -> (forall r, r < P -> 0 < threads r) ->
  (forall r, r < P -> vw r = [] -> nth (S r) dist 0 = nth r dist 0) ->
  (forall r, r < P -> buffers_outcome P (d r) (fun u => u) (fun _ _ => true) (value_message (dc_nw (d r)) dflt) (threads r) 0 (dn (d r)) (bufs r)) ->
  forall q msgs, q < P -> Permutation msgs (inbox P bufs q) ->
  exists nw, receive_values (d q) (dc_nw (d q)) msgs = Some nw /\
    forall l g, dlocal_to_global (d q) l = Some g -> dnode_weight nw l = Some (gvw G g).
Proof. exact (fun a1 a2 a3 a4 a5 => weights_system P G dist bits a1 a2 a3 edist xadj adj vw aw d a4 a5 dflt threads bufs). Qed.
Print Assumptions C60_ghost_weights.
Example C60_ghost_weights_example : symmetric_adjacency x_graph /\
  (forall r, r < 3 -> buffers_outcome 3 (x_dcsr r) (fun u => u) (fun _ _ => true) (value_message (dc_nw (x_dcsr r)) 0%Z) 2 0 (dn (x_dcsr r)) (x_bufs r)) /\
  map (fun nw => map (dnode_weight nw) [0; 1; 2; 3]) (match receive_values (x_dcsr 2) (dc_nw (x_dcsr 2)) (rev (inbox 3 x_bufs 2)) with Some nw => [nw] | None => [] end) =
    [[Some 30; Some 40; Some 20; Some 10]]%Z.
Proof. exact (conj x_symmetric (conj x_buffers eq_refl)). Qed.
(** Without the condition on the weights a message is written out of bounds. *)
Example C60_mixed_weights : receive_values (m_dcsr 1) (dc_nw (m_dcsr 1)) [(0, (0, 5%Z))] = None.
Proof. exact mixed_weights. Qed.
