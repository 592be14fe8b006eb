(* C65: the greedy colouring of a distributed graph. *)
From Verif Require Import Lib.Prelude Model.GridModel Model.DistGraphModel Model.RearrangeModel Model.ColoringModel Spec.Graph Spec.DistGraphSpec Spec.ReplicateSpec Spec.RearrangeSpec
  Spec.ColoringSpec Proofs.RearrangeExamples Proofs.ColoringFinal Proofs.ColoringExamples.

(** Whatever the threads do, in whatever order the messages arrive and for any number of supersteps: if the call returns, neighbours have
    different colours, on whatever ranks they are; every rank has the same colour for a node, be it its own or a ghost; and the colour of
    a node is at most its degree. *)
Theorem C65_proper P G dist edist d steps colors :
  distributed P G dist edist d -> closed_graph G -> symmetric_adjacency G -> no_self_loops G -> 0 < steps -> coloring_outcome P d steps colors ->
  exists color, proper_coloring G color /\ held_by P d color colors /\ forall u, u < gn G -> color u <= length (gadj G u).
Proof. exact (fun a b c e f => coloring_correct P G dist edist d steps a b c e f colors). Qed.
Print Assumptions C65_proper.
Example C65_proper_example : distributed 2 w_graph w_dist w_edist w_dcsr /\ closed_graph w_graph /\ symmetric_adjacency w_graph /\ no_self_loops w_graph /\
  map (fun r => color_nodes (w_dcsr r) (max_colors 2 w_dcsr) (seq 0 (dn (w_dcsr r))) (coloring_start (w_dcsr r))) [0; 1] =
    [Some ([1; 2; 2; 0; 0], [true; false; true]); Some ([1; 1; 0; 0], [true; true])] /\
  exists colors, coloring_outcome 2 w_dcsr 1 colors.
Proof.
  exact (conj w_distributed (conj w_closed (conj w_symmetric (conj w_loops (conj w_first
    (coloring_exists 2 w_graph w_dist w_edist w_dcsr 1 w_distributed w_closed w_symmetric w_loops (le_n 1))))))).
Qed.

(** The loop ends: at most 2 n + 2 passes do not converge. *)
Theorem C65_terminates P G dist edist d steps k s :
  distributed P G dist edist d -> closed_graph G -> symmetric_adjacency G -> no_self_loops G -> 0 < steps -> running P d steps k s -> k <= 2 * gn G + 2.
Proof. exact (fun a b c e f => coloring_terminates P G dist edist d steps a b c e f k s). Qed.
Print Assumptions C65_terminates.

(** No access is out of bounds, in any superstep that can be reached: every rank can colour its nodes (the colours always fit into the marker), and
    whatever the exchange delivers can be handled. *)
Theorem C65_no_errors P G dist edist d steps k s i s1 conv :
  distributed P G dist edist d -> closed_graph G -> symmetric_adjacency G -> no_self_loops G -> 0 < steps ->
  running P d steps k s -> i < steps -> supersteps P d (max_colors P d) steps (seq 0 i) s s1 conv ->
  (forall r, r < P -> exists s2, color_nodes (d r) (max_colors P d) (seq (step_from (d r) steps i) (step_to (d r) steps i - step_from (d r) steps i)) (s1 r) = Some s2) /\
  (forall s2 threads bufs,
    (forall r, r < P ->
       color_nodes (d r) (max_colors P d) (seq (step_from (d r) steps i) (step_to (d r) steps i - step_from (d r) steps i)) (s1 r) = Some (s2 r) /\ 0 < threads r /\
       buffers_outcome P (d r) (fun u => u) (active_filter (snd (s2 r))) (value_message (fst (s2 r)) 0) (threads r) (step_from (d r) steps i) (step_to (d r) steps i) (bufs r)) ->
    forall q msgs, q < P -> Permutation msgs (inbox P bufs q) -> exists arr, receive_values (d q) (fst (s2 q)) msgs = Some arr) /\
  exists s2 quiet, superstep P d (max_colors P d) steps i s1 s2 quiet.
Proof. exact (fun a b c e f => coloring_no_errors P G dist edist d steps a b c e f k s i s1 conv). Qed.
Print Assumptions C65_no_errors.
Theorem C65_returns P G dist edist d steps :
  distributed P G dist edist d -> closed_graph G -> symmetric_adjacency G -> no_self_loops G -> 0 < steps -> exists colors, coloring_outcome P d steps colors.
Proof. exact (coloring_exists P G dist edist d steps). Qed.
Print Assumptions C65_returns.

(** Nodes sorted by the colours that were computed: the ranks hold the same graph, renamed; no two nodes of a colour class are adjacent. *)
Theorem C65_classes_independent P G dist edist d steps col colors o1 o2 s d' :
  distributed P G dist edist d -> closed_graph G -> symmetric_adjacency G -> no_self_loops G -> 0 < steps -> room_for_ghosts P d ->
  coloring_outcome P d steps col -> num_colors (map col (seq 0 P)) = Some colors ->
  (forall r, r < P -> Permutation (o1 r) (seq 0 (dn (d r))) /\ Permutation (o2 r) (seq 0 (dn (d r))) /\ color_order colors (dn (d r)) (col r) (o1 r) (o2 r) = Some (s r)) ->
  rearrange_outcome P d (fun r => pl_o2n (s r)) (fun r => pl_n2o (s r)) d' ->
  exists f G', isomorphic_by f G G' /\ keeps_ranks P dist f /\ distributed P G' dist edist d' /\
    (forall r, r < P -> length (pl_sizes (s r)) = colors + 1 /\ nth 0 (pl_sizes (s r)) 0 = 0 /\ nth colors (pl_sizes (s r)) 0 = dn (d' r) /\
       forall a, a < colors -> nth a (pl_sizes (s r)) 0 <= nth (S a) (pl_sizes (s r)) 0) /\
    forall a r q u v w, a < colors -> r < P -> q < P -> nth a (pl_sizes (s r)) 0 <= u < nth (S a) (pl_sizes (s r)) 0 -> nth a (pl_sizes (s q)) 0 <= v < nth (S a) (pl_sizes (s q)) 0 ->
       ~ In (nth q dist 0 + v, w) (gadj G' (nth r dist 0 + u)).
Proof. exact (colored_classes P G dist edist d steps col colors o1 o2 s d'). Qed.
Print Assumptions C65_classes_independent.

(** With a self-loop at a node that has a neighbour on another rank the call never returns. *)
Theorem C65_self_loop_refuted : exists P G dist edist d steps, 0 < steps /\ distributed P G dist edist d /\ closed_graph G /\ undirected G /\ symmetric_adjacency G /\
  forall colors, ~ coloring_outcome P d steps colors.
Proof. exact self_loop. Qed.
Print Assumptions C65_self_loop_refuted.
