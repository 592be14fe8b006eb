(* C70: heavy edge matching of a distributed graph. *)
From Verif Require Import Lib.Prelude Model.GridModel Model.DistGraphModel Model.RearrangeModel Model.ColoringModel Model.HemModel Spec.Graph Spec.DistGraphSpec Spec.ReplicateSpec Spec.RearrangeSpec
  Spec.ColoringSpec Spec.HemSpec Proofs.ColoringFinal Proofs.HemFinal Proofs.HemHeavy Proofs.HemExamples.

(** With the colouring of C65, whatever the threads of the ranks do and in whatever order the messages arrive: if the call returns, all ranks agree about
    the label of every node they know, and the labels are a matching of the graph that respects the weight limit. Missing: that the heaviest of
    competing edges wins (false, see C70_heavier_edge_refuted), ranks without nodes (C70_empty_rank_refuted). *)
Theorem C70_matching_partial P G dist edist d maxw ignore steps col result :
  distributed P G dist edist d -> closed_graph G -> symmetric_adjacency G -> no_self_loops G -> ghost_weights P G d -> 0 < steps ->
  coloring_outcome P d steps col -> hem_outcome P d maxw ignore col result ->
  exists label, held_by P d label result /\ matching_of G maxw ignore label.
Proof. exact (hem_colored P G dist edist d maxw ignore steps col result). Qed.
Print Assumptions C70_matching_partial.

(** The same for any proper colouring of the graph of which the ranks know the colours of their own nodes. *)
Theorem C70_any_coloring_partial P G dist edist d maxw ignore color col result :
  distributed P G dist edist d -> closed_graph G -> symmetric_adjacency G -> ghost_weights P G d -> proper_coloring G color ->
  (forall r u, r < P -> u < dn (d r) -> nth u (col r) 0 = color (nth r dist 0 + u)) -> hem_outcome P d maxw ignore col result ->
  exists label, held_by P d label result /\ matching_of G maxw ignore label.
Proof. exact (fun a b c e f g => hem_correct P G dist edist d a b c e maxw ignore color f col g result). Qed.
Print Assumptions C70_any_coloring_partial.
Example C70_matching_example : distributed 3 m_graph m_dist m_edist m_dcsr /\ closed_graph m_graph /\ symmetric_adjacency m_graph /\ no_self_loops m_graph /\ ghost_weights 3 m_graph m_dcsr /\
  (exists col, coloring_outcome 3 m_dcsr 2 col) /\ proper_coloring m_graph m_color /\
  (forall r u, r < 3 -> u < dn (m_dcsr r) -> nth u (m_col r) 0 = m_color (nth r m_dist 0 + u)) /\ hem_outcome 3 m_dcsr 10 false m_col m_result /\ m_result 0 = [2; 2].
Proof.
  exact (conj m_distributed (conj m_closed (conj m_symmetric (conj m_loops (conj m_ghosts (conj (coloring_exists 3 m_graph m_dist m_edist m_dcsr 2 m_distributed m_closed m_symmetric m_loops (le_S _ _ (le_n 1)))
    (conj m_proper (conj m_own (conj m_outcome eq_refl))))))))).
Qed.

(** If every rank has a node, the call returns. *)
Theorem C70_returns P d maxw ignore col : (forall r, r < P -> col r <> []) -> exists result, hem_outcome P d maxw ignore col result.
Proof. exact (hem_exists P d maxw ignore col). Qed.
Print Assumptions C70_returns.
Example C70_returns_example : (forall r, r < 3 -> m_col r <> []) /\ hem_outcome 3 m_dcsr 10 false m_col m_result.
Proof. exact (conj m_nonempty m_outcome). Qed.

(** The size that decides whether label propagation follows is the number of clusters. *)
Theorem C70_size P G dist edist d label result :
  distributed P G dist edist d -> (forall u, u < gn G -> label u < gn G /\ label (label u) = label u) -> held_by P d label result ->
  size_after_contraction P d (gn G) result = length (nodup Nat.eq_dec (map label (seq 0 (gn G)))).
Proof. exact (size_correct P G dist edist d label result). Qed.
Print Assumptions C70_size.
Example C70_size_example : held_by 3 m_dcsr m_label m_result /\ size_after_contraction 3 m_dcsr 3 m_result = 2.
Proof. exact (conj m_labels eq_refl). Qed.

(** What a node proposes, if no other thread interferes: an edge of the largest weight to a neighbour that is free and not too heavy. *)
Theorem C70_proposal d maxw ignore s u v w : candidate d maxw ignore s (fun _ _ => false) u = (v, w) ->
  ((0 < w)%Z -> In (v, w) (row d u) /\ rd s v = Free /\ (ignore = true \/ (wt d u + wt d v <= maxw)%Z)) /\
  forall v' w', In (v', w') (row d u) -> rd s v' = Free /\ (ignore = true \/ (wt d u + wt d v' <= maxw)%Z) -> (w' <= w)%Z.
Proof. exact (heaviest_candidate d maxw ignore s u v w). Qed.
Print Assumptions C70_proposal.
Example C70_proposal_example : candidate (m_dcsr 2) 10 false [Free; Free; Free] (fun _ _ => false) 0 = (2, 5%Z).
Proof. exact eq_refl. Qed.

(** Which of the requests for a free node wins, if no compare-exchange fails: one of the largest weight; if there is only one, this one alone. *)
Theorem C70_request d s bids q : (forall b, In b bids -> snd b = false) -> rq_mine q < length s -> rd s (rq_mine q) = Free -> In q (map fst bids) -> (0 < rq_w q)%Z ->
  (exists b, In b (map fst bids) /\ rq_mine b = rq_mine q /\ won d s (place_bids d s bids) b = true /\ forall q', In q' (map fst bids) -> rq_mine q' = rq_mine q -> (rq_w q' <= rq_w b)%Z) /\
  ((forall q', In q' (map fst bids) -> rq_mine q' = rq_mine q -> q' = q \/ (rq_w q' < rq_w q)%Z) ->
   won d s (place_bids d s bids) q = true /\ forall q', In q' (map fst bids) -> rq_mine q' = rq_mine q -> their_node d q' <> their_node d q -> won d s (place_bids d s bids) q' = false).
Proof. exact (heaviest_bid d s bids q). Qed.
Print Assumptions C70_request.
Example C70_request_example : let bids := [(Req 0 0 0 1%Z, false); (Req 1 0 0 5%Z, false)] in
  map (won (m_dcsr 2) [Free; Free; Free] (place_bids (m_dcsr 2) [Free; Free; Free] bids)) (map fst bids) = [false; true].
Proof. exact eq_refl. Qed.

(** The compare-exchange loop for competing requests has its condition the wrong way round: of two nodes of the same colour that ask for the same
    free node, the one with the lighter edge may win, and the other one stays alone although it has no other neighbour and is not too heavy. *)
Theorem C70_heavier_edge_refuted : exists P G dist edist d maxw color col result label,
  distributed P G dist edist d /\ closed_graph G /\ undirected G /\ no_self_loops G /\ ghost_weights P G d /\ proper_coloring G color /\ held_by P d color col /\
  hem_outcome P d maxw false col result /\ held_by P d label result /\
  exists u v x wu wv, gadj G u = [(x, wu)] /\ gadj G v = [(x, wv)] /\ (wu < wv)%Z /\ (gvw G v + gvw G x <= maxw)%Z /\ color u = color v /\ color u < color x /\ label u = x /\ label v = v.
Proof. exact heavier_dropped. Qed.
Print Assumptions C70_heavier_edge_refuted.

(** A rank without nodes: the largest colour of an empty array is read, for every colouring that C65 can return. *)
Theorem C70_empty_rank_refuted : exists P G dist edist d, distributed P G dist edist d /\ closed_graph G /\ undirected G /\ symmetric_adjacency G /\ no_self_loops G /\ ghost_weights P G d /\
  forall steps maxw ignore, 0 < steps -> (exists col, coloring_outcome P d steps col) /\ forall col result, coloring_outcome P d steps col -> ~ hem_outcome P d maxw ignore col result.
Proof. exact empty_rank. Qed.
Print Assumptions C70_empty_rank_refuted.
