(* C72: independent border sets of a distributed partitioned graph. *)
From Verif Require Import Lib.Prelude Model.GridModel Model.DistGraphModel Model.RearrangeModel Model.BorderSetModel Spec.Graph Spec.DistGraphSpec Spec.ReplicateSpec Spec.RearrangeSpec Spec.ColoringSpec Spec.BorderSetSpec
  Proofs.HemExamples Proofs.BorderSetProofs.

(** The sets of all ranks together are independent and on the border, whatever the threads do. *)
Theorem C72_independent P G dist edist d block blk sc top out :
  distributed P G dist edist d -> closed_graph G -> symmetric_adjacency G -> held_by P d block blk -> (forall g, (0 <= sc g < top)%Z) ->
  (forall r, r < P -> border_set (d r) (blk r) sc top (out r)) ->
  independent G (picked P dist out) /\ forall g, picked P dist out g -> border_node G block g.
Proof.
  exact (fun a b c e f g => conj (picked_independent P G dist edist d a b c block blk e sc top out f g) (fun x H => proj1 (proj1 (picked_iff P G dist edist d a b block blk e sc top out f g x) H))).
Qed.
Print Assumptions C72_independent.

(** Exactly which nodes are chosen, each once; in particular the threads have no influence. *)
Theorem C72_exact P G dist edist d block blk sc top out :
  distributed P G dist edist d -> closed_graph G -> held_by P d block blk -> (forall g, (0 <= sc g < top)%Z) ->
  (forall r, r < P -> border_set (d r) (blk r) sc top (out r)) ->
  forall r, r < P -> NoDup (out r) /\ forall u, In u (out r) <-> u < dn (d r) /\ border_node G block (nth r dist 0 + u) /\
    forall v w, In (v, w) (gadj G (nth r dist 0 + u)) -> find_owner dist v <> r \/ border_node G block v -> (sc (nth r dist 0 + u)%nat < sc v)%Z.
Proof. exact (fun a b e f g => rank_exact P G dist edist d a b block blk e sc top out f g). Qed.
Print Assumptions C72_exact.

(** The loops end. *)
Theorem C72_returns d blk sc top : exists out, border_set d blk sc top out.
Proof. exact (border_set_exists d blk sc top). Qed.
Print Assumptions C72_returns.

(** The other function returns every border node of the rank once. *)
Theorem C72_border_nodes P G dist edist d block blk r : distributed P G dist edist d -> held_by P d block blk -> r < P ->
  NoDup (border_nodes (d r) (blk r)) /\ forall u, In u (border_nodes (d r) (blk r)) <-> u < dn (d r) /\ border_node G block (nth r dist 0 + u).
Proof. exact (fun a e => border_nodes_exact P G dist edist d a block blk e r). Qed.
Print Assumptions C72_border_nodes.

(** If scores are distinct and all neighbours of border nodes on other ranks are border nodes, the set is not empty unless the border is.
    Missing: the other case, false, see C72_empty_refuted. *)
Theorem C72_nonempty_partial P G dist edist d block blk sc top out :
  distributed P G dist edist d -> closed_graph G -> held_by P d block blk -> (forall g, (0 <= sc g < top)%Z) ->
  (forall r, r < P -> border_set (d r) (blk r) sc top (out r)) -> no_self_loops G -> (forall u v, u < gn G -> v < gn G -> sc u = sc v -> u = v) ->
  (forall u v w, border_node G block u -> In (v, w) (gadj G u) -> find_owner dist v <> find_owner dist u -> border_node G block v) ->
  forall u, border_node G block u -> exists g, picked P dist out g.
Proof. exact (fun a b e f g => picked_some P G dist edist d a b block blk e sc top out f g). Qed.
Print Assumptions C72_nonempty_partial.
Example C72_example : distributed 3 m_graph m_dist m_edist m_dcsr /\ closed_graph m_graph /\ symmetric_adjacency m_graph /\ no_self_loops m_graph /\ held_by 3 m_dcsr b_block b_blk /\ (forall g, (0 <= b_low g < 9)%Z) /\
  (forall r, r < 3 -> border_set (m_dcsr r) (b_blk r) b_low 9 (nth r [[]; []; [0]] [])) /\ border_node m_graph b_block 0 /\ border_node m_graph b_block 2 /\ map (fun r => border_nodes (m_dcsr r) (b_blk r)) [0; 1; 2] = [[0]; []; [0]].
Proof. exact (conj m_distributed (conj m_closed (conj m_symmetric (conj m_loops (conj b_held (conj b_low_range (conj b_outcome_low (conj (proj1 b_border) (conj (proj2 b_border) eq_refl))))))))). Qed.
Example C72_nonempty_example : held_by 3 m_dcsr c_block c_blk /\ (forall r, r < 3 -> border_set (m_dcsr r) (c_blk r) b_score 9 (nth r [[]; [0]; []] [])) /\
  (forall u v, u < gn m_graph -> v < gn m_graph -> b_score u = b_score v -> u = v) /\
  (forall u v w, border_node m_graph c_block u -> In (v, w) (gadj m_graph u) -> find_owner m_dist v <> find_owner m_dist u -> border_node m_graph c_block v) /\ border_node m_graph c_block 2.
Proof. exact (conj c_held (conj c_outcome (conj b_inj (conj c_border c_node)))). Qed.

(** A neighbour on another rank keeps a node out even if it is not on the border itself: the set may be empty although there is a border and
    all scores differ. On a single rank this cannot happen. *)
Theorem C72_empty_refuted : exists P G dist edist d block blk sc top out,
  distributed P G dist edist d /\ closed_graph G /\ symmetric_adjacency G /\ no_self_loops G /\ held_by P d block blk /\ (forall g, (0 <= sc g < top)%Z) /\
  (forall u v, u < gn G -> v < gn G -> sc u = sc v -> u = v) /\ (forall r, r < P -> border_set (d r) (blk r) sc top (out r)) /\ (exists u, border_node G block u) /\ forall r, r < P -> out r = [].
Proof. exact empty_set. Qed.
Print Assumptions C72_empty_refuted.
