(* C57: the Jet refiner never returns a worse partition. *)
From Verif Require Import Lib.Prelude Spec.Graph Spec.Gain Model.BlockWeightModel Model.BalancerModel Model.JetModel
  Proofs.JetProofs Proofs.JetExamples.
Local Open Scope Z_scope.

(** If Jet returns, then it returns the partition with the smallest cut among the input and the partitions after all
    iterations ([h]), with exact block weights; the partitions after the iterations satisfy all limits. So the cut never
    grows, and the result is the input or satisfies all limits. Any number of rounds and iterations, any temperatures, any
    order of the nodes in every loop, any schedule of the balancer. *)
Theorem C57_result_partial : forall g k lim perf, closed_graph g -> undirected g -> (forall u, (u < gn g)%nat -> 0 <= gvw g u) -> (forall b, (b < k)%nat -> 0 <= lim b) ->
  forall m h m', exact_block_weights g (m_label m) (m_weight m) -> length (m_weight m) = k -> jet_refine g k lim perf m h m' ->
  exact_block_weights g (m_label m') (m_weight m') /\ length (m_weight m') = k /\
  In (m_label m') (m_label m :: h) /\
  (forall l, In l (m_label m :: h) -> cut_weight g (label_of (m_label m')) <= cut_weight g (label_of l)) /\
  (forall l, In l h -> forall b, (b < k)%nat -> block_weight g (label_of l) b <= lim b).
Proof. exact jet_ok. Qed.
Print Assumptions C57_result_partial.

Example C57_result_ex : closed_graph jg /\ undirected jg /\ exact_block_weights jg (m_label jm) (m_weight jm) /\
  jet_refine jg 2 (fun _ => 12) (fun _ => 6) jm [m_label jm'] jm' /\
  cut_weight jg (label_of (m_label jm)) = 20 /\ cut_weight jg (label_of (m_label jm')) = 0.
Proof. split; [exact jg_closed|]. split; [exact jg_undirected|]. split; [exact jm_exact|]. split; [exact jet_run_ok|]. split; reflexivity. Qed.

(** The partition that an iteration hands to the balancer does not depend on the order of the nodes in its three loops. *)
Theorem C57_any_order : forall g k warm o1 o2 o3 o1' o2' o3' j,
  exact_block_weights g (m_label (j_mem j)) (m_weight (j_mem j)) /\ length (m_weight (j_mem j)) = k -> length (j_lock j) = gn g -> length (j_next j) = gn g ->
  Permutation o1 (seq 0 (gn g)) -> Permutation o2 (seq 0 (gn g)) -> Permutation o3 (seq 0 (gn g)) ->
  Permutation o1' (seq 0 (gn g)) -> Permutation o2' (seq 0 (gn g)) -> Permutation o3' (seq 0 (gn g)) ->
  moved g k warm o1 o2 o3 j = moved g k warm o1' o2' o3' j.
Proof. exact moved_any_order. Qed.
Print Assumptions C57_any_order.

(** A node changes its block only if it was not moved by Jet in the previous iteration and has a neighbour outside its
    block, its gain passes the temperature test, and no other block has a larger connection. *)
Theorem C57_moves : forall g k warm o1 o2 o3 j u,
  exact_block_weights g (m_label (j_mem j)) (m_weight (j_mem j)) /\ length (m_weight (j_mem j)) = k -> length (j_lock j) = gn g -> length (j_next j) = gn g ->
  Permutation o1 (seq 0 (gn g)) -> Permutation o2 (seq 0 (gn g)) -> Permutation o3 (seq 0 (gn g)) -> (u < gn g)%nat ->
  let p := label_of (m_label (j_mem j)) in
  let q := label_of (m_label (moved g k warm o1 o2 o3 j)) in
  q u <> p u ->
  (q u < k)%nat /\ nth u (j_lock j) false = false /\ block_conn g p u (p u) <> weighted_degree g u /\
  warm (block_conn g p u (q u) - block_conn g p u (p u)) (block_conn g p u (p u)) = true /\
  forall b, (b < k)%nat -> b <> p u -> block_conn g p u b <= block_conn g p u (q u).
Proof. exact moved_meaning. Qed.
Print Assumptions C57_moves.

Example C57_moves_ex : exact_block_weights jg (m_label jm) (m_weight jm) /\
  moved jg 2 warm_pos [0; 1; 2; 3]%nat [0; 1; 2; 3]%nat [3; 2; 1; 0]%nat (jet_init jg jm) = jm' /\
  label_of (m_label jm') 0 = 1%nat /\ label_of (m_label jm) 0 = 0%nat.
Proof. split; [exact jm_exact|]. vm_compute. repeat split. Qed.

(** A node that one iteration has moved is not moved by the next one (only the balancer may move it). *)
Theorem C57_moved_nodes_rest : forall g k warm o1 o2 o3 m' warm' o1' o2' o3' j u,
  exact_block_weights g (m_label (j_mem j)) (m_weight (j_mem j)) /\ length (m_weight (j_mem j)) = k -> length (j_lock j) = gn g -> length (j_next j) = gn g ->
  exact_block_weights g (m_label m') (m_weight m') /\ length (m_weight m') = k ->
  Permutation o1 (seq 0 (gn g)) -> Permutation o2 (seq 0 (gn g)) -> Permutation o3 (seq 0 (gn g)) ->
  Permutation o1' (seq 0 (gn g)) -> Permutation o2' (seq 0 (gn g)) -> Permutation o3' (seq 0 (gn g)) -> (u < gn g)%nat ->
  nth u (m_label (moved g k warm o1 o2 o3 j)) 0%nat <> nth u (m_label (j_mem j)) 0%nat ->
  nth u (m_label (moved g k warm' o1' o2' o3' (jet_step g k warm o1 o2 o3 m' j))) 0%nat = nth u (m_label m') 0%nat.
Proof. exact moved_locks. Qed.
Print Assumptions C57_moved_nodes_rest.

(** Jet need not return, even from a balanced partition: every first iteration moves nodes such that no schedule of the
    balancer comes to an end. *)
Theorem C57_returns_refuted : exists g k lim perf m, closed_graph g /\ undirected g /\ (forall u, (u < gn g)%nat -> 0 <= gvw g u) /\
  exact_block_weights g (m_label m) (m_weight m) /\ length (m_weight m) = k /\
  (forall b, (b < k)%nat -> 0 < perf b <= lim b) /\ (forall b, (b < k)%nat -> nth b (m_weight m) 0 <= lim b) /\
  forall warm o1 o2 o3, (forall gain conn, 0 < gain -> 0 <= conn -> warm gain conn = true) ->
    Permutation o1 (seq 0 (gn g)) -> Permutation o2 (seq 0 (gn g)) -> Permutation o3 (seq 0 (gn g)) ->
    forall T order es s0 s, Permutation (map fst order) (overloaded_nodes g lim (moved g k warm o1 o2 o3 (jet_init g m))) ->
      init_bal g k lim T (moved g k warm o1 o2 o3 (jet_init g m)) order = Some s0 ->
      b_run g k lim perf es s0 = Some s -> b_finished s = false.
Proof. exact jet_never_returns. Qed.
Print Assumptions C57_returns_refuted.

(** Jet need not balance: it compares cuts only, so it returns its overloaded input although the partition after its
    iteration was balanced; in this instance no run returns anything else. *)
Theorem C57_balance_refuted : exists g k lim m, closed_graph g /\ undirected g /\ (forall u, (u < gn g)%nat -> 0 <= gvw g u) /\ (forall b, (b < k)%nat -> 0 <= lim b) /\
  exact_block_weights g (m_label m) (m_weight m) /\ length (m_weight m) = k /\
  (exists perf l, jet_refine g k lim perf m [l] m /\ (forall b, (b < k)%nat -> block_weight g (label_of l) b <= lim b)) /\
  (exists b, (b < k)%nat /\ lim b < nth b (m_weight m) 0) /\
  forall perf h m', jet_refine g k lim perf m h m' -> m' = m.
Proof. exact jet_keeps_overload. Qed.
Print Assumptions C57_balance_refuted.
