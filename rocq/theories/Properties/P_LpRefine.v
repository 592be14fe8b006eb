(* C56: k-way label propagation refinement. *)
From Verif Require Import Lib.Prelude Spec.Graph Spec.Gain Model.LpRefineModel Spec.LpRefineSpec Proofs.LpRefineProofs Proofs.LpRefineExamples.
Local Open Scope Z_scope.

(** Every execution, with any number of threads: the stored block weights stay exact, every node keeps a block below k, and
    no block ends up above both its limit and its weight at the start. *)
Theorem C56_all_executions : forall g limit uni s0 h s,
  closed_graph g -> (forall u, (u < gn g)%nat -> 0 <= gvw g u) -> exact_block_weights g (p_label s0) (p_weight s0) ->
  lp_refine_run g limit uni s0 h s ->
  exact_block_weights g (p_label s) (p_weight s) /\ length (p_weight s) = length (p_weight s0) /\
  (forall u, (u < gn g)%nat -> (nth u (p_label s) 0 < length (p_weight s0))%nat) /\
  forall b, (b < length (p_weight s0))%nat -> block_weight g (label_of (p_label s)) b <= Z.max (limit b) (block_weight g (label_of (p_label s0)) b).
Proof. exact all_executions. Qed.
Print Assumptions C56_all_executions.
Example C56_all_executions_case : exists h s, lp_refine_run path4 ten true start4 h s /\ p_label s = [1; 1; 1; 1]%nat.
Proof. exact path4_run. Qed.

(** A visit that sees the current blocks of its neighbours never increases the cut, whatever weights it reads. *)
Theorem C56_visit_never_worsens : forall g limit uni u iw v s,
  refinable g -> (u < gn g)%nat -> length (p_label s) = gn g -> exact_view g (p_label s) u v ->
  cut_weight g (label_of (p_label (lp_visit g limit uni u iw v s))) <= cut_weight g (label_of (p_label s)).
Proof. exact visit_cut. Qed.
Print Assumptions C56_visit_never_worsens.
Example C56_visit_case : refinable path4 /\ exact_view path4 (p_label start4) 0 view0 /\
  cut_weight path4 (label_of (p_label (lp_visit path4 ten true 0 2 view0 start4))) = 1.
Proof. exact visit_case. Qed.

(** One thread: the whole refinement never increases the cut. *)
Theorem C56_single_thread : forall g limit uni s0 cs,
  refinable g -> (forall u, (u < gn g)%nat -> 0 <= gvw g u) -> exact_block_weights g (p_label s0) (p_weight s0) -> choices_ok g cs ->
  let s := lp_sequential g limit uni None cs s0 in
  cut_weight g (label_of (p_label s)) <= cut_weight g (label_of (p_label s0)) /\ exact_block_weights g (p_label s) (p_weight s) /\
  length (p_weight s) = length (p_weight s0) /\
  forall b, (b < length (p_weight s0))%nat -> nth b (p_weight s) 0 <= Z.max (limit b) (nth b (p_weight s0) 0).
Proof. exact sequential_cut. Qed.
Print Assumptions C56_single_thread.
Example C56_single_thread_case : p_label (lp_sequential path4 ten true None [plain 0; plain 1; plain 2; plain 3] start4) = [1; 1; 1; 1]%nat /\
  cut_weight path4 (label_of (p_label start4)) = 2 /\ choices_ok path4 [plain 0; plain 1; plain 2; plain 3].
Proof. exact path4_round. Qed.

(** One thread: a node is only skipped as inactive if no neighbour has changed its block since the last visit of the node. *)
Theorem C56_active_set : forall g limit uni maxn s0 cs,
  symmetric_lists g -> (forall u, (u < gn g)%nat -> ~ In u (map fst (gadj g u))) -> Forall (fun c => (ch_node c < gn g)%nat) cs ->
  let run cs := active_run g limit uni maxn cs (AState s0 (repeat true (gn g))) in
  forall u, (u < gn g)%nat -> nth u (a_flags (run cs)) false = false ->
  exists cs1 c cs2, cs = cs1 ++ c :: cs2 /\ ch_node c = u /\ nth u (a_flags (run cs1)) false = true /\
    forall v x, In (v, x) (gadj g u) -> nth v (p_label (a_part (run cs))) 0%nat = nth v (p_label (a_part (run cs1))) 0%nat.
Proof. exact active_set_ok. Qed.
Print Assumptions C56_active_set.
Example C56_active_set_case : symmetric_lists path4 /\
  a_flags (active_run path4 ten true None [plain 2; plain 3; plain 0] (AState start4 (repeat true 4))) = [false; true; true; false].
Proof. split; [exact path4_symmetric|vm_compute; reflexivity]. Qed.

(** Two threads: two visits that both see the current blocks of their neighbours can increase the cut. *)
Theorem C56_concurrent_cut_refuted : exists g limit s0 u v vu vv,
  refinable g /\ exact_block_weights g (p_label s0) (p_weight s0) /\ (u < gn g)%nat /\ (v < gn g)%nat /\ u <> v /\
  exact_view g (p_label s0) u vu /\ exact_view g (p_label s0) v vv /\
  cut_weight g (label_of (p_label s0)) < cut_weight g (label_of (p_label (lp_visit g limit true v 2 vv (lp_visit g limit true u 2 vu s0)))).
Proof. exact concurrent_swap. Qed.
Print Assumptions C56_concurrent_cut_refuted.

(** A limit on the number of neighbours: even one thread can increase the cut. *)
Theorem C56_neighbor_limit_refuted : exists g limit s0 cs,
  refinable g /\ exact_block_weights g (p_label s0) (p_weight s0) /\ choices_ok g cs /\
  cut_weight g (label_of (p_label s0)) < cut_weight g (label_of (p_label (lp_sequential g limit true (Some 1%nat) cs s0))).
Proof. exact limited_neighbours. Qed.
Print Assumptions C56_neighbor_limit_refuted.

(** Two threads: a node can end up inactive although its neighbour has moved after the node looked at it. *)
Theorem C56_lost_activation_refuted : exists g m0 tr u v b,
  refinable g /\ symmetric_lists g /\ (u < gn g)%nat /\ (v < gn g)%nat /\ In v (map fst (gadj g u)) /\
  am_flags m0 = repeat true (gn g) /\ length (am_label m0) = gn g /\
  interleaved (visit_steps u None) (visit_steps v (Some b)) tr /\
  let m := fold_left (do_astep g) tr m0 in
  nth u (am_flags m) false = false /\ am_seen m u v <> nth v (am_label m) 0%nat.
Proof. exact lost_activation. Qed.
Print Assumptions C56_lost_activation_refuted.
