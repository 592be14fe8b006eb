(* C49: the pool of flat bipartitioners. *)
From Verif Require Import Lib.Prelude Spec.Graph Spec.InitialSpec Spec.InitialPoolSpec.
From Verif Require Import Model.InitialFmModel Model.InitialFlatModel Model.InitialPoolModel.
From Verif Require Import Proofs.InitialExamples Proofs.InitialPoolProofs Proofs.InitialPoolExamples.

(** C49. For every undirected graph and every sequence of random decisions, whatever an earlier use left in the arrays:
    the pool returns a bipartition with exact block weights that is one of those it tried, and is at least as good as
    each of them: feasible if one of them is, with the smallest cut among those that are as feasible, and the smallest
    imbalance among those with the same cut. It tried all of its bipartitioners in every repetition that must not skip
    any. *)
Theorem C49_best_of_pool : forall g (limit perfect : nat -> Z) (imb : list Z -> Z) emax cfg env old,
  closed_graph g -> undirected g -> nonneg_edges g -> loop_free g -> (forall lab, (cut_of g lab < emax)%Z) ->
  (forall r i k, legal_order (gn g) (rc_chunks (re_rounds (env r i) k)) (rc_perms (re_rounds (env r i) k))) ->
  0 < pl_size cfg -> (1 <= pl_min cfg)%Z -> (1 <= pl_fixed cfg)%Z \/ pl_adaptive cfg = false ->
  exists p, pool_bipartition g limit perfect imb emax cfg env old = Some p /\
    bipartition g (fst (po_best p)) (snd (po_best p)) /\ In (po_best p) (po_log p) /\
    (forall a, In a (po_log p) -> bipartition g (fst a) (snd a) /\ at_least_as_good limit imb g (po_best p) a) /\
    forall r i, (Z.of_nat r < num_repetitions cfg)%Z -> i < pl_size cfg ->
      (Z.of_nat r < pl_fixed cfg)%Z \/ pl_adaptive cfg = false ->
      exists lab0 bw0 lab bw, flat_bipartition g limit perfect (re_alg (env r i)) = Some (lab0, bw0) /\
        pool_refine g limit perfect cfg (env r i) lab0 bw0 = Some (lab, bw) /\ In (lab, bw) (po_log p).
Proof.
  intros g limit perfect imb emax cfg env old H1 H2 H3 H4 H5 He.
  exact (pool_ok g limit perfect imb emax cfg H1 H2 H3 H4 H5 env old He).
Qed.
Print Assumptions C49_best_of_pool.

(** If the nodes have weight at most 1, fit into both blocks together, and breadth-first growing is in the pool, then the
    result is feasible. *)
Theorem C49_unit_weights_feasible : forall g (limit perfect : nat -> Z) (imb : list Z -> Z) emax cfg env old i st iters rnd,
  closed_graph g -> undirected g -> nonneg_edges g -> loop_free g -> (forall lab, (cut_of g lab < emax)%Z) ->
  (forall r i k, legal_order (gn g) (rc_chunks (re_rounds (env r i) k)) (rc_perms (re_rounds (env r i) k))) ->
  (1 <= pl_min cfg)%Z -> (1 <= pl_fixed cfg)%Z \/ pl_adaptive cfg = false ->
  i < pl_size cfg -> re_alg (env 0 i) = ABfs st iters rnd ->
  (forall v, v < gn g -> (0 <= gvw g v <= 1)%Z) -> (0 <= limit 0%nat)%Z -> (0 <= limit 1%nat)%Z ->
  (total_weight g <= limit 0%nat + limit 1%nat)%Z ->
  exists p, pool_bipartition g limit perfect imb emax cfg env old = Some p /\ feasible limit g (fst (po_best p)).
Proof.
  intros g limit perfect imb emax cfg env old i st iters rnd H1 H2 H3 H4 H5 He.
  exact (pool_unit_feasible g limit perfect imb emax cfg H1 H2 H3 H4 H5 env old i st iters rnd He).
Qed.
Print Assumptions C49_unit_weights_feasible.

(** Random assignment cuts 11, breadth-first growing 5, greedy growing 10: the second one wins; the second repetition runs
    nothing because the statistics call nothing promising. *)
Example C49_ex :
  closed_graph path4 /\ undirected path4 /\ nonneg_edges path4 /\ loop_free path4 /\
  (forall lab, (cut_of path4 lab < 2147483647)%Z) /\
  (forall r i k, legal_order 4 (rc_chunks (re_rounds (pool_env r i) k)) (rc_perms (re_rounds (pool_env r i) k))) /\
  (exists p, pool_bipartition path4 limit2 perfect2 spread 2147483647 (pool3 None) pool_env ([7; 7], [9; 9]%Z) = Some p /\
     po_best p = ([1; 0; 0; 0], [3; 1]%Z) /\
     po_log p = [([1; 0; 1; 0], [2; 2]%Z); ([1; 0; 0; 0], [3; 1]%Z); ([1; 0; 0; 1], [2; 2]%Z)]) /\
  map (cut_of path4) [[1; 0; 1; 0]; [1; 0; 0; 0]; [1; 0; 0; 1]] = [11; 5; 10]%Z.
Proof. exact pool_example. Qed.

(** Finding: if min_num_non_adaptive_repetitions is 0 (and the adaptive selection is on), no bipartitioner ever runs, and
    the pool returns whatever an earlier use left in its arrays. *)
Theorem C49_adaptive_only_refuted :
  exists g limit perfect imb emax cfg, closed_graph g /\ undirected g /\ nonneg_edges g /\ loop_free g /\
    (forall lab, (cut_of g lab < emax)%Z) /\ 0 < pl_size cfg /\ (1 <= pl_min cfg <= pl_max cfg)%Z /\ pl_fixed cfg = 0%Z /\
    forall env old, exists p, pool_bipartition g limit perfect imb emax cfg env old = Some p /\ po_log p = [] /\ po_best p = old.
Proof. exact pool_stale. Qed.
Print Assumptions C49_adaptive_only_refuted.

(** Finding: the refiner does not use the configured stopping rule. With the rule "simple" and num_fruitless_moves = 100
    (the default), it goes on after more than 100 fruitless moves in a graph of 105 * 105 nodes; with the rule
    "adaptive", it never stops before, whatever the statistics say, although more than the square root of the number of
    nodes were moved. *)
Theorem C49_stopping_rule_refuted :
  (exists n steps, 100 < steps /\ forall drift, should_stop (create_initial_refiner RSimple) n 100 steps drift = false) /\
  (forall n steps drift, steps <= 100 -> should_stop (create_initial_refiner RAdaptive) n 100 steps drift = false) /\
  exists n steps, n < steps * steps /\ steps <= 100.
Proof. exact stopping_rule_swapped. Qed.
Print Assumptions C49_stopping_rule_refuted.
