(* C50: multilevel bipartitioning, composed of C46-C49. *)
From Verif Require Import Lib.Prelude Spec.Graph Spec.Quotient Spec.Induced Spec.InitialSpec Spec.InitialPoolSpec Spec.InitialCoarsenSpec
  Spec.InitialMultilevelSpec.
From Verif Require Import Model.InitialFmModel Model.InitialFlatModel Model.InitialPoolModel Model.InitialCoarsenModel
  Model.InitialMultilevelModel.
From Verif Require Import Proofs.InitialPoolExamples Proofs.InitialCoarsenExamples Proofs.InitialMultilevelProofs Proofs.InitialWorker.

(** C50. For every undirected graph with positive edge weights, every configuration in which the pool computes something,
    every decision of the environment, and whatever earlier calls left in the arrays of the object: multilevel
    bipartitioning ends without a violated precondition and returns a bipartition of the input with exact block weights.
    Neither its cut nor its overload is larger than that of the bipartition of the coarsest graph that the pool chose. The
    object can be used again. *)
Theorem C50_multilevel_bipartition : forall bits (limit perfect : nat -> Z) (imb : graph -> list Z -> Z) emax cfg env mcw g co old,
  (1 <= bits)%Z -> (mcw < 2 ^ (bits - 1))%Z -> 0 < gn g -> closed_graph g -> undirected g -> positive_edges g -> loop_free g ->
  fits (2 ^ (bits - 1)) g -> (forall lab, (cut_of g lab < emax)%Z) -> legal_menv (gn g) env -> usable cfg -> idle co ->
  exists q best levels co' po, multilevel bits limit perfect imb emax cfg env mcw g co old = Some (q, best, levels, co') /\
    coarsening mcw g levels /\ idle co' /\
    pool_bipartition (coarsest g levels) limit perfect (imb (coarsest g levels)) emax (mc_pool cfg)
      (me_pool env (gn (coarsest g levels))) old = Some po /\ best = po_best po /\
    bipartition (coarsest g levels) (fst best) (snd best) /\ bipartition g (fst q) (snd q) /\
    (overload limit g (fst q) <= overload limit (coarsest g levels) (fst best))%Z /\
    (cut_of g (fst q) <= cut_of (coarsest g levels) (fst best))%Z.
Proof.
  intros bits limit perfect imb emax cfg env mcw g co old H1 H2 H3 H4 H5 H6 H7 H8 H9 H10 H11.
  exact (multilevel_ok bits limit perfect imb emax cfg env mcw g H1 H2 H3 H4 H5 H6 H7 H8 H9 H10 H11 co old).
Qed.
Print Assumptions C50_multilevel_bipartition.

(** If no node and no permitted cluster is heavier than about twice the slack between a block's perfectly balanced weight and
    its limit, and random assignment is one of the algorithms of the pool, then the bipartition respects both limits. *)
Theorem C50_balanced : forall bits (limit perfect : nat -> Z) (imb : graph -> list Z -> Z) emax cfg env mcw g co old M i,
  (1 <= bits)%Z -> (mcw < 2 ^ (bits - 1))%Z -> 0 < gn g -> closed_graph g -> undirected g -> positive_edges g -> loop_free g ->
  fits (2 ^ (bits - 1)) g -> (forall lab, (cut_of g lab < emax)%Z) -> legal_menv (gn g) env -> usable cfg -> idle co ->
  i < pl_size (mc_pool cfg) -> (forall n, exists rnd, re_alg (me_pool env n 0 i) = ARandom rnd) ->
  (forall v, v < gn g -> (gvw g v <= M)%Z) -> (mcw <= M)%Z -> (0 <= perfect 0%nat)%Z -> (0 <= perfect 1%nat)%Z ->
  (total_weight g <= perfect 0%nat + perfect 1%nat)%Z -> (forall b, b < 2 -> (M <= 2 * (limit b - perfect b) + 1)%Z) ->
  exists q best levels co', multilevel bits limit perfect imb emax cfg env mcw g co old = Some (q, best, levels, co') /\
    bipartition g (fst q) (snd q) /\ feasible limit g (fst q).
Proof.
  intros bits limit perfect imb emax cfg env mcw g co old M i H1 H2 H3 H4 H5 H6 H7 H8 H9 H10 H11.
  exact (multilevel_feasible bits limit perfect imb emax cfg env mcw g H1 H2 H3 H4 H5 H6 H7 H8 H9 H10 H11 co old M i).
Qed.
Print Assumptions C50_balanced.

(** Every sequence of calls of one thread, which reuses its bipartitioner objects: every call labels every node of its graph
    (also of an empty graph) with 0 or 1. *)
Theorem C50_histories : forall bits (imb : graph -> list Z -> Z) emax cfg cs, (1 <= bits)%Z -> usable cfg ->
  (forall c, In c cs -> good_call (2 ^ (bits - 1)) emax c) ->
  exists ls, worker_calls bits imb emax cfg cs [] = Some ls /\ Forall2 (fun c lab => two_blocks (ca_graph c) lab) cs ls.
Proof.
  intros bits imb emax cfg cs Hb Hc Hg. exact (workers_ok bits imb emax cfg Hb Hc cs Hg [] (fun w H => match H with end)).
Qed.
Print Assumptions C50_histories.

(** Hence the code meets the interface that recursive bipartitioning (C09, C10) relies on: there is a bipartitioner in the
    sense of that specification which returns, for every call that the worker pool can cope with, what it computes. *)
Theorem C50_bipartitioner_interface : forall bits (imb : graph -> list Z -> Z) emax cfg
    (cs : lgraph -> nat -> nat -> call) (ws : lgraph -> nat -> nat -> list worker), (1 <= bits)%Z -> usable cfg ->
  exists bip, bipartitioner bip /\
    forall g abs k, gn (ca_graph (cs g abs k)) = length g -> good_call (2 ^ (bits - 1)) emax (cs g abs k) ->
      (forall w, In w (ws g abs k) -> idle (fst w)) ->
      exists ws', worker_bipartition bits imb emax cfg (cs g abs k) (ws g abs k) = Some (bip g abs k, ws').
Proof. intros bits imb emax cfg cs ws Hb Hc. exact (is_bipartitioner bits imb emax cfg Hb Hc cs ws). Qed.
Print Assumptions C50_bipartitioner_interface.

(** A path of six nodes: one level of coarsening, the pool cuts one edge, the projected bipartition is optimal. *)
Example C50_ex :
  0 < gn path6 /\ closed_graph path6 /\ undirected path6 /\ positive_edges path6 /\ loop_free path6 /\ fits (2 ^ 29) path6 /\
  (forall lab, (cut_of path6 lab < 2147483647)%Z) /\ legal_menv 6 (menv_of 6) /\ usable mcfg /\ idle used8 /\
  exists q best levels co', multilevel 30 (fun _ => 5%Z) (fun _ => 3%Z) (fun _ => spread) 2147483647 mcfg (menv_of 6) 2 path6 used8 ([], [])
    = Some (q, best, levels, co') /\ show_levels levels = [([0; 0; 1; 1; 2; 2], [[(1, 1%Z)]; [(0, 1%Z); (2, 1%Z)]; [(1, 1%Z)]], [2; 2; 2]%Z)] /\
      best = ([1; 0; 0], [4; 2]%Z) /\ q = ([1; 1; 0; 0; 0; 0], [4; 2]%Z).
Proof. exact multilevel_example. Qed.
