(* What the environment of a multilevel bipartitioning may choose. *)
From Verif Require Import Lib.Prelude Spec.Graph Spec.Quotient Spec.InitialSpec Spec.InitialCoarsenSpec.
From Verif Require Import Model.InitialFmModel Model.InitialPoolModel Model.InitialMultilevelModel.

(** Coarsening may choose as in C48, the pool and the refinement visit nodes in any order; cached block weight arrays have
    two entries at most (any values). *)
Definition legal_menv (n : nat) (env : menv) : Prop :=
  legal_env n (me_coarsen env) /\
  (forall n r i k, legal_order n (rc_chunks (re_rounds (me_pool env n r i) k)) (rc_perms (re_rounds (me_pool env n r i) k))) /\
  (forall n l k, legal_order n (rc_chunks (me_rounds env n l k)) (rc_perms (me_rounds env n l k))) /\
  (forall l, length (me_cached env l) <= 2).

(** A usable configuration of the pool: an algorithm is registered, and one repetition must not skip any. *)
Definition usable (cfg : mconfig) : Prop :=
  0 < pl_size (mc_pool cfg) /\ (1 <= pl_min (mc_pool cfg))%Z /\
  ((1 <= pl_fixed (mc_pool cfg))%Z \/ pl_adaptive (mc_pool cfg) = false).

(** A call with which the worker pool can cope: an undirected graph without self-loops, with positive edge weights, whose
    total cut is below [emax] and whose node weights are below [bound], as is the maximum cluster weight. *)
Definition good_call (bound emax : Z) (c : call) : Prop :=
  closed_graph (ca_graph c) /\ undirected (ca_graph c) /\ positive_edges (ca_graph c) /\ loop_free (ca_graph c) /\
  fits bound (ca_graph c) /\ (ca_mcw c < bound)%Z /\ (forall lab, (cut_of (ca_graph c) lab < emax)%Z) /\
  legal_menv (gn (ca_graph c)) (ca_env c).

(** [label] gives every node a block 0 or 1. *)
Definition two_blocks (g : graph) (label : list nat) : Prop :=
  length label = gn g /\ forall u, u < gn g -> nth u label 0 < 2.
