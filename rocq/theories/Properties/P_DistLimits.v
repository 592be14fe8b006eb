(* C68: the limits of the block weights of distributed graphs. [B2R] is the real number a finite double stands for. *)
From Coq Require Import Reals.
From Flocq Require Import Core.Core IEEE754.BinarySingleNaN.
From Verif Require Import Lib.Prelude Model.LimitsModel Model.DistLimitsModel Spec.Graph Spec.DistLimitsSpec Proofs.DistLimitsProofs.
Local Open Scope Z_scope.

(** All k blocks get the same limit, at least the rounded-up average block weight [P]. If the number of nodes is the total weight, it is
    (1 + epsilon) P up to truncation and floating point error; otherwise the larger one of that and [P] plus the largest node weight. *)
Theorem C68_limits : forall n total max_nw k eps L,
  0 <= total < 2 ^ 53 -> 1 <= k < 2 ^ 32 -> is_finite eps = true -> (0 <= B2R eps)%R -> dist_limits n total max_nw k eps = Some L ->
  exists P M E, k * (P - 1) < total <= k * P /\ L = repeat M (Z.to_nat k) /\ P <= E <= M /\ (n = total -> M = E) /\ (n <> total -> M = Z.max E (P + max_nw)) /\
    (Rabs (IZR E - (1 + B2R eps) * IZR P) <= 1 + (1 + B2R eps) * IZR P * / IZR (2 ^ 51))%R.
Proof. exact dist_limits_ok. Qed.
Print Assumptions C68_limits.
(** They are defined if a multiple [c >= 1 + epsilon] of [P] is at most 2^53. *)
Theorem C68_limits_defined : forall n total max_nw k eps c P,
  0 <= total < 2 ^ 53 -> 0 <= max_nw < 2 ^ 53 -> 1 <= k < 2 ^ 32 -> is_finite eps = true -> (0 <= B2R eps)%R -> (1 + B2R eps <= IZR c)%R ->
  k * (P - 1) < total <= k * P -> c <= 2 ^ 53 -> c * P <= 2 ^ 53 -> exists L, dist_limits n total max_nw k eps = Some L.
Proof. exact dist_limits_defined. Qed.
Print Assumptions C68_limits_defined.
(** For every graph with positive node weights, on every level, there is a partition within the limits. *)
Theorem C68_feasible_partition_partial : forall G mx k eps L, max_weight G mx -> (forall u, (u < gn G)%nat -> 0 < gvw G u) -> total_weight G < 2 ^ 53 -> 1 <= k < 2 ^ 32 ->
  is_finite eps = true -> (0 <= B2R eps)%R -> dist_limits (Z.of_nat (gn G)) (total_weight G) mx k eps = Some L -> length L = Z.to_nat k /\ exists part, within G L part.
Proof. exact feasible_exists. Qed.
Print Assumptions C68_feasible_partition_partial.
Example C68_limits_example : is_finite three_percent = true /\ dist_limits 1000 1000 1 3 three_percent = Some [344; 344; 344] /\ dist_limits 100 1000 20 3 three_percent = Some [354; 354; 354] /\
  (forall u, (u < gn heavy_graph)%nat -> 0 < gvw heavy_graph u) /\ dist_limits (Z.of_nat (gn heavy_graph)) (total_weight heavy_graph) 6 2 three_percent = Some [12; 12].
Proof. split; [reflexivity|]. split; [vm_compute; reflexivity|]. split; [vm_compute; reflexivity|]. split; [exact heavy_positive|vm_compute; reflexivity]. Qed.

(** With nodes of weight 0 there may be none: "number of nodes = total weight" does not mean that all weights are 1. *)
Theorem C68_zero_weight_refuted : exists G mx L, max_weight G mx /\ (forall u, (u < gn G)%nat -> 0 <= gvw G u) /\
  dist_limits (Z.of_nat (gn G)) (total_weight G) mx 2 three_percent = Some L /\ forall part, ~ within G L part.
Proof. exact zero_weight. Qed.
Print Assumptions C68_zero_weight_refuted.
(** For an input graph with node weights the limits do not enforce the balance that the caller asked for (3%), although a perfectly balanced
    partition exists: all nodes may be in one of two blocks. *)
Theorem C68_weighted_input_refuted : exists G mx L, max_weight G mx /\ (forall u, (u < gn G)%nat -> 0 < gvw G u) /\
  dist_limits (Z.of_nat (gn G)) (total_weight G) mx 2 three_percent = Some L /\ within G L (fun _ => 0%nat) /\ block_weight G (fun _ => 0%nat) 0 = 2 * 6 /\ exists part, within G [6; 6] part.
Proof. exact heavy_node. Qed.
Print Assumptions C68_weighted_input_refuted.
