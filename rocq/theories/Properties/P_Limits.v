(* C04: default maximum block weights. Doubles are IEEE 754 binary64 numbers (Flocq); [B2R] is the real number a finite
   double stands for. *)
From Coq Require Import Reals.
From Flocq Require Import Core.Core IEEE754.BinarySingleNaN.
From Verif Require Import Lib.Prelude Model.LimitsModel Proofs.LimitsTop.
Local Open Scope Z_scope.

(** Every total node weight below 2^53, every number of blocks, every finite non-negative double epsilon: all [k] blocks
    get the same limit; the limit is at least the average block weight rounded up ([total <= k * M] for the integer [M]),
    relaxing the limits only increases them, and the sum of the limits is at least the total node weight. The limit is
    (1 + epsilon) times the rounded-up average [P] up to truncation and floating point error. *)
Theorem C04_default_limits : forall w total max_nw k eps relax L,
  0 <= total < 2 ^ 53 -> 1 <= k < 2 ^ 32 -> is_finite eps = true -> (0 <= B2R eps)%R ->
  setup_uniform w total max_nw k eps relax = Some L ->
  exists M R, l_unrelaxed L = repeat M (Z.to_nat k) /\ l_max L = repeat R (Z.to_nat k) /\ M <= R /\ (relax = false -> R = M) /\
    total <= k * M /\ total <= zsum (l_max L) /\
    forall P, k * (P - 1) < total <= k * P -> (Rabs (IZR M - (1 + B2R eps) * IZR P) <= 1 + (1 + B2R eps) * IZR P * / IZR (2 ^ 51))%R.
Proof. exact default_limits. Qed.
Print Assumptions C04_default_limits.

(** The limits are computed without an out-of-range conversion whenever an integer multiple [c >= 1 + epsilon] of the
    rounded-up average [P] fits into the block weight type, and they lie between [P] and [c * P]. *)
Theorem C04_default_limits_defined : forall w total max_nw k eps c P,
  0 <= total < 2 ^ 53 -> 1 <= k < 2 ^ 32 -> is_finite eps = true -> (0 <= B2R eps)%R -> (1 + B2R eps <= IZR c)%R ->
  k * (P - 1) < total <= k * P -> c * P < 2 ^ (w - 1) -> c <= 2 ^ 53 -> c * P <= 2 ^ 53 ->
  exists M, setup_uniform w total max_nw k eps false = Some (mkLimits (repeat M (Z.to_nat k)) (repeat M (Z.to_nat k)) (i_fit w (k * M))) /\ P <= M <= c * P.
Proof. exact default_limits_defined. Qed.
Print Assumptions C04_default_limits_defined.

(** Limits given by the caller are kept; relaxing them never lowers one. *)
Theorem C04_relaxed_limits : forall w total max_nw ls relax L, setup_limits w total max_nw ls relax = Some L ->
  l_unrelaxed L = ls /\ Forall2 Z.le ls (l_max L).
Proof. exact relaxed_limits. Qed.
Print Assumptions C04_relaxed_limits.

(** Finding: with 64-bit weights and a total weight above 2^53 the limits may be too small. *)
Theorem C04_large_total_refuted : exists total k L, 0 <= total < 2 ^ 63 /\ 1 <= k /\
  setup_uniform 64 total 1 k (d_of 0) false = Some L /\ zsum (l_max L) < total.
Proof. exact large_total_refuted. Qed.
Print Assumptions C04_large_total_refuted.

(** Finding: the sum of the limits (kaminpar.cc:60-62) overflows for 32-bit weights although the total weight fits. *)
Theorem C04_sum_fits_refuted : exists total k L, 0 <= total < 2 ^ 31 /\ 1 <= k /\
  setup_uniform 32 total 1 k (d_div (d_of 3) (d_of 100)) false = Some L /\ l_total L = None.
Proof. exact sum_refuted. Qed.
Print Assumptions C04_sum_fits_refuted.

(** Total weight 1000, three blocks, epsilon = 0.03: 334 and floor(1.03 * 334) = 344. *)
Example C04_default_limits_ex : is_finite (d_div (d_of 3) (d_of 100)) = true /\
  setup_uniform 32 1000 20 3 (d_div (d_of 3) (d_of 100)) false = Some (mkLimits [344; 344; 344] [344; 344; 344] (Some 1032)) /\
  setup_uniform 32 1000 20 3 (d_div (d_of 3) (d_of 100)) true = Some (mkLimits [354; 354; 354] [344; 344; 344] (Some 1032)).
Proof. vm_compute. repeat split. Qed.
