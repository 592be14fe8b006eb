(* C51: block weight limits of intermediate partitions. *)
From Coq Require Import Reals.
From Flocq Require Import Core.Core IEEE754.BinarySingleNaN.
From Verif Require Import Lib.Prelude Spec.LimitsSpec Model.SubgraphModel Model.ContextModel Proofs.ContextProofs Proofs.ContextExamples.
From Verif Require Model.LimitsModel Model.ContextFloatModel Proofs.ContextFloat.

(** C51. An intermediate partition into 2^l blocks gets, for every l, as limits the sums of the caller's limits over
    the final blocks its blocks will be split into; a partition into k blocks gets the caller's limits. *)
Theorem C51_kway_limits : forall ub ls l, 2 ^ l <= length ls -> (N.of_nat (length ls) < 2 ^ 31)%N ->
  kway_limits ub ls (2 ^ l) (length ls) = Some (tree_sums l ls).
Proof. exact kway_limits_pow2. Qed.
Print Assumptions C51_kway_limits.
Theorem C51_kway_limits_top : forall ub ls, kway_limits ub ls (length ls) (length ls) = Some ls.
Proof. exact kway_limits_top. Qed.
Print Assumptions C51_kway_limits_top.
Example C51_kway_ex : kway_limits 0 [10; 20; 30; 40; 50]%Z 2 5 = Some [60; 90]%Z /\ kway_limits 0 [10; 20; 30; 40; 50]%Z 4 5 = Some [30; 30; 40; 50]%Z.
Proof. vm_compute. auto. Qed.

(** C51. The limits for the two sides of a bipartition of block b are the limits of the two blocks on the next level. *)
Theorem C51_twoway_limits : forall ub ls l b, 2 ^ l <= length ls -> (N.of_nat (length ls) < 2 ^ 31)%N -> b < 2 ^ l ->
  twoway_limits ub false ls b (2 ^ l) (length ls) = Some (nth (2 * b) (tree_sums (S l) ls) 0%Z, nth (2 * b + 1) (tree_sums (S l) ls) 0%Z).
Proof. exact twoway_limits_ok. Qed.
Print Assumptions C51_twoway_limits.
(** C51. The shortcut for equal limits gives the same result for every block that is bipartitioned. *)
Theorem C51_twoway_limits_uniform : forall ub x k l b, 2 ^ l <= k -> (N.of_nat k < 2 ^ 31)%N -> b < 2 ^ l ->
  (exists num, final_k ub b (2 ^ l) k = Some num /\ 2 <= num) ->
  twoway_limits ub true (repeat x k) b (2 ^ l) k = twoway_limits ub false (repeat x k) b (2 ^ l) k.
Proof. exact twoway_uniform. Qed.
Print Assumptions C51_twoway_limits_uniform.
Example C51_twoway_ex : twoway_limits 0 false [10; 20; 30; 40; 50]%Z 0 2 5 = Some (30, 30)%Z /\ twoway_limits 0 false [10; 20; 30; 40; 50]%Z 0 4 5 = Some (10, 20)%Z /\
  twoway_limits 0 true (repeat 7%Z 5) 0 2 5 = Some (14, 7)%Z /\ final_k 0 0 2 5 = Some 3.
Proof. vm_compute. auto. Qed.

(** C51. The limits nest: the two sides of a block share its limit exactly, no limit is lost in total, and final
    weights within the caller's limits add up to intermediate weights within the intermediate limits. *)
Theorem C51_limits_nest : forall l ls,
  length (tree_sums l ls) = 2 ^ l /\ zsum (tree_sums l ls) = zsum ls /\
  (forall b, b < 2 ^ l -> nth b (tree_sums l ls) 0%Z = (nth (2 * b) (tree_sums (S l) ls) 0 + nth (2 * b + 1) (tree_sums (S l) ls) 0)%Z) /\
  (forall ws, Forall2 Z.le ws ls -> Forall2 Z.le (tree_sums l ws) (tree_sums l ls)).
Proof. exact (fun l ls => conj (tree_sums_count l ls) (conj (tree_sums_total l ls) (conj (tree_sums_children l ls) (fun ws => tree_sums_le l ws ls)))). Qed.
Print Assumptions C51_limits_nest.
Example C51_nest_ex : tree_sums 1 [10; 20; 30; 40; 50]%Z = [60; 90]%Z /\ tree_sums 1 [9; 20; 25; 40; 1]%Z = [54; 41]%Z.
Proof. vm_compute. auto. Qed.

(** C51. v-cycles whose numbers of blocks are increasing powers of two: every cycle gets the limits of its level, as
    long as the sum of all limits fits into an int. *)
Theorem C51_vcycle_limits_partial : forall ub ls lvls, (N.of_nat (length ls) < 2 ^ 31)%N -> (forall x, In x ls -> (0 <= x)%Z) -> (zsum ls < 2 ^ 31)%Z ->
  (forall l, In l lvls -> 2 ^ l < length ls) -> increasing lvls ->
  vcycle_limits ub ls (map (Nat.pow 2) lvls ++ [length ls]) = Some (map (fun l => tree_sums l ls) lvls ++ [ls]).
Proof. exact vcycle_limits_ok. Qed.
Print Assumptions C51_vcycle_limits_partial.
Example C51_vcycle_ex : vcycle_limits 0 [10; 20; 30; 40; 50]%Z [2; 4; 5] = Some [[60; 90]; [30; 30; 40; 50]; [10; 20; 30; 40; 50]]%Z.
Proof. vm_compute. auto. Qed.

(** C51, findings. v-cycles with 10 and 12 blocks, and with 3 and 4 blocks, read limits outside of the vector. *)
Theorem C51_vcycle_out_of_bounds_refuted :
  (exists ls steps, length ls = 12 /\ steps = [10; 12] /\ vcycle_limits 0 ls steps = None) /\
  (exists ls steps lims, length ls = 4 /\ steps = [3; 4] /\ vcycle_limits 0 ls steps = Some lims /\ kway_limits 0 ls 3 4 = None).
Proof. exact vcycle_out_of_bounds. Qed.
Print Assumptions C51_vcycle_out_of_bounds_refuted.
(** C51, finding. With 64-bit weights the limits of v-cycles are truncated to 32 bits: four blocks with limit 2^31
    give two blocks with limit 0. *)
Theorem C51_vcycle_wide_refuted : exists ls lims, length ls = 4 /\ (forall x, In x ls -> (0 <= x < 2 ^ 63)%Z) /\
  vcycle_limits 0 ls [2; 4] = Some lims /\ hd [] lims = [0; 0]%Z /\ tree_sums 1 ls = [2 ^ 32; 2 ^ 32]%Z.
Proof. exact vcycle_wide_witness. Qed.
Print Assumptions C51_vcycle_wide_refuted.

(** C51. If the caller gives one epsilon, the limit of an intermediate block that stands for [cnt] of the k final
    blocks is computed with doubles. It is at least the average weight of [cnt] blocks. *)
Theorem C51_uniform_limit_suffices : forall w eps orig total k cnt m,
  (1 <= total <= orig)%Z -> (orig < 2 ^ 53)%Z -> (1 <= k < 2 ^ 32)%Z -> (0 <= cnt < 2 ^ 32)%Z -> (cnt * total < 2 ^ 53)%Z -> (0 <= B2R eps)%R ->
  ContextFloatModel.uniform_limit w eps orig total k cnt = Some m -> (cnt * total <= k * m)%Z.
Proof. exact ContextFloat.uniform_limit_ok. Qed.
Print Assumptions C51_uniform_limit_suffices.
(** C51, finding. It can exceed the sum of the limits of the [cnt] final blocks: total weight 200, 4 blocks,
    epsilon = 0.03. The final limits are 51, the limit of a block that stands for two of them is 103. *)
Theorem C51_uniform_limit_refuted : exists eps total k cnt m f L,
  LimitsModel.setup_uniform 32 total 1 k eps false = Some L /\ LimitsModel.l_max L = repeat f (Z.to_nat k) /\
  ContextFloatModel.uniform_limit 32 eps total total k cnt = Some m /\ (cnt * f < m)%Z.
Proof. exact uniform_rounding. Qed.
Print Assumptions C51_uniform_limit_refuted.
Example C51_uniform_ex : ContextFloatModel.uniform_limit 32 (LimitsModel.d_div (LimitsModel.d_of 3) (LimitsModel.d_of 100)) 1000 1000 7 4 = Some 589%Z.
Proof. vm_compute. auto. Qed.
