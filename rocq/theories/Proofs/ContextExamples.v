(* Cases and witnesses about the limits of intermediate partitions. *)
From Verif Require Import Lib.Prelude Spec.BlockTree Spec.LimitsSpec Model.MathModel Model.PartUtilsModel Model.SubgraphModel Model.ContextModel Proofs.FinalK Proofs.ContextProofs Proofs.PartUtilsProofs.

Lemma range_sum_repeat x k p n : p + n <= k -> range_sum (repeat x k) p (p + n) = Some (x * Z.of_nat n)%Z.
Proof.
  intros H. unfold range_sum. rewrite repeat_length.
  replace (_ <=? _) with true by (symmetry; apply Nat.leb_le; lia).
  replace (_ <=? _) with true by (symmetry; apply Nat.leb_le; lia). cbn [andb]. f_equal.
  replace (p + n - p) with n by lia. replace k with (p + (n + (k - p - n))) by lia.
  rewrite repeat_app, skipn_app, skipn_all2, repeat_length, Nat.sub_diag by (rewrite repeat_length; lia). cbn [skipn app].
  rewrite repeat_app, firstn_app, repeat_length, Nat.sub_diag, firstn_all2 by (rewrite repeat_length; lia). cbn [firstn]. rewrite app_nil_r.
  clear H. induction n; cbn [repeat]; [cbn; lia|]. change (zsum (x :: repeat x n)) with (x + zsum (repeat x n))%Z. rewrite IHn. lia.
Qed.

Lemma total_max_uniform x k p n : p + n <= k -> 1 <= n -> total_max true (repeat x k) p (p + n) = total_max false (repeat x k) p (p + n).
Proof.
  intros H H1. unfold total_max. rewrite range_sum_repeat by auto. rewrite nth_error_repeat by lia. cbn [option_map].
  do 3 f_equal. lia.
Qed.

Lemma twoway_uniform ub x k l b : 2 ^ l <= k -> (N.of_nat k < 2 ^ 31)%N -> b < 2 ^ l ->
  (exists num, final_k ub b (2 ^ l) k = Some num /\ 2 <= num) ->
  twoway_limits ub true (repeat x k) b (2 ^ l) k = twoway_limits ub false (repeat x k) b (2 ^ l) k.
Proof.
  intros H1 H2 Hb (num & EN & Hn).
  destruct (sub_blocks_tile ub l (N.of_nat k)) as [_ T]; [rewrite <- pow_N_nat; lia|auto|].
  destruct (T (N.of_nat b)) as (lo & hi & fk & E1 & E2 & E3 & E4 & E5 & E6 & E7); [rewrite <- pow_N_nat; lia|].
  unfold twoway_limits, first_sub, first_invalid_sub. rewrite EN. rewrite pow_N_nat, E1, E2. cbn [option_map].
  unfold final_k in EN. rewrite pow_N_nat, E3 in EN. injection EN as EN. cbn [split_integral fst]. rewrite half_nat.
  assert (Hhi : N.to_nat hi <= k).
  { assert (hi <= N.of_nat k)%N; [|lia]. destruct (N.eq_dec (N.of_nat b + 1) (2 ^ N.of_nat l)) as [E|E]; [rewrite (E7 E); lia|].
    specialize (E6 ltac:(rewrite <- pow_N_nat in *; lia)).
    destruct (T (N.of_nat b + 1)%N) as (lo' & hi' & fk' & G1 & G2 & _); [rewrite <- pow_N_nat in *; lia|].
    rewrite E6 in G1. injection G1 as ->. clear -E6 H1 H2 Hb E.
    pose proof (level_lt_31 l k H1 H2). replace (2 ^ N.of_nat l)%N with (2 ^ N.of_nat l)%N in E6 by auto.
    rewrite first_sub_block_pow2 in E6 by (rewrite <- ?pow_N_nat in *; lia). injection E6 as <-. unfold prefix_labels.
    rewrite <- (tree_level_sum l (N.of_nat k)) at 2. generalize (tree_level l (N.of_nat k)). clear. intros t. generalize (N.to_nat (N.of_nat b + 1)). intros n. revert t.
    induction n; intros [|y t]; cbn [firstn BlockTree.nsum]; try lia. specialize (IHn t). lia. }
  assert (Hh : 1 <= (num + 1) / 2 < num).
  { split; [apply Nat.div_le_lower_bound; lia|]. apply Nat.div_lt_upper_bound; lia. }
  set (h := (num + 1) / 2) in *. replace (N.to_nat hi) with ((N.to_nat lo + h) + (num - h)) by lia.
  rewrite !total_max_uniform by lia. reflexivity.
Qed.

(** A cycle with 10 blocks before one with 12 blocks. *)
Lemma vcycle_10_12 : vcycle_limits 0 (repeat 5%Z 12) [10; 12] = None.
Proof. vm_compute. reflexivity. Qed.
(** A cycle with 3 blocks before one with 4 blocks: the limits are computed, but not those of the partition into 3
    blocks that the second cycle starts with. *)
Lemma vcycle_3_4 : vcycle_limits 0 (repeat 5%Z 4) [3; 4] = Some [[5; 5; 10]%Z; [5; 5; 5; 5]%Z] /\ kway_limits 0 (repeat 5%Z 4) 3 4 = None.
Proof. vm_compute. split; reflexivity. Qed.
(** Limits above 2^31 (64-bit weights). *)
Lemma vcycle_wide : vcycle_limits 0 (repeat (2 ^ 31)%Z 4) [2; 4] = Some [[0; 0]%Z; repeat (2 ^ 31)%Z 4].
Proof. vm_compute. reflexivity. Qed.

Lemma wide_range x : In x (repeat (2 ^ 31)%Z 4) -> (0 <= x < 2 ^ 63)%Z.
Proof. intros H. apply repeat_spec in H. subst. lia. Qed.

From Verif Require Model.LimitsModel Model.ContextFloatModel.
Lemma uniform_rounding : exists eps total k cnt m f L,
  LimitsModel.setup_uniform 32 total 1 k eps false = Some L /\ LimitsModel.l_max L = repeat f (Z.to_nat k) /\
  ContextFloatModel.uniform_limit 32 eps total total k cnt = Some m /\ (cnt * f < m)%Z.
Proof.
  exists (LimitsModel.d_div (LimitsModel.d_of 3) (LimitsModel.d_of 100)), 200%Z, 4%Z, 2%Z, 103%Z, 51%Z, (LimitsModel.mkLimits (repeat 51%Z 4) (repeat 51%Z 4) (Some 204%Z)).
  split; [vm_compute; reflexivity|]. split; [reflexivity|]. split; [vm_compute; reflexivity|lia].
Qed.

Lemma vcycle_out_of_bounds :
  (exists ls steps, length ls = 12 /\ steps = [10; 12] /\ vcycle_limits 0 ls steps = None) /\
  (exists ls steps lims, length ls = 4 /\ steps = [3; 4] /\ vcycle_limits 0 ls steps = Some lims /\ kway_limits 0 ls 3 4 = None).
Proof.
  split.
  - exists (repeat 5%Z 12), [10; 12]. split; [reflexivity|]. split; [reflexivity|]. exact vcycle_10_12.
  - exists (repeat 5%Z 4), [3; 4]. eexists. split; [reflexivity|]. split; [reflexivity|]. exact vcycle_3_4.
Qed.
Lemma vcycle_wide_witness : exists ls lims, length ls = 4 /\ (forall x, In x ls -> (0 <= x < 2 ^ 63)%Z) /\
  vcycle_limits 0 ls [2; 4] = Some lims /\ hd [] lims = [0; 0]%Z /\ tree_sums 1 ls = [2 ^ 32; 2 ^ 32]%Z.
Proof.
  exists (repeat (2 ^ 31)%Z 4). eexists. split; [reflexivity|]. split; [exact wide_range|]. split; [exact vcycle_wide|]. split; reflexivity.
Qed.
