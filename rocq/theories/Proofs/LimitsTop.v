(* The default block weight limits suffice. *)
From Coq Require Import Reals Lra.
From Flocq Require Import Core.Core IEEE754.BinarySingleNaN Relative.
From Verif Require Import Lib.Prelude Model.LimitsModel Proofs.LimitsProofs.
Local Open Scope Z_scope.

Lemma zsum_repeat x n : zsum (repeat x n) = Z.of_nat n * x.
Proof. induction n as [|n IH]; [reflexivity|]. change (zsum (repeat x (S n))) with (x + zsum (repeat x n)). rewrite IH. lia. Qed.
Lemma relax_repeat w e nw x n ls : relax_all w e nw (repeat x n) = Some ls -> exists r, x <= r /\ ls = repeat r n.
Proof.
  destruct n as [|n]; [intros [= <-]; exists x; split; [lia|reflexivity]|].
  intros H. cbn [repeat relax_all] in H. destruct (relax_one w e nw x) as [r|] eqn:E; [|discriminate].
  assert (X : x <= r) by (unfold relax_one in E; destruct (d_to _ _); [injection E as <-; lia|discriminate]).
  exists r. split; auto. revert ls H. induction n as [|n IH]; intros ls H; cbn [repeat relax_all] in H.
  - injection H as <-. reflexivity.
  - rewrite E in H. destruct (relax_all w e nw (repeat x n)) eqn:F; [|discriminate]. injection H as <-.
    specialize (IH _ eq_refl). change (repeat r (S (S n))) with (r :: repeat r (S n)). rewrite <- IH. reflexivity.
Qed.

Theorem default_limits : forall w total max_nw k eps relax L,
  0 <= total < 2 ^ 53 -> 1 <= k < 2 ^ 32 -> is_finite eps = true -> (0 <= B2R eps)%R ->
  setup_uniform w total max_nw k eps relax = Some L ->
  exists M R, l_unrelaxed L = repeat M (Z.to_nat k) /\ l_max L = repeat R (Z.to_nat k) /\ M <= R /\ (relax = false -> R = M) /\
    total <= k * M /\ total <= zsum (l_max L) /\
    forall P, k * (P - 1) < total <= k * P -> (Rabs (IZR M - (1 + B2R eps) * IZR P) <= 1 + (1 + B2R eps) * IZR P * / IZR (2 ^ 51))%R.
Proof.
  intros w total nw k eps rel L HT HK Fe He H. unfold setup_uniform, perfect_weight in H.
  destruct (perfect_val total k HT HK) as [A B]. cbv zeta in A, B.
  destruct (d_to w (d_ceil _)) as [p|] eqn:E1; [|discriminate]. apply d_to_spec in E1. destruct E1 as (_ & E1 & _). rewrite B in E1.
  destruct (d_to w (d_mul _ _)) as [M|] eqn:E2; [|discriminate].
  pose proof (zceil_bounds total k ltac:(lia) ltac:(lia)) as CB. destruct (zceil_div_spec total k ltac:(lia)) as [L1 L2].
  destruct (limit_ok eps p M w ltac:(lia) Fe He E2) as [G1 G2].
  assert (S1 : exists R, l_unrelaxed L = repeat M (Z.to_nat k) /\ l_max L = repeat R (Z.to_nat k) /\ M <= R /\ (rel = false -> R = M)).
  { unfold setup_limits in H. destruct rel.
    - destruct (i_fit w _) as [s|]; [|discriminate]. destruct (relax_all _ _ _ _) as [ls|] eqn:E3; [|discriminate]. injection H as <-.
      apply relax_repeat in E3. destruct E3 as (r & X & ->). exists r. cbn. repeat split; auto. discriminate.
    - injection H as <-. exists M. cbn. repeat split; auto. lia. }
  destruct S1 as (R & S1 & S2 & S3 & S4). exists M, R.
  assert (KM : total <= k * M) by nia.
  split; [auto|]. split; [auto|]. split; [auto|]. split; [auto|]. split; [auto|]. split.
  - rewrite S2, zsum_repeat. rewrite Z2Nat.id by lia. nia.
  - intros P HP. assert (P = p) by nia. subst P. exact G2.
Qed.

(** The limits are defined (no conversion out of range) if (1 + epsilon) times the perfect weight fits into the type. *)
Theorem default_limits_defined : forall w total max_nw k eps c P,
  0 <= total < 2 ^ 53 -> 1 <= k < 2 ^ 32 -> is_finite eps = true -> (0 <= B2R eps)%R -> (1 + B2R eps <= IZR c)%R ->
  k * (P - 1) < total <= k * P -> c * P < 2 ^ (w - 1) -> c <= 2 ^ 53 -> c * P <= 2 ^ 53 ->
  exists M, setup_uniform w total max_nw k eps false = Some (mkLimits (repeat M (Z.to_nat k)) (repeat M (Z.to_nat k)) (i_fit w (k * M))) /\ P <= M <= c * P.
Proof.
  intros w total nw k eps c P HT HK Fe He Hc HP W C53 CP.
  destruct (perfect_val total k HT HK) as [A B]. cbv zeta in A, B.
  destruct (zceil_div_spec total k ltac:(lia)) as [L1 L2]. pose proof (zceil_bounds total k ltac:(lia) ltac:(lia)) as CB.
  assert (EP : zceil_div total k = P) by nia. rewrite EP in B.
  assert (c1 : 1 <= c) by (apply le_IZR; lra).
  assert (W0 : 0 < 2 ^ (w - 1)) by nia.
  destruct d_1 as [A1 B1]. destruct (d_of_spec P ltac:(lia)) as [C D]. assert (P0 : (0 <= IZR P)%R) by (apply IZR_le; lia).
  assert (F1 : is_finite (d_add (d_of 1) eps) = true) by (apply (d_add_fin _ _ c); auto; [rewrite A1; lra|lia]).
  assert (V1 := d_add_spec _ _ F1 B1 Fe). rewrite A1 in V1.
  assert (R1 := rn_bound (1 + B2R eps) c ltac:(lra) ltac:(lia)). rewrite <- V1 in R1.
  assert (PB : (0 <= B2R (d_add (d_of 1) eps) * IZR P <= IZR (c * P))%R) by (rewrite mult_IZR; split; [apply Rmult_le_pos; lra|apply Rmult_le_compat_r; lra]).
  assert (F2 : is_finite (d_mul (d_add (d_of 1) eps) (d_of P)) = true) by (apply (d_mul_fin _ _ (c * P)); auto; [rewrite C; exact PB|nia]).
  assert (V2 := d_mul_spec _ _ F2 F1 D). rewrite C in V2.
  assert (R2 := rn_bound _ (c * P) PB ltac:(nia)). rewrite <- V2 in R2.
  set (x := d_mul (d_add (d_of 1) eps) (d_of P)) in *.
  assert (T : Btrunc x <= c * P).
  { rewrite trunc_spec, Ztrunc_floor by tauto. apply le_IZR. apply Rle_trans with (B2R x); [apply Zfloor_lb|tauto]. }
  assert (T0 : 0 <= Btrunc x) by (rewrite trunc_spec, Ztrunc_floor by tauto; apply Zfloor_lub; tauto).
  assert (E2 : d_to w x = Some (Btrunc x)) by (apply d_to_spec; repeat split; auto; lia).
  destruct (limit_ok eps P (Btrunc x) w ltac:(lia) Fe He E2) as [G1 _].
  exists (Btrunc x). split; [|lia]. unfold setup_uniform, perfect_weight.
  assert (E1 : d_to w (d_ceil (d_div (d_mul (d_of 1) (d_of total)) (d_of k))) = Some P).
  { apply d_to_spec. repeat split; auto; nia. }
  rewrite E1. fold x. rewrite E2. unfold setup_limits. rewrite zsum_repeat, Z2Nat.id by lia. reflexivity.
Qed.

(** Relaxing never lowers a limit. *)
Theorem relaxed_limits : forall w total max_nw ls relax L, setup_limits w total max_nw ls relax = Some L ->
  l_unrelaxed L = ls /\ Forall2 Z.le ls (l_max L).
Proof.
  intros w total nw ls rel L H. unfold setup_limits in H.
  assert (RF : forall l : list Z, Forall2 Z.le l l) by (induction l; constructor; [lia|auto]).
  destruct rel; [|injection H as <-; split; [reflexivity|apply RF]].
  destruct (i_fit w _) as [s|]; [|discriminate]. destruct (relax_all _ _ _ _) as [ls'|] eqn:E3; [|discriminate]. injection H as <-.
  split; [reflexivity|]. cbn [l_max]. revert ls' E3. generalize (inferred_epsilon s total) as e. clear.
  intros e. induction ls as [|l t IH]; intros ls' H; cbn [relax_all] in H; [injection H as <-; constructor|].
  destruct (relax_one w e nw l) as [r|] eqn:E; [|discriminate]. destruct (relax_all w e nw t) as [t'|] eqn:F; [|discriminate]. injection H as <-.
  constructor; [|auto]. unfold relax_one in E. destruct (d_to _ _); [injection E as <-; lia|discriminate].
Qed.

(** 64-bit weights above 2^53 are rounded. *)
Theorem large_total_refuted : exists total k L, 0 <= total < 2 ^ 63 /\ 1 <= k /\
  setup_uniform 64 total 1 k (d_of 0) false = Some L /\ zsum (l_max L) < total.
Proof.
  exists (2 ^ 53 + 1), 1, (mkLimits [2 ^ 53] [2 ^ 53] (Some (2 ^ 53))). split; [lia|]. split; [lia|]. split; [vm_compute; reflexivity|vm_compute; reflexivity].
Qed.

(** The 32-bit sum of the limits overflows although every limit and the total weight fit. *)
Theorem sum_refuted : exists total k L, 0 <= total < 2 ^ 31 /\ 1 <= k /\
  setup_uniform 32 total 1 k (d_div (d_of 3) (d_of 100)) false = Some L /\ l_total L = None.
Proof.
  exists (2 ^ 31 - 1), 2, (mkLimits [1105954078; 1105954078] [1105954078; 1105954078] None). split; [lia|]. split; [lia|]. split; vm_compute; reflexivity.
Qed.
