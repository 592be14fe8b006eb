(* Limits of intermediate blocks for uniform final limits. *)
From Coq Require Import Reals Lra.
From Flocq Require Import Core.Core IEEE754.BinarySingleNaN Relative.
From Verif Require Import Lib.Prelude Model.LimitsModel Model.ContextFloatModel Proofs.LimitsProofs.
Local Open Scope R_scope.

Lemma finite_add_inv x y : is_finite (d_add x y) = true -> is_finite x = true /\ is_finite y = true.
Proof. destruct x as [| [|] | |], y as [| [|] | |]; cbn; auto; try discriminate. Qed.
Lemma finite_sub_inv x y : is_finite (d_sub x y) = true -> is_finite x = true /\ is_finite y = true.
Proof. destruct x as [| [|] | |], y as [| [|] | |]; cbn; auto; try discriminate. Qed.
Lemma finite_div_inv x y : is_finite (d_div x y) = true -> is_finite y = true -> is_finite x = true.
Proof. destruct x as [| [|] | |], y as [| [|] | |]; cbn; auto; try discriminate. Qed.
Lemma d_sub_spec x y : is_finite (d_sub x y) = true -> is_finite x = true -> is_finite y = true -> B2R (d_sub x y) = rn (B2R x - B2R y).
Proof.
  intros F Hx Hy. generalize (@Bminus_correct 53 1024 Hprec Hemax mode_NE x y Hx Hy). fold (d_sub x y). cbn [round_mode]. fold (rn (B2R x - B2R y)).
  destruct (Rlt_bool _ _); [tauto|]. intros (E & _). apply overflow_not_finite in E. congruence.
Qed.
Lemma d_div_fin_spec x y : is_finite (d_div x y) = true -> B2R y <> 0 -> B2R (d_div x y) = rn (B2R x / B2R y).
Proof.
  intros F Hy. generalize (@Bdiv_correct 53 1024 Hprec Hemax mode_NE x y Hy). fold (d_div x y). cbn [round_mode]. fold (rn (B2R x / B2R y)).
  destruct (Rlt_bool _ _); [tauto|]. intros E. apply overflow_not_finite in E. congruence.
Qed.

(** The rounded-up quotient as a real number. *)
Lemma ceil_quotient x total k : is_finite x = true -> B2R x = IZR total -> (0 <= total < 2 ^ 53)%Z -> (1 <= k < 2 ^ 32)%Z ->
  is_finite (d_ceil (d_div x (d_of k))) = true /\ B2R (d_ceil (d_div x (d_of k))) = IZR (zceil_div total k).
Proof.
  intros B A HT HK. destruct (d_of_spec k ltac:(lia)) as [C D].
  assert (K0 : 1 <= IZR k) by (apply IZR_le; lia). assert (T0 : 0 <= IZR total) by (apply IZR_le; lia).
  destruct (d_div_spec x (d_of k) total B) as [E F].
  - rewrite C. lra.
  - rewrite A, C. split; [apply Rmult_le_pos; [lra|left; apply Rinv_0_lt_compat; lra]|].
    apply Rmult_le_reg_r with (IZR k); [lra|]. unfold Rdiv. rewrite Rmult_assoc, Rinv_l, Rmult_1_r by lra. nra.
  - lia.
  - destruct (d_ceil_spec (d_div x (d_of k))) as [G H]. split; [congruence|].
    rewrite G, F, A, C. f_equal. now apply perfect_ceil.
Qed.

Lemma grow_ge e y p : is_finite (d_mul (d_add (d_of 1) e) y) = true -> 0 <= B2R e -> B2R y = IZR p -> (0 <= p < 2 ^ 53)%Z ->
  IZR p <= B2R (d_mul (d_add (d_of 1) e) y).
Proof.
  intros F He Hy HP. destruct (finite_mul_inv _ _ F) as [F1 F2]. destruct (finite_add_inv _ _ F1) as [F3 F4].
  destruct d_1 as [A1 B1]. rewrite (d_mul_spec _ _ F F1 F2), Hy, (d_add_spec _ _ F1 F3 F4), A1.
  assert (P0 : 0 <= IZR p) by (apply IZR_le; lia).
  assert (G1 : 1 <= rn (1 + B2R e)) by (rewrite <- (rn_int 1) at 1 by lia; apply rn_le; lra).
  rewrite <- (rn_int p) at 1 by lia. apply rn_le. nra.
Qed.

Lemma zceil_mono a b k : (1 <= k)%Z -> (a <= b)%Z -> (zceil_div a k <= zceil_div b k)%Z.
Proof. intros K H. unfold zceil_div. apply -> Z.opp_le_mono. apply Z.div_le_mono; lia. Qed.

Lemma inferred_nonneg eps orig total k : (1 <= total <= orig)%Z -> (orig < 2 ^ 53)%Z -> (1 <= k < 2 ^ 32)%Z -> 0 <= B2R eps ->
  is_finite (uniform_epsilon eps orig total k) = true -> 0 <= B2R (uniform_epsilon eps orig total k).
Proof.
  intros HT HO HK He F. unfold uniform_epsilon in *.
  destruct (d_mul_1 orig ltac:(lia)) as [A B]. destruct (d_mul_1 total ltac:(lia)) as [A' B'].
  destruct (ceil_quotient _ orig k B A ltac:(lia) HK) as [F1 E1]. destruct (ceil_quotient _ total k B' A' ltac:(lia) HK) as [F2 E2].
  set (co := d_ceil (d_div (d_mul (d_of 1) (d_of orig)) (d_of k))) in *. set (ct := d_ceil (d_div (d_mul (d_of 1) (d_of total)) (d_of k))) in *.
  destruct (finite_sub_inv _ _ F) as [F3 F4]. pose proof (finite_div_inv _ _ F3 F2) as F5.
  destruct (zceil_div_spec total k ltac:(lia)) as [L U]. pose proof (zceil_bounds total k ltac:(lia) ltac:(lia)). pose proof (zceil_bounds orig k ltac:(lia) ltac:(lia)).
  pose proof (zceil_mono total orig k ltac:(lia) ltac:(lia)) as ZM.
  assert (C1 : (1 <= zceil_div total k)%Z) by nia. assert (R1 : 1 <= IZR (zceil_div total k)) by (apply IZR_le; auto).
  assert (RM : IZR (zceil_div total k) <= IZR (zceil_div orig k)) by (apply IZR_le; auto).
  rewrite (d_sub_spec _ _ F F3 F4), (d_div_fin_spec _ _ F3) by (rewrite E2; lra). destruct d_1 as [-> _]. rewrite E2.
  pose proof (grow_ge eps co (zceil_div orig k) F5 He E1 ltac:(lia)) as G.
  rewrite <- rn_0. apply rn_le.
  assert (1 <= rn (B2R (d_mul (d_add (d_of 1) eps) co) / IZR (zceil_div total k))); [|lra].
  rewrite <- (rn_int 1) at 1 by lia. apply rn_le.
  apply Rmult_le_reg_r with (IZR (zceil_div total k)); [lra|]. unfold Rdiv. rewrite Rmult_assoc, Rinv_l, Rmult_1_r by lra. lra.
Qed.

Lemma uniform_limit_ok w eps orig total k cnt m : (1 <= total <= orig)%Z -> (orig < 2 ^ 53)%Z -> (1 <= k < 2 ^ 32)%Z -> (0 <= cnt < 2 ^ 32)%Z -> (cnt * total < 2 ^ 53)%Z ->
  0 <= B2R eps -> uniform_limit w eps orig total k cnt = Some m -> (cnt * total <= k * m)%Z.
Proof.
  intros HT HO HK HC HM He H. apply d_to_spec in H. destruct H as (F & -> & R).
  destruct (finite_mul_inv _ _ F) as [F1 F2]. destruct (finite_add_inv _ _ F1) as [_ F4].
  assert (HI : 0 <= B2R (uniform_epsilon eps orig total k)) by (apply inferred_nonneg; auto).
  destruct (d_mul_1 cnt ltac:(lia)) as [A B]. destruct (d_of_spec total ltac:(lia)) as [C D].
  assert (P0 : (0 <= cnt * total)%Z) by nia.
  assert (FM : is_finite (d_mul (d_mul (d_of 1) (d_of cnt)) (d_of total)) = true).
  { apply d_mul_fin with (cnt * total)%Z; auto; [|lia]. rewrite A, C, <- mult_IZR. split; [apply IZR_le; auto|lra]. }
  assert (EM : B2R (d_mul (d_mul (d_of 1) (d_of cnt)) (d_of total)) = IZR (cnt * total)).
  { rewrite (d_mul_spec _ _ FM B D), A, C, <- mult_IZR. apply rn_int. lia. }
  destruct (ceil_quotient _ (cnt * total) k FM EM ltac:(lia) HK) as [F5 E5].
  pose proof (zceil_bounds (cnt * total) k P0 ltac:(lia)). destruct (zceil_div_spec (cnt * total) k ltac:(lia)) as [L U].
  pose proof (grow_ge _ _ _ F HI E5 ltac:(lia)) as G.
  enough (zceil_div (cnt * total) k <= Btrunc (d_mul (d_add (d_of 1) (uniform_epsilon eps orig total k)) (d_ceil (d_div (d_mul (d_mul (d_of 1) (d_of cnt)) (d_of total)) (d_of k)))))%Z by nia.
  rewrite trunc_spec. rewrite Ztrunc_floor; [now apply Zfloor_lub|]. eapply Rle_trans; [|exact G]. apply IZR_le. lia.
Qed.
