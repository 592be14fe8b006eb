(* Proofs about the default block weight limits. *)
From Coq Require Import Reals Lra.
From Flocq Require Import Core.Core IEEE754.BinarySingleNaN Relative.
From Verif Require Import Lib.Prelude Model.LimitsModel.
Local Open Scope R_scope.

Notation fexp64 := (SpecFloat.fexp 53 1024).
Definition rn (x : R) : R := round radix2 fexp64 ZnearestE x.
#[local] Existing Instance Hprec.
#[local] Existing Instance Hemax.
#[local] Instance fexp64_valid : Valid_exp fexp64.
Proof. apply fexp_correct. exact Hprec. Qed.
Lemma rn_le x y : x <= y -> rn x <= rn y.
Proof. apply round_le; typeclasses eauto. Qed.
(** Integers below 2^53 are doubles. *)
Lemma int_format z : (Z.abs z <= 2 ^ 53)%Z -> generic_format radix2 fexp64 (IZR z).
Proof.
  intros H. apply generic_format_FLT. destruct (Z.eq_dec (Z.abs z) (2 ^ 53)) as [E|E].
  - exists (Float radix2 (Z.sgn z) 53); cbn [Fnum Fexp]; [|change (radix2 ^ 53)%Z with (2 ^ 53)%Z; destruct z; vm_compute; reflexivity|unfold SpecFloat.emin; lia].
    unfold F2R; cbn [Fnum Fexp]. rewrite <- (Z.abs_sgn z) at 1. rewrite mult_IZR, E. change (bpow radix2 53) with (IZR (2 ^ 53)). lra.
  - exists (Float radix2 z 0); cbn [Fnum Fexp]; [unfold F2R; cbn; ring| |unfold SpecFloat.emin; lia]. change (radix2 ^ 53)%Z with (2 ^ 53)%Z. lia.
Qed.
Lemma rn_int z : (Z.abs z <= 2 ^ 53)%Z -> rn (IZR z) = IZR z.
Proof. intros. apply round_generic; [typeclasses eauto|]. now apply int_format. Qed.
Lemma rn_0 : rn 0 = 0.
Proof. apply round_0; typeclasses eauto. Qed.
(** Relative error. *)
Lemma rn_err x : bpow radix2 (-1022) <= Rabs x -> Rabs (rn x - x) <= / 2 * bpow radix2 (-52) * Rabs x.
Proof.
  intros H. change (rn x) with (round radix2 (FLT_exp (-1074) 53) ZnearestE x).
  replace (-52)%Z with (-53 + 1)%Z by lia. apply relative_error_N_FLT; [lia|exact H].
Qed.

Lemma d_of_spec z : (Z.abs z <= 2 ^ 53)%Z -> B2R (d_of z) = IZR z /\ is_finite (d_of z) = true.
Proof.
  intros H. generalize (@binary_normalize_correct 53 1024 Hprec Hemax mode_NE z 0 false). cbv zeta.
  replace (F2R {| Fnum := z; Fexp := 0 |}) with (IZR z) by (unfold F2R; cbn; ring). cbn [round_mode]. fold (rn (IZR z)). rewrite (rn_int z H).
  rewrite Rlt_bool_true.
  - intros (A & B & _). split; auto.
  - rewrite <- abs_IZR. apply Rle_lt_trans with (IZR (2 ^ 53)); [apply IZR_le; lia|]. change (IZR (2 ^ 53)) with (bpow radix2 53). apply bpow_lt. lia.
Qed.
Lemma d_1 : B2R (d_of 1) = 1 /\ is_finite (d_of 1) = true.
Proof. apply d_of_spec. lia. Qed.

(** If the result of an operation is finite, it is the rounded exact result. *)
Lemma overflow_not_finite s (x : double) : B2SF x = binary_overflow 53 1024 mode_NE s -> is_finite x = false.
Proof. intros E. rewrite <- is_finite_SF_B2SF, E. unfold binary_overflow. cbn. reflexivity. Qed.
Lemma d_mul_spec x y : is_finite (d_mul x y) = true -> is_finite x = true -> is_finite y = true -> B2R (d_mul x y) = rn (B2R x * B2R y).
Proof.
  intros F Hx Hy. generalize (@Bmult_correct 53 1024 Hprec Hemax mode_NE x y). fold (d_mul x y). cbn [round_mode]. fold (rn (B2R x * B2R y)).
  destruct (Rlt_bool _ _); [tauto|]. intros E. apply overflow_not_finite in E. congruence.
Qed.
Lemma d_add_spec x y : is_finite (d_add x y) = true -> is_finite x = true -> is_finite y = true -> B2R (d_add x y) = rn (B2R x + B2R y).
Proof.
  intros F Hx Hy. generalize (@Bplus_correct 53 1024 Hprec Hemax mode_NE x y Hx Hy). fold (d_add x y). cbn [round_mode]. fold (rn (B2R x + B2R y)).
  destruct (Rlt_bool _ _); [tauto|]. intros (E & _). apply overflow_not_finite in E. congruence.
Qed.
Lemma rn_bound x b : 0 <= x <= IZR b -> (0 <= b <= 2 ^ 53)%Z -> 0 <= rn x <= IZR b.
Proof. intros H B. rewrite <- rn_0 at 1. rewrite <- (rn_int b) by lia. split; apply rn_le; tauto. Qed.
Lemma small_lt b : (0 <= b <= 2 ^ 53)%Z -> IZR b < bpow radix2 1024.
Proof. intros H. apply Rle_lt_trans with (bpow radix2 53); [change (bpow radix2 53) with (IZR (2 ^ 53)); apply IZR_le; lia|apply bpow_lt; lia]. Qed.
(** No overflow for small results. *)
Lemma d_mul_fin x y b : is_finite x = true -> is_finite y = true -> 0 <= B2R x * B2R y <= IZR b -> (0 <= b <= 2 ^ 53)%Z -> is_finite (d_mul x y) = true.
Proof.
  intros Hx Hy H B. generalize (@Bmult_correct 53 1024 Hprec Hemax mode_NE x y). fold (d_mul x y). cbn [round_mode]. fold (rn (B2R x * B2R y)).
  rewrite Rlt_bool_true; [intros (_ & E & _); rewrite E, Hx, Hy; reflexivity|]. destruct (rn_bound _ b H B). rewrite Rabs_pos_eq by lra.
  apply Rle_lt_trans with (IZR b); auto. now apply small_lt.
Qed.
Lemma d_add_fin x y b : is_finite x = true -> is_finite y = true -> 0 <= B2R x + B2R y <= IZR b -> (0 <= b <= 2 ^ 53)%Z -> is_finite (d_add x y) = true.
Proof.
  intros Hx Hy H B. generalize (@Bplus_correct 53 1024 Hprec Hemax mode_NE x y Hx Hy). fold (d_add x y). cbn [round_mode]. fold (rn (B2R x + B2R y)).
  rewrite Rlt_bool_true; [tauto|]. destruct (rn_bound _ b H B). rewrite Rabs_pos_eq by lra.
  apply Rle_lt_trans with (IZR b); auto. now apply small_lt.
Qed.
Lemma d_div_spec x y b : is_finite x = true -> B2R y <> 0 -> 0 <= B2R x / B2R y <= IZR b -> (0 <= b <= 2 ^ 53)%Z ->
  is_finite (d_div x y) = true /\ B2R (d_div x y) = rn (B2R x / B2R y).
Proof.
  intros Hx Hy H B. generalize (@Bdiv_correct 53 1024 Hprec Hemax mode_NE x y Hy). fold (d_div x y). cbn [round_mode]. fold (rn (B2R x / B2R y)).
  rewrite Rlt_bool_true; [intros (E1 & E2 & _); split; [congruence|auto]|]. destruct (rn_bound _ b H B). rewrite Rabs_pos_eq by lra.
  apply Rle_lt_trans with (IZR b); auto. now apply small_lt.
Qed.
Lemma d_mul_1 z : (Z.abs z <= 2 ^ 53)%Z -> B2R (d_mul (d_of 1) (d_of z)) = IZR z /\ is_finite (d_mul (d_of 1) (d_of z)) = true.
Proof.
  intros H. destruct (d_of_spec z H) as [A B]. destruct d_1 as [C D].
  generalize (@Bmult_correct 53 1024 Hprec Hemax mode_NE (d_of 1) (d_of z)). fold (d_mul (d_of 1) (d_of z)). cbn [round_mode].
  rewrite A, C, Rmult_1_l. fold (rn (IZR z)). rewrite rn_int by auto. rewrite Rlt_bool_true.
  - intros (E1 & E2 & _). rewrite B, D in E2. auto.
  - rewrite <- abs_IZR. apply small_lt. lia.
Qed.
Lemma d_ceil_spec x : B2R (d_ceil x) = IZR (Zceil (B2R x)) /\ is_finite (d_ceil x) = is_finite x.
Proof.
  destruct (@Bnearbyint_correct 53 1024 Hemax mode_UP x) as (A & B & _). unfold d_ceil. split; [|exact B].
  rewrite A. cbn [round_mode]. unfold round, F2R, scaled_mantissa, cexp, FIX_exp. cbn. rewrite !Rmult_1_r. reflexivity.
Qed.
Lemma trunc_spec (x : double) : Btrunc x = Ztrunc (B2R x).
Proof.
  apply eq_IZR. rewrite (Btrunc_correct 53 1024 Hemax). unfold round, F2R, scaled_mantissa, cexp, FIX_exp. cbn. rewrite !Rmult_1_r. reflexivity.
Qed.

(** Rounded-up quotient. *)
Definition zceil_div (a b : Z) : Z := (- ((- a) / b))%Z.
Lemma zceil_div_spec a b : (0 < b)%Z -> (b * (zceil_div a b - 1) < a <= b * zceil_div a b)%Z.
Proof.
  intros H. unfold zceil_div. pose proof (Z.div_mod (- a) b ltac:(lia)). pose proof (Z.mod_pos_bound (- a) b H). nia.
Qed.
Lemma perfect_ceil total k : (0 <= total < 2 ^ 53)%Z -> (1 <= k < 2 ^ 32)%Z ->
  Zceil (rn (IZR total / IZR k)) = zceil_div total k.
Proof.
  intros HT HK. destruct (zceil_div_spec total k ltac:(lia)) as [L U]. set (c := zceil_div total k) in *.
  assert (K0 : 0 < IZR k) by (apply IZR_lt; lia).
  assert (C53 : (0 <= c <= 2 ^ 53)%Z) by nia.
  assert (UR : IZR total / IZR k <= IZR c).
  { apply Rmult_le_reg_r with (IZR k); auto. unfold Rdiv. rewrite Rmult_assoc, Rinv_l, Rmult_1_r by lra. rewrite <- mult_IZR. apply IZR_le. lia. }
  apply Zceil_imp. split.
  - destruct (Z.eq_dec total 0) as [->|N].
    { assert (c = 0%Z) by nia. rewrite H. unfold Rdiv. rewrite Rmult_0_l, rn_0. apply IZR_lt. lia. }
    assert (T1 : 1 <= IZR total) by (apply IZR_le; lia).
    assert (E := rn_err (IZR total / IZR k)).
    assert (P : 0 < IZR total / IZR k) by (apply Rdiv_lt_0_compat; lra).
    rewrite (Rabs_pos_eq (IZR total / IZR k)) in E by lra.
    assert (Q : bpow radix2 (-1022) <= IZR total / IZR k).
    { apply Rle_trans with (bpow radix2 (-32)); [apply bpow_le; lia|].
      apply Rle_trans with (/ IZR k).
      - change (bpow radix2 (-32)) with (/ IZR (2 ^ 32)). apply Rinv_le; auto. apply IZR_le. lia.
      - unfold Rdiv. rewrite <- (Rmult_1_l (/ IZR k)) at 1. apply Rmult_le_compat_r; auto. left. now apply Rinv_0_lt_compat. }
    specialize (E Q). apply Rabs_le_inv in E.
    assert (HB : / 2 * bpow radix2 (-52) * (IZR total / IZR k) < / IZR k).
    { change (bpow radix2 (-52)) with (/ IZR (2 ^ 52)). assert (T2 : IZR total < IZR (2 ^ 53)) by (apply IZR_lt; lia).
      change (IZR (2 ^ 53)) with (2 * IZR (2 ^ 52)) in T2 || (replace (IZR (2 ^ 53)) with (2 * IZR (2 ^ 52)) in T2 by (rewrite <- mult_IZR; f_equal)).
      assert (0 < IZR (2 ^ 52)) by (apply IZR_lt; lia). assert (0 < / IZR k) by (now apply Rinv_0_lt_compat).
      replace (/ 2 * / IZR (2 ^ 52) * (IZR total / IZR k)) with (IZR total / (2 * IZR (2 ^ 52)) * / IZR k) by (field; lra).
      rewrite <- (Rmult_1_l (/ IZR k)) at 2. apply Rmult_lt_compat_r; auto.
      apply Rmult_lt_reg_r with (2 * IZR (2 ^ 52)); [lra|]. unfold Rdiv. rewrite Rmult_assoc, Rinv_l by lra. lra. }
    assert (LR : IZR (c - 1) + / IZR k <= IZR total / IZR k).
    { apply Rmult_le_reg_r with (IZR k); auto. unfold Rdiv. rewrite Rmult_plus_distr_r, Rmult_assoc, Rinv_l, Rmult_1_r by lra.
      rewrite <- mult_IZR, <- plus_IZR. apply IZR_le. nia. }
    lra.
  - rewrite <- (rn_int c) by lia. now apply rn_le.
Qed.
Lemma zceil_bounds total k : (0 <= total)%Z -> (1 <= k)%Z -> (0 <= zceil_div total k <= total)%Z.
Proof. intros A B. destruct (zceil_div_spec total k ltac:(lia)) as [L U]. nia. Qed.
Lemma perfect_val total k : (0 <= total < 2 ^ 53)%Z -> (1 <= k < 2 ^ 32)%Z ->
  let x := d_ceil (d_div (d_mul (d_of 1) (d_of total)) (d_of k)) in is_finite x = true /\ Btrunc x = zceil_div total k.
Proof.
  intros HT HK. cbv zeta. destruct (d_mul_1 total ltac:(lia)) as [A B]. destruct (d_of_spec k ltac:(lia)) as [C D].
  assert (K0 : 1 <= IZR k) by (apply IZR_le; lia). assert (T0 : 0 <= IZR total) by (apply IZR_le; lia).
  destruct (d_div_spec (d_mul (d_of 1) (d_of total)) (d_of k) total B) as [E F].
  - rewrite C. lra.
  - rewrite A, C. split; [apply Rmult_le_pos; [lra|left; apply Rinv_0_lt_compat; lra]|].
    apply Rmult_le_reg_r with (IZR k); [lra|]. unfold Rdiv. rewrite Rmult_assoc, Rinv_l, Rmult_1_r by lra. nra.
  - lia.
  - destruct (d_ceil_spec (d_div (d_mul (d_of 1) (d_of total)) (d_of k))) as [G H]. split; [congruence|].
    rewrite trunc_spec, G, Ztrunc_IZR, F, A, C. now apply perfect_ceil.
Qed.

Lemma fits_spec w z : fits w z = true <-> (- 2 ^ (w - 1) <= z < 2 ^ (w - 1))%Z.
Proof. unfold fits. rewrite andb_true_iff, Z.leb_le, Z.ltb_lt. tauto. Qed.
Lemma d_to_spec w x z : d_to w x = Some z <-> (is_finite x = true /\ z = Btrunc x /\ - 2 ^ (w - 1) <= z < 2 ^ (w - 1))%Z.
Proof.
  unfold d_to. destruct (is_finite x) eqn:F; cbn [andb]; [|split; [discriminate|intros (? & _); discriminate]].
  destruct (fits w (Btrunc x)) eqn:G.
  - apply fits_spec in G. split; [intros [= <-]; auto|intros (_ & -> & _); auto].
  - split; [discriminate|]. intros (_ & -> & H). apply fits_spec in H. congruence.
Qed.

(** The product: between the perfect weight and a generous bound, and close to the exact product. *)
Lemma finite_mul_inv x y : is_finite (d_mul x y) = true -> is_finite x = true /\ is_finite y = true.
Proof.
  destruct x as [| | |sx mx ex Hx], y as [| | |sy my ey Hy]; cbn; auto; try discriminate.
Qed.
Lemma limit_ok eps p mx w : (0 <= p < 2 ^ 53)%Z -> is_finite eps = true -> 0 <= B2R eps ->
  d_to w (d_mul (d_add (d_of 1) eps) (d_of p)) = Some mx ->
  (p <= mx)%Z /\ Rabs (IZR mx - (1 + B2R eps) * IZR p) <= 1 + (1 + B2R eps) * IZR p * / IZR (2 ^ 51).
Proof.
  intros HP Fe He H. apply d_to_spec in H. destruct H as (F & -> & R). destruct (finite_mul_inv _ _ F) as [F1 F2].
  destruct d_1 as [A1 B1]. destruct (d_of_spec p ltac:(lia)) as [C D].
  rewrite trunc_spec, (d_mul_spec _ _ F F1 F2), C, (d_add_spec _ _ F1 B1 Fe), A1.
  assert (P0 : 0 <= IZR p) by (apply IZR_le; lia).
  assert (G1 : 1 <= rn (1 + B2R eps)) by (rewrite <- (rn_int 1) at 1 by lia; apply rn_le; lra).
  assert (G2 : IZR p <= rn (rn (1 + B2R eps) * IZR p)) by (rewrite <- (rn_int p) at 1 by lia; apply rn_le; nra).
  set (r := rn (rn (1 + B2R eps) * IZR p)) in *.
  assert (FL : Ztrunc r = Zfloor r) by (apply Ztrunc_floor; lra). rewrite FL. split; [now apply Zfloor_lub|].
  destruct (Z.eq_dec p 0) as [->|N].
  - assert (E : r = 0) by (unfold r; rewrite Rmult_0_r; apply rn_0). rewrite E. change 0 with (IZR 0) at 1. rewrite Zfloor_IZR.
    replace (0 - (1 + B2R eps) * 0) with 0 by ring. rewrite Rabs_R0. lra.
  - assert (P1 : 1 <= IZR p) by (apply IZR_le; lia).
    assert (T : forall y, 1 <= y -> bpow radix2 (-1022) <= y).
    { intros y Hy. apply Rle_trans with 1; auto. change 1 with (bpow radix2 0). apply bpow_le. lia. }
    assert (E1 := rn_err (1 + B2R eps)). rewrite (Rabs_pos_eq (1 + B2R eps)) in E1 by lra. specialize (E1 (T (1 + B2R eps) ltac:(lra))).
    assert (E2 := rn_err (rn (1 + B2R eps) * IZR p)). fold r in E2.
    assert (1 <= rn (1 + B2R eps) * IZR p) by nra. rewrite (Rabs_pos_eq (rn (1 + B2R eps) * IZR p)) in E2 by lra. specialize (E2 (T (rn (1 + B2R eps) * IZR p) ltac:(lra))).
    set (a := rn (1 + B2R eps)) in *. set (e := 1 + B2R eps) in *. set (q := IZR p) in *.
    change (bpow radix2 (-52)) with (/ IZR (2 ^ 52)) in E1, E2.
    replace (/ 2 * / IZR (2 ^ 52)) with (/ IZR (2 ^ 53)) in E1, E2 by (rewrite <- Rinv_mult; try lra; rewrite <- mult_IZR; f_equal).
    set (d := / IZR (2 ^ 53)) in *.
    assert (D0 : 0 < d <= / 4).
    { unfold d. split; [apply Rinv_0_lt_compat; apply IZR_lt; lia|]. apply Rinv_le; [lra|]. apply IZR_le. lia. }
    assert (D1 : / IZR (2 ^ 51) = 4 * d).
    { unfold d. replace (IZR (2 ^ 53)) with (4 * IZR (2 ^ 51)) by (rewrite <- mult_IZR; f_equal). field. apply IZR_neq. lia. }
    rewrite D1. pose proof (Zfloor_lb r). pose proof (Zfloor_ub r).
    apply Rabs_le_inv in E1, E2. apply Rabs_le.
    assert (X1 : a * q - e * q = (a - e) * q) by ring.
    assert (- (d * e) * q <= (a - e) * q <= (d * e) * q) by (split; apply Rmult_le_compat_r; lra).
    assert (a <= 2 * e) by nra.
    assert (d * (a * q) <= d * (2 * e * q)) by (apply Rmult_le_compat_l; [lra|apply Rmult_le_compat_r; lra]).
    assert (0 <= d * (e * q)) by (apply Rmult_le_pos; [lra|apply Rmult_le_pos; lra]).
    split; nra.
Qed.
