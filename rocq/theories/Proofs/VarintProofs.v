(* Proofs about the VarInt codes (Model/VarintModel.v). *)
From Verif Require Import Lib.Prelude Model.VarintModel.
Local Open Scope Z_scope.

Lemma pow2_pos s : 0 <= s -> 0 < 2 ^ s.
Proof. intros. apply Z.pow_pos_nonneg; lia. Qed.

(** ** Bit operations as arithmetic *)
Lemma lor_disjoint a b s : 0 <= s -> 0 <= a < 2 ^ s -> Z.lor a (b * 2 ^ s) = a + b * 2 ^ s.
Proof.
  intros Hs Ha.
  assert (Hl : Z.land a (b * 2 ^ s) = 0).
  { apply Z.bits_inj'; intros n Hn. rewrite Z.land_spec, Z.bits_0.
    destruct (Z.lt_ge_cases n s).
    - rewrite Z.mul_pow2_bits_low by lia. apply andb_false_r.
    - destruct (Z.eq_dec a 0) as [->|]; [rewrite Z.bits_0; reflexivity|].
      rewrite (Z.bits_above_log2 a n); [reflexivity|lia|].
      apply Z.lt_le_trans with s; [|lia]. apply Z.log2_lt_pow2; lia. }
  rewrite <- Z.lxor_lor by exact Hl. symmetry. apply Z.add_nocarry_lxor. exact Hl.
Qed.

Lemma land_ones' i s : 0 <= s -> Z.land i (2 ^ s - 1) = i mod 2 ^ s.
Proof. intros. rewrite <- Z.land_ones by lia. rewrite Z.ones_equiv. f_equal. Qed.

Lemma land_127 i : Z.land i 127 = i mod 128.
Proof. exact (land_ones' i 7 ltac:(lia)). Qed.
Lemma land_63 i : Z.land i 63 = i mod 64.
Proof. exact (land_ones' i 6 ltac:(lia)). Qed.

Lemma land_1 i : Z.land i 1 = i mod 2.
Proof. exact (land_ones' i 1 ltac:(lia)). Qed.

Lemma lor_128 a : 0 <= a < 128 -> Z.lor a 128 = a + 128.
Proof. intros. exact (lor_disjoint a 1 7 ltac:(lia) H). Qed.
Lemma lor_64 a : 0 <= a < 64 -> Z.lor a 64 = a + 64.
Proof. intros. exact (lor_disjoint a 1 6 ltac:(lia) H). Qed.

Lemma land_pow2 a s : 0 <= s -> 0 <= a -> Z.land a (2 ^ s) = (a / 2 ^ s) mod 2 * 2 ^ s.
Proof.
  intros Hs Ha. apply Z.bits_inj'; intros n Hn.
  rewrite Z.land_spec, Z.pow2_bits_eqb by lia.
  destruct (Z.lt_ge_cases n s).
  - rewrite Z.mul_pow2_bits_low by lia. destruct (Z.eqb_spec s n); [lia|]. apply andb_false_r.
  - rewrite Z.mul_pow2_bits by lia. change ((a / 2 ^ s) mod 2) with ((a / 2 ^ s) mod 2 ^ 1). rewrite <- (Z.land_ones (a / 2 ^ s) 1) by lia.
    rewrite Z.land_spec, Z.div_pow2_bits by lia. replace (n - s + s) with n by lia. f_equal.
    destruct (Z.eqb_spec s n).
    + subst. rewrite Z.sub_diag. reflexivity.
    + rewrite Z.ones_spec_high by lia. reflexivity.
Qed.
Lemma land_128 a : 0 <= a < 128 -> Z.land a 128 = 0.
Proof. intros. change 128 with (2 ^ 7) at 1; rewrite (land_pow2 a 7) by lia. change (2^7) with 128. rewrite Z.div_small by lia. reflexivity. Qed.
Lemma land_128' a : 128 <= a < 256 -> Z.land a 128 = 128.
Proof. intros. change 128 with (2 ^ 7) at 1; rewrite (land_pow2 a 7) by lia. change (2^7) with 128.
  replace (a / 128) with 1; [reflexivity|]. apply Z.div_unique with (a - 128); lia. Qed.
Lemma land_64 a : 0 <= a < 256 -> (Z.land a 64 =? 0) = ((a / 64) mod 2 =? 0).
Proof. intros. change (Z.land a 64) with (Z.land a (2 ^ 6)); rewrite (land_pow2 a 6) by lia. change (2^6) with 64.
  pose proof (Z.mod_pos_bound (a/64) 2 ltac:(lia)). lia. Qed.

Lemma wrap_u_small w x : 0 <= x < 2 ^ w -> wrap_u w x = x.
Proof. apply Z.mod_small. Qed.
Lemma wrap_u_range w x : 0 <= w -> 0 <= wrap_u w x < 2 ^ w.
Proof. intros. apply Z.mod_pos_bound, pow2_pos; lia. Qed.
Lemma pow2_half w : 1 <= w -> 2 ^ w = 2 * 2 ^ (w - 1).
Proof. intros. rewrite <- (Z.pow_succ_r 2 (w-1)) by lia. f_equal. lia. Qed.
Lemma wrap_s_small w x : 1 <= w -> - 2 ^ (w - 1) <= x < 2 ^ (w - 1) -> wrap_s w x = x.
Proof. intros Hw H. unfold wrap_s. rewrite Z.mod_small; [lia|]. rewrite (pow2_half w) by lia. lia. Qed.
Lemma wrap_s_range w x : 1 <= w -> - 2 ^ (w - 1) <= wrap_s w x < 2 ^ (w - 1).
Proof.
  intros Hw. unfold wrap_s. pose proof (Z.mod_pos_bound (x + 2 ^ (w-1)) (2 ^ w) ltac:(apply pow2_pos; lia)).
  pose proof (pow2_half w Hw). lia.
Qed.

(** ** The byte sequence as a value *)
Lemma shiftr_7 i : Z.shiftr i 7 = i / 128.
Proof. rewrite Z.shiftr_div_pow2 by lia. reflexivity. Qed.
Lemma shiftr_6 i : Z.shiftr i 6 = i / 64.
Proof. rewrite Z.shiftr_div_pow2 by lia. reflexivity. Qed.

Lemma encode_loop_some fuel i : 0 <= i < 2 ^ (7 * Z.of_nat fuel) -> (0 < fuel)%nat ->
  exists l, varint_encode_loop fuel i = Some l /\ Z.of_nat (length l) = varint_length_loop fuel i /\
    (0 < length l <= fuel)%nat /\ Forall (fun b => 0 <= b < 256) l.
Proof.
  revert i; induction fuel as [|f IH]; intros i Hi Hf; [lia|].
  cbn [varint_encode_loop varint_length_loop]. rewrite shiftr_7, land_127.
  pose proof (Z.mod_pos_bound i 128 ltac:(lia)) as Hm.
  destruct (127 <? i) eqn:E.
  - assert (Hf' : (0 < f)%nat).
    { destruct f; [|lia]. change (7 * Z.of_nat 1) with 7 in Hi. change (2^7) with 128 in Hi. lia. }
    destruct (IH (i / 128)) as (l & -> & Hl & Hle & Hb); [|lia|].
    { split; [apply Z.div_pos; lia|]. apply Z.div_lt_upper_bound; [lia|].
      change 128 with (2^7). rewrite <- Z.pow_add_r by lia.
      replace (7 + 7 * Z.of_nat f) with (7 * Z.of_nat (S f)) by lia. lia. }
    exists (Z.lor (i mod 128) 128 :: l). rewrite lor_128 by lia. cbn [length].
    split; [reflexivity|]. split; [|split; [lia|constructor; [lia|assumption]]].
    rewrite <- Hl. destruct (Z.of_nat (length l)) eqn:El; lia.
  - exists [i mod 128]. cbn [length]. split; [reflexivity|]. split; [reflexivity|]. split; [lia|].
    constructor; [lia|constructor].
Qed.

Lemma fuel_enough w i : 1 <= w -> 0 <= i < 2 ^ w -> 0 <= i < 2 ^ (7 * Z.of_nat (varint_fuel w)).
Proof.
  intros Hw Hi. split; [lia|]. apply Z.lt_le_trans with (2 ^ w); [lia|].
  apply Z.pow_le_mono_r; [lia|]. unfold varint_fuel, varint_max_length.
  pose proof (Z.div_pos w 7 ltac:(lia) ltac:(lia)). dlia.
Qed.
Lemma fuel_pos w : 1 <= w -> (0 < varint_fuel w)%nat.
Proof. intros. unfold varint_fuel, varint_max_length. pose proof (Z.div_pos w 7 ltac:(lia) ltac:(lia)). lia. Qed.

Lemma varint_encode_facts w i : 1 <= w -> 0 <= i < 2 ^ w ->
  Z.of_nat (length (varint_encode w i)) = varint_length w i /\
  1 <= varint_length w i <= varint_max_length w /\ Forall (fun b => 0 <= b < 256) (varint_encode w i).
Proof.
  intros Hw Hi. unfold varint_encode, varint_length.
  destruct (encode_loop_some (varint_fuel w) i (fuel_enough w i Hw Hi) (fuel_pos w Hw)) as (l & -> & Hl & Hle & Hb).
  split; [lia|]. split; [|assumption]. unfold varint_fuel in *. lia.
Qed.

(** Decoding with an accumulated prefix. *)
Lemma decode_loop_spec fuel w i value shift l suffix :
  varint_encode_loop fuel i = Some l -> 0 <= shift -> 0 <= value < 2 ^ shift ->
  0 <= i -> 1 <= w -> shift < w -> i * 2 ^ shift < 2 ^ w ->
  varint_decode_loop w value shift (l ++ suffix) = Some (value + i * 2 ^ shift, suffix).
Proof.
  revert i value shift l; induction fuel as [|f IH]; intros i value shift l He Hs Hv Hi Hw Hsw Hfit; [discriminate|].
  cbn [varint_encode_loop] in He. rewrite shiftr_7, land_127 in He.
  pose proof (Z.mod_pos_bound i 128 ltac:(lia)) as Hm.
  pose proof (pow2_pos shift Hs) as Hps.
  destruct (127 <? i) eqn:E.
  - destruct (varint_encode_loop f (i / 128)) as [r|] eqn:Er; [|discriminate].
    injection He as <-. rewrite lor_128 by lia. cbn [app varint_decode_loop].
    replace (shift <? w) with true by lia. cbn [negb].
    rewrite land_128' by lia. cbn [Z.eqb].
    rewrite land_127. replace ((i mod 128 + 128) mod 128) with (i mod 128)
      by (rewrite <- (Z.mul_1_l 128) at 3; rewrite Z.mod_add by lia; rewrite Z.mod_mod; lia).
    rewrite Z.shiftl_mul_pow2 by lia.
    assert (Hdm : i = 128 * (i / 128) + i mod 128) by (apply Z.div_mod; lia).
    assert (Hq : 0 <= i / 128) by (apply Z.div_pos; lia).
    assert (Hle : i mod 128 * 2 ^ shift <= i * 2 ^ shift) by (apply Z.mul_le_mono_nonneg_r; lia).
    rewrite wrap_u_small by (split; [apply Z.mul_nonneg_nonneg; lia|lia]).
    rewrite lor_disjoint by lia.
    assert (H7 : 2 ^ (shift + 7) = 128 * 2 ^ shift) by (rewrite Z.pow_add_r by lia; lia).
    assert (Hqs : i / 128 * 2 ^ (shift + 7) <= i * 2 ^ shift).
    { rewrite H7. rewrite Hdm at 2. rewrite Z.mul_add_distr_r.
      assert (0 <= i mod 128 * 2 ^ shift) by (apply Z.mul_nonneg_nonneg; lia). lia. }
    rewrite (IH (i / 128)); [| assumption | lia | | lia | lia | | lia].
    + f_equal. f_equal. rewrite H7. rewrite Hdm at 3. ring.
    + split; [assert (0 <= i mod 128 * 2 ^ shift) by (apply Z.mul_nonneg_nonneg; lia); lia|].
      rewrite H7. assert (i mod 128 * 2 ^ shift <= 127 * 2 ^ shift) by (apply Z.mul_le_mono_nonneg_r; lia). lia.
    + apply (Z.pow_lt_mono_r_iff 2); [lia|lia|]. 
      apply Z.le_lt_trans with (i * 2 ^ shift); [|lia]. rewrite H7.
      apply Z.mul_le_mono_nonneg_r; lia.
  - injection He as <-. cbn [app varint_decode_loop].
    replace (shift <? w) with true by lia. cbn [negb].
    rewrite (Z.mod_small i 128) by lia.
    rewrite land_128 by lia. cbn [Z.eqb]. rewrite Z.shiftl_mul_pow2 by lia.
    rewrite wrap_u_small by (split; [apply Z.mul_nonneg_nonneg; lia|lia]).
    rewrite lor_disjoint by lia. reflexivity.
Qed.

Lemma varint_roundtrip w i suffix : 1 <= w -> 0 <= i < 2 ^ w ->
  varint_decode w (varint_encode w i ++ suffix) = Some (i, suffix).
Proof.
  intros Hw Hi. unfold varint_encode, varint_decode.
  destruct (encode_loop_some (varint_fuel w) i (fuel_enough w i Hw Hi) (fuel_pos w Hw)) as (l & He & _).
  rewrite He. rewrite (decode_loop_spec _ w i 0 0 l suffix He); try (rewrite ?Z.pow_0_r; lia).
  f_equal. f_equal. rewrite Z.pow_0_r. lia.
Qed.

(** ** Marked VarInts *)
Lemma marked_first i marked : 0 <= i ->
  let f := if marked : bool then Z.lor (Z.land i 63) 64 else Z.land i 63 in
  f = i mod 64 + (if marked then 64 else 0).
Proof.
  intros Hi. cbv zeta. rewrite land_63. pose proof (Z.mod_pos_bound i 64 ltac:(lia)).
  destruct marked; [apply lor_64; lia|lia].
Qed.

Lemma marked_roundtrip w i marked suffix : 7 <= w -> 0 <= i < 2 ^ w ->
  marked_varint_decode w (marked_varint_encode w i marked ++ suffix) = Some (i, marked, suffix).
Proof.
  intros Hw Hi. unfold marked_varint_encode. cbv zeta.
  pose proof (marked_first i marked ltac:(lia)) as Hf. cbv zeta in Hf. rewrite Hf. clear Hf.
  rewrite shiftr_6. pose proof (Z.mod_pos_bound i 64 ltac:(lia)) as Hm.
  assert (Hdm : i = 64 * (i / 64) + i mod 64) by (apply Z.div_mod; lia).
  assert (Hq : 0 <= i / 64) by (apply Z.div_pos; lia).
  set (x := i mod 64 + (if marked then 64 else 0)) in *.
  assert (Hx : 0 <= x < 128) by (subst x; destruct marked; lia).
  assert (Hx6 : x mod 64 = i mod 64).
  { subst x. destruct marked.
    - replace (i mod 64 + 64) with (i mod 64 + 1 * 64) by lia. rewrite Z.mod_add, Z.mod_mod; lia.
    - rewrite Z.add_0_r, Z.mod_mod; lia. }
  assert (Hxm : negb ((x / 64) mod 2 =? 0) = marked).
  { subst x. destruct marked.
    - replace (i mod 64 + 64) with (i mod 64 + 1 * 64) by lia. rewrite Z.div_add, (Z.div_small (i mod 64)) by lia. reflexivity.
    - rewrite Z.add_0_r, Z.div_small by lia. reflexivity. }
  clearbody x.
  destruct (Z.eqb_spec (i / 64) 0) as [E|E].
  - cbn [app marked_varint_decode]. rewrite land_128, land_64, land_63 by lia.
    cbn [negb Z.eqb]. rewrite Hxm, Hx6. repeat f_equal. lia.
  - rewrite lor_128 by lia. cbn [app marked_varint_decode]. rewrite land_128', land_64, land_63 by lia.
    cbn [negb Z.eqb].
    replace ((x + 128) / 64) with (x / 64 + 2) by (replace (x + 128) with (x + 2 * 64) by lia; rewrite Z.div_add; lia).
    replace ((x / 64 + 2) mod 2) with ((x / 64) mod 2) by (replace (x / 64 + 2) with (x / 64 + 1 * 2) by lia; rewrite Z.mod_add; lia).
    replace ((x + 128) mod 64) with (x mod 64) by (replace (x + 128) with (x + 2 * 64) by lia; rewrite Z.mod_add; lia).
    rewrite Hxm, Hx6.
    unfold varint_encode.
    assert (Hqw : 0 <= i / 64 < 2 ^ w) by (split; [lia|]; lia).
    destruct (encode_loop_some (varint_fuel w) (i/64) (fuel_enough w _ ltac:(lia) Hqw) (fuel_pos w ltac:(lia))) as (l & He & _).
    rewrite He. rewrite (decode_loop_spec _ w (i/64) (i mod 64) 6 l suffix He); try (change (2^6) with 64; lia).
    repeat f_equal. change (2^6) with 64. lia.
Qed.

Lemma marked_length w i marked : 7 <= w -> 0 <= i < 2 ^ w ->
  Z.of_nat (length (marked_varint_encode w i marked)) = marked_varint_length w i /\
  Forall (fun b => 0 <= b < 256) (marked_varint_encode w i marked).
Proof.
  intros Hw Hi. unfold marked_varint_encode, marked_varint_length. cbv zeta.
  pose proof (marked_first i marked ltac:(lia)) as Hf. cbv zeta in Hf. rewrite Hf. clear Hf.
  rewrite shiftr_6. pose proof (Z.mod_pos_bound i 64 ltac:(lia)) as Hm.
  assert (Hdm : i = 64 * (i / 64) + i mod 64) by (apply Z.div_mod; lia).
  assert (Hq : 0 <= i / 64) by (apply Z.div_pos; lia).
  assert (Hx : 0 <= i mod 64 + (if marked then 64 else 0) < 128) by (destruct marked; lia).
  destruct (Z.eqb_spec (i / 64) 0) as [E|E].
  - rewrite E. cbn [Z.ltb Z.compare length]. split; [reflexivity|]. constructor; [lia|constructor].
  - replace (0 <? i / 64) with true by lia. cbn [length].
    destruct (varint_encode_facts w (i/64)) as (Hl & _ & Hb); [lia|lia|].
    split; [lia|]. constructor; [rewrite lor_128; lia|assumption].
Qed.

(** ** Zigzag *)
Lemma lxor_m1 x : Z.lxor (-1) x = - x - 1.
Proof. rewrite Z.lxor_m1_l. unfold Z.lnot. lia. Qed.

Lemma zigzag_encode_spec w i : 2 <= w -> - 2 ^ (w - 1) <= i < 2 ^ (w - 1) ->
  zigzag_encode w i = if i <? 0 then - 2 * i - 1 else 2 * i.
Proof.
  intros Hw Hi. unfold zigzag_encode. rewrite Z.shiftl_mul_pow2 by lia. change (2^1) with 2.
  rewrite Z.shiftr_div_pow2 by lia. pose proof (pow2_half w ltac:(lia)) as Hh.
  pose proof (pow2_pos (w-1) ltac:(lia)) as Hp.
  assert (Hws : exists q, wrap_s w (i * 2) = i * 2 + q * 2 ^ w).
  { unfold wrap_s. exists (- ((i * 2 + 2 ^ (w-1)) / 2 ^ w)).
    pose proof (Z.div_mod (i * 2 + 2 ^ (w-1)) (2 ^ w) ltac:(lia)). lia. }
  destruct Hws as (q & ->).
  destruct (Z.ltb_spec i 0).
  - replace (i / 2 ^ (w-1)) with (-1).
    2:{ apply Z.div_unique with (i + 2 ^ (w-1)); lia. }
    rewrite lxor_m1. unfold wrap_u.
    replace (- (i * 2 + q * 2 ^ w) - 1) with (- 2 * i - 1 + (- q) * 2 ^ w) by ring.
    rewrite Z.mod_add by lia. apply Z.mod_small. lia.
  - rewrite Z.div_small by lia. rewrite Z.lxor_0_l. unfold wrap_u. rewrite Z.mod_add by lia.
    rewrite Z.mod_small; lia.
Qed.

Lemma zigzag_encode_range w i : 2 <= w -> - 2 ^ (w - 1) <= i < 2 ^ (w - 1) ->
  0 <= zigzag_encode w i < 2 ^ w.
Proof. intros. rewrite zigzag_encode_spec by lia. pose proof (pow2_half w ltac:(lia)). destruct (Z.ltb_spec i 0); lia. Qed.

Lemma zigzag_roundtrip w i : 2 <= w -> - 2 ^ (w - 1) <= i < 2 ^ (w - 1) ->
  zigzag_decode w (zigzag_encode w i) = i.
Proof.
  intros Hw Hi. rewrite zigzag_encode_spec by lia. unfold zigzag_decode.
  rewrite Z.shiftr_div_pow2 by lia. change (2^1) with 2.
  rewrite (land_1 (if i <? 0 then _ else _)).
  pose proof (pow2_half w ltac:(lia)) as Hh. pose proof (pow2_pos (w-1) ltac:(lia)) as Hp.
  destruct (Z.ltb_spec i 0).
  - replace ((-2 * i - 1) / 2) with (- i - 1) by (apply Z.div_unique with 1; lia).
    replace ((-2 * i - 1) mod 2) with 1 by (apply Z.mod_unique with (- i - 1); lia).
    unfold wrap_u. change (Z.opp 1) with (-1). replace ((-1) mod 2 ^ w) with (2 ^ w - 1) by (apply Z.mod_unique with (-1); lia).
    assert (Hx : Z.lxor (- i - 1) (2 ^ w - 1) = 2 ^ w + i).
    { (* all-ones minus x *)
      replace (2 ^ w - 1) with (Z.ones w) by (rewrite Z.ones_equiv; lia).
      assert (Hs : Z.land (2 ^ w + i) (- i - 1) = 0 /\ Z.lxor (2 ^ w + i) (- i - 1) = Z.ones w).
      { assert (E : 2 ^ w + i = Z.land (Z.lnot (- i - 1)) (Z.ones w)).
        { rewrite Z.land_ones by lia. unfold Z.lnot. replace (Z.pred (- (- i - 1))) with (i) by lia.
          apply Z.mod_unique with (-1); lia. }
        rewrite E. split; apply Z.bits_inj'; intros n Hn;
          rewrite ?Z.lxor_spec, ?Z.land_spec, ?Z.bits_0, Z.lnot_spec by lia.
        - destruct (Z.testbit (- i - 1) n); simpl; rewrite ?andb_false_r; reflexivity.
        - destruct (Z.lt_ge_cases n w).
          + rewrite Z.ones_spec_low by lia. destruct (Z.testbit (-i-1) n); reflexivity.
          + rewrite Z.ones_spec_high by lia. destruct (Z.eq_dec (-i-1) 0) as [->|]; [rewrite Z.bits_0; reflexivity|].
            rewrite (Z.bits_above_log2 (-i-1)); [reflexivity|lia|].
            apply Z.lt_le_trans with w; [|lia]. apply Z.log2_lt_pow2; lia. }
      destruct Hs as (_ & <-). rewrite (Z.lxor_comm (2^w+i)). rewrite <- Z.lxor_assoc, Z.lxor_nilpotent.
      apply Z.lxor_0_l. }
    rewrite Hx. unfold wrap_s. replace (2 ^ w + i + 2 ^ (w-1)) with (i + 2 ^ (w-1) + 1 * 2 ^ w) by ring.
    rewrite Z.mod_add by lia. rewrite Z.mod_small; lia.
  - replace (2 * i / 2) with i by (apply Z.div_unique with 0; lia).
    replace ((2 * i) mod 2) with 0 by (apply Z.mod_unique with i; lia).
    unfold wrap_u. rewrite Z.opp_0, Z.mod_0_l by lia. rewrite Z.lxor_0_r. apply wrap_s_small; lia.
Qed.

Lemma signed_roundtrip w i suffix : 2 <= w -> - 2 ^ (w - 1) <= i < 2 ^ (w - 1) ->
  signed_varint_decode w (signed_varint_encode w i ++ suffix) = Some (i, suffix).
Proof.
  intros Hw Hi. unfold signed_varint_decode, signed_varint_encode.
  rewrite varint_roundtrip by (try lia; apply zigzag_encode_range; lia).
  rewrite zigzag_roundtrip by lia. reflexivity.
Qed.

(** ** Fast decoding *)
Lemma testbit_odd_shiftr a n : 0 <= n -> Z.testbit a n = Z.odd (Z.shiftr a n).
Proof. intros. rewrite <- Z.bit0_odd, Z.shiftr_spec by lia. f_equal; lia. Qed.

Lemma odd_cons b x : Z.odd (Z.b2z b + 2 * x) = b.
Proof. rewrite Z.odd_add_mul_2. destruct b; reflexivity. Qed.
Lemma shiftr_cons b x : Z.shiftr (Z.b2z b + 2 * x) 1 = x.
Proof. rewrite Z.shiftr_div_pow2 by lia. change (2^1) with 2. symmetry. apply Z.div_unique with (Z.b2z b); destruct b; cbn [Z.b2z]; lia. Qed.

Lemma pext_cons bits s m src mask :
  pext (S bits) (Z.b2z s + 2 * src) (Z.b2z m + 2 * mask) =
  if m then Z.b2z s + 2 * pext bits src mask else pext bits src mask.
Proof. cbn [pext]. rewrite !odd_cons, !shiftr_cons. reflexivity. Qed.

Lemma bits8 b : 0 <= b < 256 -> exists b0 b1 b2 b3 b4 b5 b6 b7 : bool,
  b = Z.b2z b0 + 2 * (Z.b2z b1 + 2 * (Z.b2z b2 + 2 * (Z.b2z b3 + 2 * (Z.b2z b4 + 2 * (Z.b2z b5 + 2 *
      (Z.b2z b6 + 2 * Z.b2z b7)))))).
Proof.
  intros Hb. exists (Z.odd b), (Z.odd (b/2)), (Z.odd (b/4)), (Z.odd (b/8)), (Z.odd (b/16)), (Z.odd (b/32)),
    (Z.odd (b/64)), (Z.odd (b/128)).
  assert (H : forallb (fun b => b =? Z.b2z (Z.odd b) + 2 * (Z.b2z (Z.odd (b/2)) + 2 * (Z.b2z (Z.odd (b/4)) + 2 * (Z.b2z (Z.odd (b/8)) + 2 * (Z.b2z (Z.odd (b/16)) + 2 * (Z.b2z (Z.odd (b/32)) + 2 *
      (Z.b2z (Z.odd (b/64)) + 2 * Z.b2z (Z.odd (b/128))))))))) (map Z.of_nat (seq 0 256)) = true) by (vm_compute; reflexivity).
  rewrite forallb_forall in H. specialize (H b). assert (Hn : (Z.to_nat b < 256)%nat) by (clear H; lia). assert (Hz : Z.of_nat (Z.to_nat b) = b) by (clear H; lia).
  apply Z.eqb_eq, H. apply in_map_iff. exists (Z.to_nat b). split; [exact Hz|]. apply in_seq. clear H; lia.
Qed.

(** One byte of [pext] with the mask 0x7F. *)
Lemma pext_byte bits b src mask : 0 <= b < 256 ->
  pext (8 + bits) (b + 256 * src) (127 + 256 * mask) = b mod 128 + 128 * pext bits src mask.
Proof.
  intros Hb. destruct (bits8 b Hb) as (b0&b1&b2&b3&b4&b5&b6&b7&E).
  replace (b + 256 * src) with
    (Z.b2z b0 + 2 * (Z.b2z b1 + 2 * (Z.b2z b2 + 2 * (Z.b2z b3 + 2 * (Z.b2z b4 + 2 * (Z.b2z b5 + 2 *
      (Z.b2z b6 + 2 * (Z.b2z b7 + 2 * src)))))))) by (rewrite E; ring).
  replace (127 + 256 * mask) with
    (Z.b2z true + 2 * (Z.b2z true + 2 * (Z.b2z true + 2 * (Z.b2z true + 2 * (Z.b2z true + 2 * (Z.b2z true + 2 *
      (Z.b2z true + 2 * (Z.b2z false + 2 * mask)))))))) by (simpl Z.b2z; ring).
  change (8 + bits)%nat with (S (S (S (S (S (S (S (S bits)))))))).
  rewrite !pext_cons.
  assert (Hm : b mod 128 = Z.b2z b0 + 2 * (Z.b2z b1 + 2 * (Z.b2z b2 + 2 * (Z.b2z b3 + 2 * (Z.b2z b4 + 2 * (Z.b2z b5 + 2 * Z.b2z b6)))))).
  { symmetry. apply Z.mod_unique with (Z.b2z b7); [left|rewrite E; ring].
    destruct b0,b1,b2,b3,b4,b5,b6; simpl; lia. }
  rewrite Hm. ring.
Qed.

Lemma pext_mask0 bits src : pext bits src 0 = 0.
Proof. revert src; induction bits as [|b IH]; intros; cbn [pext]; [reflexivity|]. rewrite Z.shiftr_0_l. cbn. apply IH. Qed.

(** The value of the low 7 bits of the first [k] bytes. *)
Fixpoint val7 (k : nat) (data : list Z) : Z :=
  match k with O => 0 | S k' => hd 0 data mod 128 + 128 * val7 k' (tl data) end.

Lemma pext_load k m bits data word : Forall (fun b => 0 <= b < 256) data -> load_le m data = Some word ->
  (k <= m)%nat -> (8 * k <= bits)%nat -> pext bits word (mask_7f k) = val7 k data.
Proof.
  revert m bits data word; induction k as [|k IH]; intros m bits data word Hd Hl Hk Hbits.
  - cbn [mask_7f val7]. apply pext_mask0.
  - destruct m as [|m]; [lia|]. destruct data as [|b data]; [discriminate|].
    cbn [load_le] in Hl. destruct (load_le m data) as [r|] eqn:El; [|discriminate].
    assert (Ew : word = b + 256 * r) by congruence. subst word.
    inversion Hd; subst. cbn [mask_7f val7 hd tl].
    replace bits with (8 + (bits - 8))%nat by lia.
    rewrite pext_byte by lia. rewrite (IH m (bits - 8)%nat data r) by (auto; lia). reflexivity.
Qed.

(** An encoding: all bytes but the last have the continuation bit, val7 of it is the value. *)
Lemma encode_shape fuel i l : varint_encode_loop fuel i = Some l -> 0 <= i -> forall suffix,
  val7 (length l) (l ++ suffix) = i /\
  (forall k, (S k < length l)%nat -> cont_bit k (l ++ suffix) = true) /\
  cont_bit (length l - 1) (l ++ suffix) = false /\ (0 < length l)%nat /\
  i < 128 ^ Z.of_nat (length l) /\ ((1 < length l)%nat -> 128 ^ (Z.of_nat (length l) - 1) <= i).
Proof.
  revert i l; induction fuel as [|f IH]; intros i l He Hi suffix; [discriminate|].
  cbn [varint_encode_loop] in He. rewrite shiftr_7, land_127 in He.
  pose proof (Z.mod_pos_bound i 128 ltac:(lia)) as Hm.
  destruct (127 <? i) eqn:E.
  - destruct (varint_encode_loop f (i / 128)) as [r|] eqn:Er; [|discriminate]. injection He as <-.
    rewrite lor_128 by lia.
    destruct (IH _ _ Er ltac:(apply Z.div_pos; lia) suffix) as (Hv & Hc & Hl & Hpos & Hub & Hlb).
    pose proof (Z.div_mod i 128 ltac:(lia)) as Hdm.
    cbn [length app]. split; [|split; [|split; [|split; [lia|]]]].
    + cbn [val7 hd tl]. rewrite Hv. replace ((i mod 128 + 128) mod 128) with (i mod 128); [lia|].
      rewrite <- (Z.mul_1_l 128) at 3. rewrite Z.mod_add, Z.mod_mod; lia.
    + intros [|k] Hk; unfold cont_bit; cbn [nth]; [rewrite land_128' by lia; reflexivity|]. apply Hc; lia.
    + replace (S (length r) - 1)%nat with (S (length r - 1)) by lia. unfold cont_bit. cbn [nth]. apply Hl.
    + replace (Z.of_nat (S (length r))) with (Z.of_nat (length r) + 1) by lia. rewrite Z.pow_add_r by lia.
      change (128 ^ 1) with 128. split; [lia|]. intros _.
      replace (Z.of_nat (length r) + 1 - 1) with (Z.of_nat (length r) - 1 + 1) by lia.
      destruct (Nat.eq_dec (length r) 1) as [E1|E1]; [rewrite E1; simpl; lia|].
      rewrite Z.pow_add_r by lia. change (128 ^ 1) with 128. specialize (Hlb ltac:(lia)). lia.
  - injection He as <-. rewrite (Z.mod_small i 128) by lia.
    cbn [length app]. split; [|split; [|split; [|split; [lia|]]]].
    + cbn [val7 hd tl]. rewrite Z.mod_small; lia.
    + intros; lia.
    + unfold cont_bit. cbn [nth Nat.sub]. rewrite land_128 by lia. reflexivity.
    + simpl. split; lia.
Qed.

Lemma load_le_some k data : (k <= length data)%nat -> exists word, load_le k data = Some word.
Proof.
  revert data; induction k as [|k IH]; intros data H; [eexists; reflexivity|].
  destruct data as [|b data]; cbn [length] in H; [lia|]. cbn [load_le].
  destruct (IH data) as (r & ->); [lia|]. eexists; reflexivity.
Qed.

Lemma skipn_app_exact {A} (l s : list A) k : k = length l -> skipn k (l ++ s) = s.
Proof. intros ->. induction l; auto. Qed.

Lemma pow128 k : 0 <= k -> 128 ^ k = 2 ^ (7 * k).
Proof. intros. rewrite Z.pow_mul_r by lia. reflexivity. Qed.

Lemma pext_unrolled_32_ok i suffix : 0 <= i < 2 ^ 32 -> Forall (fun b => 0 <= b < 256) suffix ->
  (7 <= length suffix)%nat ->
  varint_decode_pext_unrolled_32 (varint_encode 32 i ++ suffix) = Some (i, suffix).
Proof.
  intros Hi Hs Hlen.
  pose proof (varint_encode_facts 32 i ltac:(lia) Hi) as (_ & _ & Hb).
  unfold varint_encode in *.
  destruct (encode_loop_some (varint_fuel 32) i (fuel_enough 32 i ltac:(lia) Hi) (fuel_pos 32 ltac:(lia))) as (l & He & _ & Hll & _).
  rewrite He in *. destruct (encode_shape _ _ _ He ltac:(lia) suffix) as (Hv & Hc & Hlast & Hpos & Hub & Hlb).
  change (varint_fuel 32) with 5%nat in Hll.
  assert (Hbs : Forall (fun b => 0 <= b < 256) (l ++ suffix)) by (apply Forall_app; auto).
  set (data := l ++ suffix) in *.
  assert (Hdl : (8 <= length data)%nat) by (subst data; rewrite app_length; lia).
  assert (Hsk : forall k, k = length l -> skipn k data = suffix) by (intros; subst data; apply skipn_app_exact; auto).
  destruct (load_le_some 4 data ltac:(lia)) as (w4 & Hw4). destruct (load_le_some 8 data ltac:(lia)) as (w8 & Hw8).
  unfold varint_decode_pext_unrolled_32. rewrite Hw4, Hw8.
  pose proof (fun k => pext_load k 4 32 data w4 Hbs Hw4) as Hp4.
  pose proof (fun k => pext_load k 8 64 data w8 Hbs Hw8) as Hp8.
  destruct data as [|b0 data'] eqn:Ed; [cbn [length] in Hdl; lia|].
  assert (Hcase : (length l = 1 \/ length l = 2 \/ length l = 3 \/ length l = 4 \/ length l = 5)%nat) by lia.
  destruct Hcase as [E|[E|[E|[E|E]]]]; rewrite E in *; cbn [Nat.sub] in Hlast.
  - rewrite Hlast. cbn [negb]. rewrite land_127. cbn [val7 hd] in Hv. rewrite Hsk by reflexivity. repeat f_equal. lia.
  - rewrite (Hc 0%nat), Hlast by lia. cbn [negb Nat.sub]. rewrite (Hp4 2%nat) by lia. rewrite Hv, Hsk by reflexivity. reflexivity.
  - rewrite (Hc 0%nat), (Hc 1%nat), Hlast by lia. cbn [negb Nat.sub]. rewrite (Hp4 3%nat) by lia. rewrite Hv, Hsk by reflexivity. reflexivity.
  - rewrite (Hc 0%nat), (Hc 1%nat), (Hc 2%nat), Hlast by lia. cbn [negb Nat.sub]. rewrite (Hp4 4%nat) by lia. rewrite Hv, Hsk by reflexivity. reflexivity.
  - rewrite (Hc 0%nat), (Hc 1%nat), (Hc 2%nat), (Hc 3%nat) by lia. cbn [negb Nat.sub].
    rewrite (Hp8 5%nat) by lia. rewrite Hv, Hsk by reflexivity. rewrite wrap_u_small by lia. reflexivity.
Qed.

Lemma nth_error_nth_lt {A} (l : list A) k d : (k < length l)%nat -> nth_error l k = Some (nth k l d).
Proof. intros. apply nth_error_nth'. assumption. Qed.

Lemma val7_app a b data : val7 (a + b) data = val7 a data + 128 ^ Z.of_nat a * val7 b (skipn a data).
Proof.
  revert data; induction a as [|a IH]; intros data; [cbn [Nat.add val7 skipn]; simpl (128 ^ _); lia|].
  cbn [Nat.add val7]. rewrite IH. replace (Z.of_nat (S a)) with (Z.of_nat a + 1) by lia.
  rewrite Z.pow_add_r by lia. change (128 ^ 1) with 128.
  replace (skipn (S a) data) with (skipn a (tl data)); [ring|]. destruct data; [rewrite !skipn_nil|]; reflexivity.
Qed.
Lemma val7_range k data : 0 <= val7 k data < 128 ^ Z.of_nat k.
Proof.
  revert data; induction k as [|k IH]; intros; [simpl; lia|]. cbn [val7].
  replace (Z.of_nat (S k)) with (Z.of_nat k + 1) by lia. rewrite Z.pow_add_r by lia. change (128 ^ 1) with 128.
  pose proof (Z.mod_pos_bound (hd 0 data) 128 ltac:(lia)). specialize (IH (tl data)). lia.
Qed.
Lemma hd_skipn {A} k (l : list A) d : hd d (skipn k l) = nth k l d.
Proof. revert l; induction k as [|k IH]; intros [|x l]; simpl; auto. Qed.

Lemma pext_unrolled_64_ok i suffix : 0 <= i < 2 ^ 64 -> Forall (fun b => 0 <= b < 256) suffix ->
  (7 <= length suffix)%nat ->
  varint_decode_pext_unrolled_64 (varint_encode 64 i ++ suffix) = Some (i, suffix).
Proof.
  intros Hi Hs Hlen.
  pose proof (varint_encode_facts 64 i ltac:(lia) Hi) as (_ & _ & Hb).
  unfold varint_encode in *.
  destruct (encode_loop_some (varint_fuel 64) i (fuel_enough 64 i ltac:(lia) Hi) (fuel_pos 64 ltac:(lia))) as (l & He & _ & Hll & _).
  rewrite He in *. destruct (encode_shape _ _ _ He ltac:(lia) suffix) as (Hv & Hc & Hlast & Hpos & Hub & Hlb).
  change (varint_fuel 64) with 10%nat in Hll.
  assert (Hbs : Forall (fun b => 0 <= b < 256) (l ++ suffix)) by (apply Forall_app; auto).
  set (data := l ++ suffix) in *.
  assert (Hdl : (length l + 7 <= length data)%nat) by (subst data; rewrite app_length; lia).
  assert (Hsk : forall k, k = length l -> skipn k data = suffix) by (intros; subst data; apply skipn_app_exact; auto).
  destruct (load_le_some 4 data ltac:(lia)) as (w4 & Hw4). destruct (load_le_some 8 data ltac:(lia)) as (w8 & Hw8).
  unfold varint_decode_pext_unrolled_64. rewrite Hw4, Hw8.
  pose proof (fun k => pext_load k 4 32 data w4 Hbs Hw4) as Hp4.
  pose proof (fun k => pext_load k 8 64 data w8 Hbs Hw8) as Hp8.
  assert (Hn : forall k, (k < length data)%nat -> nth_error data k = Some (nth k data 0)) by (intros; apply nth_error_nth_lt; auto).
  assert (Hnb : forall k, (k < length data)%nat -> 0 <= nth k data 0 < 256).
  { intros k Hk. rewrite Forall_forall in Hbs. apply Hbs, nth_In; auto. }
  destruct data as [|b0 data'] eqn:Ed; [cbn [length] in Hdl; lia|].
  assert (Hsmall : length l = 1%nat -> Some (Z.land b0 127, skipn 1 (b0 :: data')) = Some (i, suffix)).
  { intros E. rewrite E in *. rewrite land_127. cbn [val7 hd] in Hv. rewrite Hsk by reflexivity. repeat f_equal. lia. }
  assert (Hcc : forall k, cont_bit k (b0 :: data') = true \/ (length l - 1 <= k)%nat)
    by (intros k; destruct (Nat.lt_ge_cases (S k) (length l)); [left; auto|right; lia]).
  destruct (Nat.le_gt_cases (length l) 8) as [H8|H8].
  - (* at most 8 bytes *)
    assert (Hcase : (length l = 1 \/ length l = 2 \/ length l = 3 \/ length l = 4 \/ length l = 5 \/ length l = 6 \/ length l = 7 \/ length l = 8)%nat) by lia.
    destruct Hcase as [E|[E|[E|[E|[E|[E|[E|E]]]]]]].
    1: { rewrite E in Hlast. cbn [Nat.sub] in Hlast. rewrite Hlast. cbn [negb]. apply Hsmall; auto. }
    all: clear Hsmall Hcc; rewrite E in *; cbn [Nat.sub] in Hlast;
      repeat match goal with |- context [cont_bit ?k ?dd] =>
        first [rewrite (Hc k) by lia | rewrite Hlast]; cbn [negb Nat.sub] end.
    1: rewrite (Hp4 2%nat) by lia. 2: rewrite (Hp4 3%nat) by lia. 3: rewrite (Hp4 4%nat) by lia.
    4: rewrite (Hp8 5%nat) by lia. 5: rewrite (Hp8 6%nat) by lia. 6: rewrite (Hp8 7%nat) by lia. 7: rewrite (Hp8 8%nat) by lia.
    all: rewrite Hv, Hsk by reflexivity; reflexivity.
  - rewrite (Hc 0%nat), (Hc 1%nat), (Hc 2%nat), (Hc 3%nat), (Hc 4%nat), (Hc 5%nat), (Hc 6%nat), (Hc 7%nat) by lia. cbn [negb].
    rewrite (Hn 8%nat) by lia.
    rewrite (Hp8 8%nat) by lia. rewrite !land_127.
    pose proof (val7_range 8 (b0 :: data')) as Hr8. change (128 ^ Z.of_nat 8) with (2 ^ 56) in Hr8.
    pose proof (Z.mod_pos_bound (nth 8 (b0::data') 0) 128 ltac:(lia)) as Hm8.
    rewrite !Z.shiftl_mul_pow2 by lia.
    rewrite (wrap_u_small 64 (nth 8 (b0::data') 0 mod 128 * 2 ^ 56)) by lia.
    rewrite lor_disjoint by lia.
    destruct (Nat.eq_dec (length l) 9) as [E9|E9].
    + rewrite E9 in *. cbn [Nat.sub] in Hlast. rewrite Hlast. cbn [negb].
      rewrite Hsk by reflexivity. change 9%nat with (8 + 1)%nat in Hv. rewrite val7_app in Hv.
      cbn [val7] in Hv. rewrite hd_skipn in Hv. change (128 ^ Z.of_nat 8) with (2 ^ 56) in Hv.
      repeat f_equal. rewrite <- Hv. cbn [val7]. lia.
    + assert (E10 : length l = 10%nat) by lia. rewrite E10 in *. rewrite (Hc 8%nat) by lia. cbn [negb].
      rewrite (Hn 9%nat) by lia. rewrite Hsk by reflexivity.
      change 10%nat with (9 + 1)%nat in Hv. rewrite val7_app in Hv. change 9%nat with (8 + 1)%nat in Hv. rewrite (val7_app 8 1) in Hv.
      change (val7 1 ?x) with (hd 0 x mod 128 + 128 * 0) in Hv. rewrite !hd_skipn in Hv.
      change (128 ^ Z.of_nat 8) with (2 ^ 56) in Hv. change (128 ^ Z.of_nat (8 + 1)) with (2 ^ 63) in Hv.
      cbn [Nat.sub] in Hlast. unfold cont_bit in Hlast.
      assert (H9 : 0 <= nth 9 (b0 :: data') 0 < 128).
      { pose proof (Hnb 9%nat ltac:(lia)). destruct (Z.lt_ge_cases (nth 9 (b0::data') 0) 128); [lia|].
        rewrite land_128' in Hlast by lia. discriminate. }
      rewrite (Z.mod_small (nth 9 _ _)) in Hv by lia.
      set (v8 := val7 8 (b0 :: data')) in *. set (x8 := nth 8 (b0 :: data') 0 mod 128) in *. set (x9 := nth 9 (b0::data') 0) in *.
      change ((8 + 1)%nat) with 9%nat in Hv. fold x9 in Hv.
      match goal with H : v8 + _ + _ = _ |- _ => idtac end.
      assert (H91 : x9 = 0 \/ x9 = 1) by lia.
      rewrite Z.shiftl_mul_pow2 by lia. rewrite (wrap_u_small 64) by lia.
      rewrite lor_disjoint by lia. repeat f_equal. lia.
Qed.

(** Byte-wise bit operations. *)
Lemma testbit_cat a x s n : 0 <= s -> 0 <= a < 2 ^ s -> 0 <= n ->
  Z.testbit (a + x * 2 ^ s) n = if n <? s then Z.testbit a n else Z.testbit x (n - s).
Proof.
  intros Hs Ha Hn. rewrite <- lor_disjoint by lia. rewrite Z.lor_spec.
  destruct (Z.ltb_spec n s).
  - rewrite Z.mul_pow2_bits_low by lia. apply orb_false_r.
  - rewrite Z.mul_pow2_bits by lia. destruct (Z.eq_dec a 0) as [->|]; [rewrite Z.bits_0; reflexivity|].
    rewrite (Z.bits_above_log2 a n); [reflexivity|lia|]. apply Z.lt_le_trans with s; [|lia]. apply Z.log2_lt_pow2; lia.
Qed.

Lemma land_byte a b x y : 0 <= a < 256 -> 0 <= b < 256 -> 0 <= Z.land a b < 256 ->
  Z.land (a + 256 * x) (b + 256 * y) = Z.land a b + 256 * Z.land x y.
Proof.
  intros Ha Hb Hab. rewrite !(Z.mul_comm 256). change 256 with (2 ^ 8) in *. apply Z.bits_inj'; intros n Hn.
  rewrite Z.land_spec, !testbit_cat by lia. destruct (n <? 8); symmetry; apply Z.land_spec.
Qed.
Lemma lxor_byte a b x y : 0 <= a < 256 -> 0 <= b < 256 -> 0 <= Z.lxor a b < 256 ->
  Z.lxor (a + 256 * x) (b + 256 * y) = Z.lxor a b + 256 * Z.lxor x y.
Proof.
  intros Ha Hb Hab. rewrite !(Z.mul_comm 256). change 256 with (2 ^ 8) in *. apply Z.bits_inj'; intros n Hn.
  rewrite Z.lxor_spec, !testbit_cat by lia. destruct (n <? 8); symmetry; apply Z.lxor_spec.
Qed.

Fixpoint mask_80 (k : nat) : Z := match k with O => 0 | S k' => 128 + 256 * mask_80 k' end.

Lemma land_compl_128 b : 0 <= b < 256 -> Z.land (255 - b) 128 = 128 - Z.land b 128.
Proof.
  intros. destruct (Z.lt_ge_cases b 128).
  - rewrite (land_128 b), land_128' by lia. reflexivity.
  - rewrite (land_128' b), land_128 by lia. reflexivity.
Qed.

Lemma countr_zero_byte0 bits c : countr_zero (8 + bits) (256 * c) = 8 + countr_zero bits c.
Proof.
  replace (256 * c) with (2 * (2 * (2 * (2 * (2 * (2 * (2 * (2 * c)))))))) by ring.
  assert (H : forall b x, countr_zero (S b) (2 * x) = 1 + countr_zero b x).
  { intros. cbn [countr_zero]. replace (2 * x) with (Z.b2z false + 2 * x) by (simpl; lia).
    rewrite odd_cons, shiftr_cons. reflexivity. }
  change (8 + bits)%nat with (S (S (S (S (S (S (S (S bits)))))))). rewrite !H. lia.
Qed.
Lemma countr_zero_128 bits c : countr_zero (8 + bits) (128 + 256 * c) = 7.
Proof.
  replace (128 + 256 * c) with (2 * (2 * (2 * (2 * (2 * (2 * (2 * (1 + 2 * c)))))))) by ring.
  assert (H : forall b x, countr_zero (S b) (2 * x) = 1 + countr_zero b x).
  { intros. cbn [countr_zero]. replace (2 * x) with (Z.b2z false + 2 * x) by (simpl; lia).
    rewrite odd_cons, shiftr_cons. reflexivity. }
  change (8 + bits)%nat with (S (S (S (S (S (S (S (S bits)))))))). rewrite !H.
  cbn [countr_zero]. change (1 + 2 * c) with (Z.b2z true + 2 * c). rewrite odd_cons. lia.
Qed.

Lemma cont_bit_hd b data : 0 <= b < 256 -> cont_bit 0 (b :: data) = negb (b <? 128).
Proof.
  intros. unfold cont_bit. cbn [nth]. destruct (Z.ltb_spec b 128).
  - rewrite land_128 by lia. reflexivity.
  - rewrite land_128' by lia. reflexivity.
Qed.

Lemma branchless_main len : forall data word m k bits,
  Forall (fun b => 0 <= b < 256) data -> load_le m data = Some word -> (len < k)%nat -> (k <= m)%nat ->
  (8 * S len <= bits)%nat ->
  (forall j, (j < len)%nat -> cont_bit j data = true) -> cont_bit len data = false ->
  let c := Z.land (2 ^ (8 * Z.of_nat m) - 1 - word) (mask_80 k) in
  let ones := 2 ^ (8 * Z.of_nat (S len)) - 1 in
  0 < c /\ Z.lxor c (c - 1) = ones /\ countr_zero bits c = 8 * Z.of_nat len + 7 /\
  pext bits (Z.land word ones) (mask_7f k) = val7 (S len) data.
Proof.
  induction len as [|len IH]; intros data word m k bits Hd Hl Hk Hm Hbits Hc Hlast.
  all: destruct m as [|m]; [lia|]; destruct data as [|b data]; [discriminate|];
    cbn [load_le] in Hl; destruct (load_le m data) as [r|] eqn:El; [|discriminate];
    assert (Ew : word = b + 256 * r) by congruence; subst word; clear Hl;
    destruct k as [|k]; [lia|]; pose proof Hd as Hd'; apply Forall_cons_iff in Hd'; destruct Hd' as (Hb & Hd');
    cbv zeta; cbn [mask_80 mask_7f];
    assert (Hpm : 2 ^ (8 * Z.of_nat (S m)) = 256 * 2 ^ (8 * Z.of_nat m))
      by (replace (8 * Z.of_nat (S m)) with (8 + 8 * Z.of_nat m) by lia; rewrite Z.pow_add_r by lia; reflexivity);
    replace (2 ^ (8 * Z.of_nat (S m)) - 1 - (b + 256 * r)) with ((255 - b) + 256 * (2 ^ (8 * Z.of_nat m) - 1 - r)) by lia;
    rewrite land_byte by first [lia | rewrite land_compl_128 by lia; destruct (Z.lt_ge_cases b 128); [rewrite land_128 by lia|rewrite land_128' by lia]; lia];
    rewrite land_compl_128 by lia; set (c' := Z.land (2 ^ (8 * Z.of_nat m) - 1 - r) (mask_80 k)).
  - rewrite cont_bit_hd in Hlast by lia. assert (b < 128) by lia. rewrite land_128 by lia.
    change (8 * Z.of_nat 1) with 8. change (2 ^ 8 - 1) with 255.
    assert (Hc' : 0 <= c').
    { subst c'. apply Z.land_nonneg. right. clear. induction k; cbn [mask_80]; lia. }
    split; [lia|]. split; [|split].
    + replace (128 - 0 + 256 * c' - 1) with (127 + 256 * c') by lia. change (128 - 0) with 128.
      rewrite lxor_byte by (change (Z.lxor 128 127) with 255; lia). rewrite Z.lxor_nilpotent. reflexivity.
    + replace bits with (8 + (bits - 8))%nat by lia. change (128 - 0) with 128. rewrite countr_zero_128. reflexivity.
    + replace bits with (8 + (bits - 8))%nat by lia.
      change 255 with (2 ^ 8 - 1). rewrite land_ones' by lia. change (2 ^ 8) with 256.
      replace ((b + 256 * r) mod 256) with b by (apply Z.mod_unique with r; lia).
      replace b with (b + 256 * 0) at 1 by lia. rewrite pext_byte by lia. cbn [val7 hd tl].
      f_equal. f_equal. clear. generalize (bits - 8)%nat as n. revert k. 
      assert (H : forall n k, pext n 0 k = 0).
      { induction n; intros; cbn [pext]; [reflexivity|]. rewrite Z.shiftr_0_l, IHn. destruct (Z.odd k); reflexivity. }
      intros; apply H.
  - pose proof (Hc 0%nat ltac:(lia)) as H0. rewrite cont_bit_hd in H0 by lia. assert (128 <= b) by lia.
    rewrite land_128' by lia. replace (128 - 128 + 256 * c') with (256 * c') by lia.
    destruct (IH data r m k (bits - 8)%nat) as (Hpos & Hx & Hcz & Hpx); try assumption; try lia.
    { intros j Hj. apply (Hc (S j)). lia. }
    cbv zeta in Hpos, Hx, Hcz, Hpx. fold c' in Hpos, Hx, Hcz.
    replace (8 * Z.of_nat (S (S len))) with (8 + 8 * Z.of_nat (S len)) by lia. rewrite Z.pow_add_r by lia. change (2 ^ 8) with 256.
    set (P := 2 ^ (8 * Z.of_nat (S len))) in *.
    split; [lia|]. split; [|split].
    + replace (256 * c' - 1) with (255 + 256 * (c' - 1)) by lia. replace (256 * c') with (0 + 256 * c') by lia.
      rewrite lxor_byte by (change (Z.lxor 0 255) with 255; lia). rewrite Hx. change (Z.lxor 0 255) with 255. lia.
    + replace bits with (8 + (bits - 8))%nat by lia. rewrite countr_zero_byte0, Hcz. lia.
    + replace bits with (8 + (bits - 8))%nat by lia.
      replace (256 * P - 1) with (255 + 256 * (P - 1)) by lia.
      assert (Hb255 : Z.land b 255 = b).
      { change 255 with (2 ^ 8 - 1). rewrite land_ones' by lia. apply Z.mod_small. lia. }
      rewrite land_byte by lia. rewrite Hb255. rewrite pext_byte by lia. rewrite Hpx. reflexivity.
Qed.

Lemma pext_branchless_32_ok i suffix : 0 <= i < 2 ^ 32 -> Forall (fun b => 0 <= b < 256) suffix ->
  (7 <= length suffix)%nat ->
  varint_decode_pext_branchless_32 (varint_encode 32 i ++ suffix) = Some (i, suffix).
Proof.
  intros Hi Hs Hlen.
  pose proof (varint_encode_facts 32 i ltac:(lia) Hi) as (_ & _ & Hb).
  unfold varint_encode in *.
  destruct (encode_loop_some (varint_fuel 32) i (fuel_enough 32 i ltac:(lia) Hi) (fuel_pos 32 ltac:(lia))) as (l & He & _ & Hll & _).
  rewrite He in *. destruct (encode_shape _ _ _ He ltac:(lia) suffix) as (Hv & Hc & Hlast & Hpos & Hub & Hlb).
  change (varint_fuel 32) with 5%nat in Hll.
  assert (Hbs : Forall (fun b => 0 <= b < 256) (l ++ suffix)) by (apply Forall_app; auto).
  assert (Hsk : skipn (length l) (l ++ suffix) = suffix) by (apply skipn_app_exact; auto).
  destruct (load_le_some 8 (l ++ suffix)) as (w8 & Hw8); [rewrite app_length; lia|].
  unfold varint_decode_pext_branchless_32. rewrite Hw8. cbv zeta.
  assert (Hw8r : forall k d w, Forall (fun b => 0 <= b < 256) d -> load_le k d = Some w -> 0 <= w < 2 ^ (8 * Z.of_nat k)).
  { clear. induction k as [|k IH]; intros d w Hd Hl; cbn [load_le] in Hl.
    - injection Hl as <-. simpl. lia.
    - destruct d as [|b d]; [discriminate|]. destruct (load_le k d) as [r|] eqn:E; [|discriminate].
      assert (w = b + 256 * r) by congruence. apply Forall_cons_iff in Hd. destruct Hd as (Hb & Hd).
      specialize (IH _ _ Hd E). replace (8 * Z.of_nat (S k)) with (8 + 8 * Z.of_nat k) by lia.
      rewrite Z.pow_add_r by lia. change (2 ^ 8) with 256. lia. }
  pose proof (Hw8r _ _ _ Hbs Hw8) as Hr. change (8 * Z.of_nat 8) with 64 in Hr.
  destruct (branchless_main (length l - 1) (l ++ suffix) w8 8 5 64 Hbs Hw8) as (Hcp & Hx & Hcz & Hpx); try lia; try assumption.
  { intros j Hj. apply Hc. lia. }
  cbv zeta in *. change (8 * Z.of_nat 8) with 64 in *. change (mask_80 5) with 551911719040 in *.
  replace (wrap_u 64 (Z.lnot w8)) with (2 ^ 64 - 1 - w8).
  2:{ unfold wrap_u, Z.lnot. apply Z.mod_unique with (-1); lia. }
  set (c := Z.land (2 ^ 64 - 1 - w8) 551911719040) in *.
  assert (Hcr : c < 2 ^ 64).
  { subst c. apply Z.le_lt_trans with 551911719040; [|lia]. rewrite Z.land_comm. 
    assert (Hle : forall a b, 0 <= a -> Z.land a b <= a).
    { intros a b Ha. pose proof (Z.lor_ldiff_and a b) as E.
      assert (Hd : Z.land (Z.ldiff a b) (Z.land a b) = 0).
      { apply Z.bits_inj'; intros n Hn. rewrite Z.bits_0, !Z.land_spec, Z.ldiff_spec.
        destruct (Z.testbit a n), (Z.testbit b n); reflexivity. }
      rewrite <- Z.lxor_lor, <- Z.add_nocarry_lxor in E by exact Hd.
      assert (0 <= Z.ldiff a b) by (apply Z.ldiff_nonneg; lia). lia. }
    apply Hle. lia. }
  rewrite (wrap_u_small 64 (c - 1)) by lia.
  rewrite Hx, Hcz, Hpx. replace (S (length l - 1)) with (length l) by lia. rewrite Hv.
  replace ((8 * Z.of_nat (length l - 1) + 7 + 1) / 8) with (Z.of_nat (length l)).
  2:{ apply Z.div_unique with 0; lia. }
  rewrite Nat2Z.id, Hsk. rewrite wrap_u_small by lia. reflexivity.
Qed.
