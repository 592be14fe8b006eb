From Verif Require Import Lib.Prelude Spec.BitVec Model.RankModel.
Local Open Scope Z_scope.

Ltac dlia := Z.div_mod_to_equations; lia.

(** Counting a predicate over [a, a+n). *)
Definition cnt (f : Z -> bool) (a : Z) (n : nat) : Z := sumn n (fun i => Z.b2z (f (a + Z.of_nat i))).
Lemma cnt_split : forall f a n m, cnt f a (n + m) = cnt f a n + cnt f (a + Z.of_nat n) m.
Proof.
  intros. unfold cnt. rewrite sumn_split. f_equal. apply sumn_ext. intros i _. f_equal. f_equal. lia.
Qed.
Lemma cnt_ext : forall f g a b n, (forall i, (i < n)%nat -> f (a + Z.of_nat i) = g (b + Z.of_nat i)) -> cnt f a n = cnt g b n.
Proof. intros. unfold cnt. apply sumn_ext. intros i Hi. f_equal. auto. Qed.
Lemma cnt_bound : forall f a n, 0 <= cnt f a n <= Z.of_nat n.
Proof.
  intros. unfold cnt. induction n as [|n IH]; [rewrite sumn_0; lia|]. rewrite sumn_S.
  destruct (f (a + Z.of_nat n)); cbn [Z.b2z]; lia.
Qed.
Lemma cnt_zero : forall f a n, (forall i, (i < n)%nat -> f (a + Z.of_nat i) = false) -> cnt f a n = 0.
Proof. intros. unfold cnt. apply sumn_zero_ext. intros i Hi. rewrite H; auto. Qed.
Lemma cnt_chunks : forall f a (m : nat), sumn m (fun k => cnt f (a + 64 * Z.of_nat k) 64) = cnt f a (64 * m).
Proof.
  intros f a. induction m as [|m IH]; [reflexivity|]. rewrite sumn_S, IH.
  replace (64 * S m)%nat with (64 * m + 64)%nat by lia. rewrite cnt_split. f_equal. f_equal. lia.
Qed.

(** Words. *)
Definition word (x : Z) : Prop := 0 <= x < 2 ^ 64.
Lemma word_bits : forall x j, word x -> 64 <= j -> Z.testbit x j = false.
Proof.
  intros x j Hx Hj. rewrite <- (Z.mod_small x (2 ^ 64)) by exact Hx. apply Z.mod_pow2_bits_high. lia.
Qed.
Lemma bits_word : forall x, 0 <= x -> (forall j, 64 <= j -> Z.testbit x j = false) -> word x.
Proof.
  intros x Hx Hb. replace x with (x mod 2 ^ 64); [apply Z.mod_pos_bound; lia|].
  apply Z.bits_inj'. intros n Hn. destruct (Z_lt_le_dec n 64).
  - apply Z.mod_pow2_bits_low. lia.
  - rewrite Z.mod_pow2_bits_high by lia. rewrite Hb; auto.
Qed.
Lemma popcount_cnt : forall x, popcount x = cnt (Z.testbit x) 0 64.
Proof. reflexivity. Qed.
Lemma popcount_shr : forall x, word x -> popcount (Z.shiftr x 14) = cnt (Z.testbit x) 14 50.
Proof.
  intros x Hx. rewrite popcount_cnt. change 64%nat with (50 + 14)%nat. rewrite cnt_split.
  rewrite (cnt_zero _ (0 + Z.of_nat 50)).
  - rewrite Z.add_0_r. apply cnt_ext. intros i Hi. rewrite Z.shiftr_spec by lia. f_equal. lia.
  - intros i Hi. rewrite Z.shiftr_spec by lia. apply word_bits; auto. lia.
Qed.
Lemma popcount_shl : forall j x p, 0 < p <= 64 -> popcount (shl64 j x (64 - p)) = cnt (Z.testbit x) 0 (Z.to_nat p).
Proof.
  intros j x p Hp. unfold shl64. destruct (Z.ltb_spec (64 - p) 64); [|lia].
  rewrite popcount_cnt. replace 64%nat with (Z.to_nat (64 - p) + Z.to_nat p)%nat by lia. rewrite cnt_split.
  unfold w64. rewrite (cnt_zero _ 0).
  - cbn [Z.add]. apply cnt_ext. intros i Hi. rewrite Z.mod_pow2_bits_low by lia. rewrite Z.shiftl_spec by lia.
    f_equal. lia.
  - intros i Hi. rewrite Z.mod_pow2_bits_low by lia. rewrite Z.shiftl_spec_low by lia. reflexivity.
Qed.

(** Memory. *)
Lemma rd_ok : forall l i, 0 <= i < Z.of_nat (length l) -> rd l i = Some (nth (Z.to_nat i) l 0).
Proof.
  intros l i Hi. unfold rd. destruct (Z.leb_spec 0 i); [|lia]. apply nth_error_nth'. lia.
Qed.
Lemma wr_ok : forall l i x, 0 <= i < Z.of_nat (length l) -> wr l i x = Some (upd (Z.to_nat i) x l).
Proof. intros l i x Hi. unfold wr. destruct (Z.leb_spec 0 i); [|lia]. destruct (Z.ltb_spec i (Z.of_nat (length l))); [|lia]. reflexivity. Qed.

Notation wd d i := (nth (Z.to_nat i) d 0).
(** Bit [i] of block [blk], header included. *)
Definition fb (d : list Z) (blk : Z) (i : Z) : bool := Z.testbit (wd d (8 * blk + i / 64)) (i mod 64).
Definition words (d : list Z) : Prop := forall i, word (nth i d 0).

Lemma fb_word : forall d blk k a n, 0 <= a -> a + Z.of_nat n <= 64 -> 0 <= k ->
  cnt (Z.testbit (wd d (8 * blk + k))) a n = cnt (fb d blk) (64 * k + a) n.
Proof.
  intros d blk k a n Ha Hn Hk. apply cnt_ext. intros i Hi. unfold fb.
  replace ((64 * k + a + Z.of_nat i) / 64) with k by dlia.
  replace ((64 * k + a + Z.of_nat i) mod 64) with (a + Z.of_nat i) by dlia. reflexivity.
Qed.

Lemma popcounts_spec : forall c d i, 0 <= i -> i + Z.of_nat c <= Z.of_nat (length d) ->
  popcounts c d i = Some (sumn c (fun k => popcount (wd d (i + Z.of_nat k)))).
Proof.
  induction c as [|c IH]; intros d i Hi Hc; cbn [popcounts]; [reflexivity|].
  rewrite rd_ok by lia. rewrite IH by lia. f_equal.
  change (S c) with (1 + c)%nat. rewrite sumn_split. change (sumn 1 ?f) with (0 + (f 0%nat + 0)) || idtac.
  unfold sumn at 2. cbn [seq map zsum]. rewrite Z.add_0_r, Z.add_0_r. f_equal.
  apply sumn_ext. intros k _. f_equal. f_equal. f_equal. lia.
Qed.
Lemma popcounts_block : forall c d blk k, 0 <= blk -> 0 <= k -> 8 * blk + k + Z.of_nat c <= Z.of_nat (length d) ->
  popcounts c d (8 * blk + k) = Some (cnt (fb d blk) (64 * k) (64 * c)).
Proof.
  intros c d blk k Hb Hk Hc. rewrite popcounts_spec by lia. f_equal. rewrite <- cnt_chunks.
  apply sumn_ext. intros j Hj. rewrite popcount_cnt.
  replace (8 * blk + k + Z.of_nat j) with (8 * blk + (k + Z.of_nat j)) by lia.
  rewrite fb_word by lia. f_equal. lia.
Qed.
Lemma block_popcount_spec : forall d blk, words d -> 0 <= blk -> 8 * blk + 8 <= Z.of_nat (length d) ->
  block_popcount d (8 * blk) = Some (cnt (fb d blk) 14 498).
Proof.
  intros d blk HW Hb Hl. unfold block_popcount, kBlockHeaderWidth. rewrite rd_ok by lia.
  change (Z.to_nat (kNumWordsPerBlock - 1)) with 7%nat. rewrite popcounts_block by lia. f_equal.
  rewrite popcount_shr by apply HW. 
  replace (8 * blk) with (8 * blk + 0) by lia. rewrite fb_word by lia.
  change 498%nat with (50 + 64 * 7)%nat. rewrite cnt_split. f_equal.
Qed.

(** Replacing the header. *)
Definition newhdr (x c : Z) : Z := Z.lor (Z.land x (setbits kHeaderDataWidth kBlockHeaderWidth)) c.
Lemma newhdr_spec : forall x c, word x -> 0 <= c < 2 ^ 14 ->
  word (newhdr x c) /\ newhdr x c mod 2 ^ 14 = c /\ forall j, 14 <= j -> Z.testbit (newhdr x c) j = Z.testbit x j.
Proof.
  intros x c Hx Hc. unfold newhdr.
  replace (setbits kHeaderDataWidth kBlockHeaderWidth) with (Z.shiftl (Z.ones 50) 14) by reflexivity.
  assert (Hhi : forall j, 14 <= j -> Z.testbit c j = false).
  { intros j Hj. rewrite <- (Z.mod_small c (2 ^ 14)) by lia. apply Z.mod_pow2_bits_high. lia. }
  assert (HB : forall j, 14 <= j -> Z.testbit (Z.lor (Z.land x (Z.shiftl (Z.ones 50) 14)) c) j = Z.testbit x j).
  { intros j Hj. rewrite Z.lor_spec, Z.land_spec, Hhi, Bool.orb_false_r, Z.shiftl_spec by lia.
    destruct (Z_lt_le_dec j 64).
    - rewrite Z.ones_spec_low by lia. apply Bool.andb_true_r.
    - rewrite (word_bits x) by auto. reflexivity. }
  split; [|split]; auto.
  - apply bits_word.
    + apply Z.lor_nonneg. split; [|lia]. apply Z.land_nonneg. left. apply Hx.
    + intros j Hj. rewrite HB by lia. apply word_bits; auto.
  - apply Z.bits_inj'. intros j Hj. destruct (Z_lt_le_dec j 14).
    + rewrite Z.mod_pow2_bits_low by lia. rewrite Z.lor_spec, Z.land_spec, Z.shiftl_spec_low by lia.
      rewrite Bool.andb_false_r. reflexivity.
    + rewrite Z.mod_pow2_bits_high by lia. symmetry. auto.
Qed.

(** The counts of whole blocks. *)
Definition bc (d : list Z) (k : nat) : Z := cnt (fb d (Z.of_nat k)) 14 498.
Definition T (d : list Z) (b : nat) : Z := sumn b (bc d).
Lemma T_diff : forall d a m, 0 <= T d (a + m) - T d a <= 498 * Z.of_nat m.
Proof.
  intros d a. induction m as [|m IH]; [rewrite Nat.add_0_r; lia|].
  replace (a + S m)%nat with (S (a + m)) by lia. unfold T in *. rewrite sumn_S.
  pose proof (cnt_bound (fb d (Z.of_nat (a + m))) 14 498). unfold bc at 2. unfold bc in *. lia.
Qed.

(** Facts about the dimensions of a vector. *)
Record wfv (v : rbv) : Prop := {
  w_len : 0 <= rb_len v;
  w_nb : rb_blocks v = rdiv_ceil (rb_len v) 498;
  w_data : Z.of_nat (length (rb_data v)) = 8 * rb_blocks v;
  w_super : Z.of_nat (length (rb_super v)) = rdiv_ceil (rb_len v) 15936;
  w_words : words (rb_data v)
}.

Record uinv (v : rbv) (b : nat) (d s : list Z) (cr cbr ns : Z) : Prop := {
  u_len : length d = length (rb_data v);
  u_words : words d;
  u_slen : length s = length (rb_super v);
  u_bits : forall blk i, 0 <= blk -> 14 <= i < 512 -> fb d blk i = fb (rb_data v) blk i;
  u_hdr : forall k, (k < b)%nat -> wd d (8 * Z.of_nat k) mod 2 ^ 14 = T (rb_data v) k - T (rb_data v) (32 * (k / 32));
  u_sup : forall j, Z.of_nat j < ns -> nth j s 0 = T (rb_data v) (32 * j);
  u_ns : ns = (Z.of_nat b + 31) / 32;
  u_cr : cr = T (rb_data v) (32 * pred (Z.to_nat ns));
  u_cbr : cr + cbr = T (rb_data v) b
}.

Lemma update_step_spec : forall v b d s cr cbr ns, wfv v -> uinv v b d s cr cbr ns -> Z.of_nat b < rb_blocks v ->
  exists d' s' cr' cbr' ns', rb_update_step (Some (d, s, cr, cbr, ns)) b = Some (d', s', cr', cbr', ns') /\
    uinv v (S b) d' s' cr' cbr' ns'.
Proof.
  intros v b d s cr cbr ns HV HU Hb. destruct HV, HU.
  assert (Hdb : b = (32 * (b / 32) + b mod 32)%nat) by (apply Nat.div_mod; lia).
  assert (Hmb : (b mod 32 < 32)%nat) by (apply Nat.mod_upper_bound; lia).
  unfold rb_update_step.
  replace (Z.of_nat b * kNumWordsPerBlock) with (8 * Z.of_nat b) by (change kNumWordsPerBlock with 8; lia).
  change kNumWordsPerSuperblock with 256.
  set (R := (if 8 * Z.of_nat b mod 256 =? 0
     then match wr s ns (cr + cbr) with None => None | Some s' => Some (s', cr + cbr, 0, ns + 1) end
     else Some (s, cr, cbr, ns))).
  assert (HR : exists s' cr' cbr' ns', R = Some (s', cr', cbr', ns') /\ length s' = length (rb_super v) /\
    (forall j, Z.of_nat j < ns' -> nth j s' 0 = T (rb_data v) (32 * j)) /\ ns' = (Z.of_nat (S b) + 31) / 32 /\
    cr' = T (rb_data v) (32 * pred (Z.to_nat ns')) /\ cr' + cbr' = T (rb_data v) b /\
    pred (Z.to_nat ns') = (b / 32)%nat).
  { unfold R. destruct (Z.eqb_spec (8 * Z.of_nat b mod 256) 0) as [E|E].
    - assert (Ens : ns = Z.of_nat (b / 32)) by (rewrite u_ns0; rewrite Nat2Z.inj_div; dlia).
      assert (Eb : b = (32 * (b / 32))%nat).
      { assert (b mod 32 = 0)%nat; [|lia]. apply Nat2Z.inj. rewrite Nat2Z.inj_mod. dlia. }
      rewrite wr_ok.
      2:{ rewrite u_slen0, w_super0. unfold rdiv_ceil in *. split; [dlia|]. rewrite w_nb0 in Hb. dlia. }
      eexists _, _, _, _. split; [reflexivity|]. rewrite upd_length. split; auto. split; [|split; [|split; [|split]]].
      + intros j Hj. rewrite Ens, Nat2Z.id. destruct (Nat.eq_dec j (b / 32)) as [->|Hne].
        * rewrite upd_nth_same.
          -- rewrite u_cbr0. f_equal. exact Eb.
          -- rewrite u_slen0. apply Nat2Z.inj_lt. rewrite w_super0. unfold rdiv_ceil in *. rewrite w_nb0 in Hb.
             rewrite Nat2Z.inj_div. dlia.
        * rewrite upd_nth_other by lia. apply u_sup0. lia.
      + rewrite u_ns0. dlia.
      + rewrite u_cbr0. f_equal. rewrite Ens. replace (Z.to_nat (Z.of_nat (b / 32) + 1)) with (S (b / 32)) by lia.
        cbn [pred]. exact Eb.
      + lia.
      + lia.
    - eexists _, _, _, _. split; [reflexivity|]. split; auto. split; auto.
      assert (Ens : ns = Z.of_nat (b / 32) + 1) by (rewrite u_ns0; rewrite Nat2Z.inj_div; dlia).
      split; [rewrite Ens, Nat2Z.inj_div; dlia|]. split; auto. split; auto. lia. }
  destruct HR as (s' & cr' & cbr' & ns' & -> & Hs' & Hsup & Hns & Hcr & Hcbr & Hpred).
  assert (Hc14 : 0 <= cbr' < 2 ^ 14).
  { assert (cbr' = T (rb_data v) b - T (rb_data v) (32 * (b / 32))) by (rewrite <- Hpred, <- Hcr; lia).
    pose proof (T_diff (rb_data v) (32 * (b / 32)) (b mod 32)) as HT. rewrite <- Hdb in HT. change (2 ^ 14) with 16384. lia. }
  rewrite rd_ok by lia. rewrite wr_ok by lia.
  change (Z.lor (Z.land ?x (setbits kHeaderDataWidth kBlockHeaderWidth)) ?c) with (newhdr x c).
  set (x := wd d (8 * Z.of_nat b)). destruct (newhdr_spec x cbr' (u_words0 _) Hc14) as (N1 & N2 & N3).
  set (d' := upd (Z.to_nat (8 * Z.of_nat b)) (newhdr x cbr') d).
  assert (Hd' : forall i, 0 <= i -> wd d' i = if i =? 8 * Z.of_nat b then newhdr x cbr' else wd d i).
  { intros i Hi. unfold d'. destruct (Z.eqb_spec i (8 * Z.of_nat b)) as [->|Hne].
    - apply upd_nth_same. lia.
    - apply upd_nth_other. lia. }
  assert (HW' : words d').
  { intros i. unfold d'. rewrite upd_nth. destruct (_ && _)%bool; auto. }
  assert (HL' : length d' = length (rb_data v)) by (unfold d'; rewrite upd_length; auto).
  assert (Hbits : forall blk i, 0 <= blk -> 14 <= i < 512 -> fb d' blk i = fb (rb_data v) blk i).
  { intros blk i Hblk Hi. rewrite <- u_bits0 by auto. unfold fb. rewrite Hd' by dlia.
    destruct (Z.eqb_spec (8 * blk + i / 64) (8 * Z.of_nat b)) as [E|]; auto. rewrite E. apply N3.
    assert (i / 64 = 0) by dlia. dlia. }
  rewrite block_popcount_spec by (auto; lia).
  eexists _, _, _, _, _. split; [reflexivity|]. split; auto.
  - intros k Hk. rewrite Hd' by lia. destruct (Z.eqb_spec (8 * Z.of_nat k) (8 * Z.of_nat b)) as [E|].
    + assert (k = b) by lia. subst k. rewrite N2. rewrite <- Hpred, <- Hcr. lia.
    + apply u_hdr0. lia.
  - unfold T in *. rewrite sumn_S. rewrite Z.add_assoc, Hcbr. f_equal.
    unfold bc. apply cnt_ext. intros i Hi. apply Hbits; lia.
Qed.

Lemma update_loop_spec : forall v (n : nat), wfv v -> Z.of_nat n <= rb_blocks v ->
  exists d s cr cbr ns, fold_left rb_update_step (seq 0 n) (Some (rb_data v, rb_super v, 0, 0, 0)) = Some (d, s, cr, cbr, ns) /\
    uinv v n d s cr cbr ns.
Proof.
  intros v n HV. induction n as [|n IH]; intros Hn.
  - exists (rb_data v), (rb_super v), 0, 0, 0. split; [reflexivity|]. split; auto.
    + apply w_words. auto.
    + intros; lia.
    + intros; lia.
  - destruct IH as (d & s & cr & cbr & ns & E & HU); [lia|].
    rewrite seq_S, fold_left_app, E. cbn [fold_left Nat.add].
    apply update_step_spec; auto. lia.
Qed.

(** Positions. *)
Definition g (d : list Z) (p : Z) : bool := Z.testbit (wd d (rb_word p)) (rb_bit p).
Lemma g_fb : forall d p, 0 <= p -> g d p = fb d (p / 498) (p mod 498 + 14).
Proof.
  intros d p Hp. unfold g, fb, rb_word, rb_bit.
  change kBlockDataWidth with 498. change kNumWordsPerBlock with 8. change kBlockHeaderWidth with 14. change kWordWidth with 64.
  f_equal. f_equal. f_equal. lia.
Qed.
Lemma cnt_g_block : forall d (k : nat) n, (n <= 498)%nat -> cnt (g d) (498 * Z.of_nat k) n = cnt (fb d (Z.of_nat k)) 14 n.
Proof.
  intros d k n Hn. apply cnt_ext. intros i Hi. rewrite g_fb by lia.
  replace ((498 * Z.of_nat k + Z.of_nat i) / 498) with (Z.of_nat k) by dlia.
  f_equal. dlia.
Qed.
Lemma T_cnt : forall d b, T d b = cnt (g d) 0 (498 * b).
Proof.
  intros d. induction b as [|b IH]; [reflexivity|].
  unfold T in *. rewrite sumn_S, IH. replace (498 * S b)%nat with (498 * b + 498)%nat by lia.
  rewrite cnt_split. f_equal. unfold bc. rewrite <- cnt_g_block by lia. f_equal. lia.
Qed.

Lemma rank_spec : forall junk v b d s cr cbr ns (pos : nat), wfv v -> uinv v b d s cr cbr ns ->
  Z.of_nat b = rb_blocks v -> Z.of_nat pos / 498 < rb_blocks v ->
  rb_rank junk (Z.of_nat pos) {| rb_len := rb_len v; rb_blocks := rb_blocks v; rb_data := d; rb_super := s |} =
  Some (cnt (g (rb_data v)) 0 pos).
Proof.
  intros junk v b d s cr cbr ns pos HV HU Hb Hpos. destruct HV, HU.
  unfold rb_rank. cbn [rb_super rb_data].
  change kBlockDataWidth with 498. change kNumWordsPerBlock with 8. change kBlockHeaderWidth with 14.
  change kWordWidth with 64. change kSuperblockDataWidth with 15936. change (64 + 14) with 78.
  change (setbits 14 0) with (Z.ones 14).
  set (P := Z.of_nat pos) in *. set (blk := (pos / 498)%nat). set (q := (pos mod 498)%nat).
  assert (Hpq : pos = (498 * blk + q)%nat) by (apply Nat.div_mod; lia).
  assert (Hq : (q < 498)%nat) by (apply Nat.mod_upper_bound; lia).
  assert (E1 : P / 498 = Z.of_nat blk) by (unfold P; dlia).
  assert (E2 : P mod 498 = Z.of_nat q) by (unfold P; dlia).
  assert (E3 : P / 15936 = Z.of_nat (blk / 32)) by (rewrite Nat2Z.inj_div; unfold P; dlia).
  rewrite E1, E2, E3. rewrite E1 in Hpos.
  assert (Hsb : Z.of_nat (blk / 32) < ns) by (rewrite u_ns0, Nat2Z.inj_div; dlia).
  rewrite rd_ok.
  2:{ rewrite u_slen0, w_super0. split; [lia|]. rewrite Nat2Z.inj_div. unfold rdiv_ceil in *. rewrite w_nb0 in *. dlia. }
  rewrite (rd_ok d) by lia. rewrite Nat2Z.id.
  rewrite u_sup0 by lia.
  replace (Z.of_nat blk * 8) with (8 * Z.of_nat blk) by lia.
  rewrite Z.land_ones by lia. rewrite u_hdr0 by lia.
  set (first := wd d (8 * Z.of_nat blk)).
  assert (Hgoal : T (rb_data v) blk + cnt (fb d (Z.of_nat blk)) 14 q = cnt (g (rb_data v)) 0 pos).
  { rewrite Hpq at 1. rewrite cnt_split, T_cnt. f_equal.
    rewrite (cnt_ext _ (fb (rb_data v) (Z.of_nat blk)) 14 14).
    - rewrite <- cnt_g_block by lia. f_equal. lia.
    - intros i Hi. apply u_bits0; lia. }
  replace (T (rb_data v) (32 * (blk / 32)) + (T (rb_data v) blk - T (rb_data v) (32 * (blk / 32)))) with (T (rb_data v) blk) by lia.
  assert (Hfirst : forall a n, 0 <= a -> a + Z.of_nat n <= 64 -> cnt (Z.testbit first) a n = cnt (fb d (Z.of_nat blk)) a n).
  { intros a n Ha Hn. unfold first. replace (8 * Z.of_nat blk) with (8 * Z.of_nat blk + 0) by lia. rewrite fb_word by lia. reflexivity. }
  destruct (Z.eqb_spec ((Z.of_nat q + 14) / 64) 0) as [Ew|Ew].
  - f_equal. rewrite <- Hgoal. f_equal.
    replace ((Z.of_nat q + 14) mod 64) with (Z.of_nat q + 14) by dlia.
    destruct (Z.eqb_spec (Z.of_nat q + 14) 14) as [E|E]; cbn [negb Z.b2z].
    + assert (q = 0%nat) by lia. rewrite H. unfold cnt. rewrite sumn_0. lia.
    + replace (78 - (Z.of_nat q + 14)) with (64 - Z.of_nat q) by lia. rewrite popcount_shl by dlia.
      rewrite Nat2Z.id, Z.mul_1_r. rewrite <- Hfirst by dlia. apply cnt_ext. intros i Hi.
      rewrite Z.shiftr_spec by lia. f_equal. lia.
  - set (k := (Z.of_nat q + 14) / 64) in *. set (p := (Z.of_nat q + 14) mod 64) in *.
    assert (Hk : 1 <= k <= 7) by (unfold k; dlia). assert (Hp : 0 <= p < 64) by (unfold p; dlia).
    assert (Hkp : Z.of_nat q = 64 * k + p - 14) by (unfold k, p; dlia). clearbody k p.
    rewrite popcounts_block by lia. rewrite (rd_ok d) by lia. f_equal. rewrite <- Hgoal.
    rewrite popcount_shr by apply u_words0. rewrite Hfirst by lia.
    assert (Hlast : popcount (shl64 junk (wd d (8 * Z.of_nat blk + k)) (64 - p)) * Z.b2z (negb (p =? 0)) =
                    cnt (fb d (Z.of_nat blk)) (64 * k) (Z.to_nat p)).
    { destruct (Z.eqb_spec p 0) as [Ep|Hp0]; cbn [negb Z.b2z]; [rewrite Ep, Z.mul_0_r; reflexivity|].
      rewrite popcount_shl by lia. rewrite Z.mul_1_r, fb_word by lia. f_equal. lia. }
    rewrite Hlast.
    replace q with (50 + (64 * Z.to_nat (k - 1) + Z.to_nat p))%nat by lia.
    rewrite !cnt_split. change (14 + Z.of_nat 50) with (64 * 1).
    replace (64 * 1 + Z.of_nat (64 * Z.to_nat (k - 1))) with (64 * k) by lia. lia.
Qed.

(** Changing one bit. *)
Lemma pos_inj : forall p q, 0 <= p -> 0 <= q -> rb_word p = rb_word q -> rb_bit p = rb_bit q -> p = q.
Proof.
  unfold rb_word, rb_bit.
  change kBlockDataWidth with 498. change kNumWordsPerBlock with 8. change kBlockHeaderWidth with 14. change kWordWidth with 64.
  intros p q Hp Hq E1 E2.
  pose proof (Z.div_mod p 498 ltac:(lia)). pose proof (Z.div_mod q 498 ltac:(lia)).
  pose proof (Z.mod_pos_bound p 498 ltac:(lia)). pose proof (Z.mod_pos_bound q 498 ltac:(lia)).
  set (a := p / 498) in *. set (b := q / 498) in *. set (c := p mod 498) in *. set (e := q mod 498) in *. clearbody a b c e.
  assert ((c + 14) = (e + 14) /\ a = b); [dlia|lia].
Qed.
Lemma pos_range : forall v p, wfv v -> 0 <= p -> p / 498 < rb_blocks v ->
  0 <= rb_word p < Z.of_nat (length (rb_data v)) /\ 0 <= rb_bit p < 64.
Proof.
  intros v p HV Hp Hb. destruct HV. rewrite w_data0. unfold rb_word, rb_bit.
  change kBlockDataWidth with 498. change kNumWordsPerBlock with 8. change kBlockHeaderWidth with 14. change kWordWidth with 64.
  pose proof (Z.mod_pos_bound p 498 ltac:(lia)). set (c := p mod 498) in *. set (a := p / 498) in *.
  assert (0 <= a) by (unfold a; dlia). clearbody a c. dlia.
Qed.
Lemma upd_word_spec : forall v p f (x : bool), wfv v -> 0 <= p -> p / 498 < rb_blocks v ->
  (forall y, word y -> word (f y) /\ forall j, 0 <= j -> Z.testbit (f y) j = if j =? rb_bit p then x else Z.testbit y j) ->
  exists v', upd_word v p f = Some v' /\ wfv v' /\ rb_len v' = rb_len v /\ rb_blocks v' = rb_blocks v /\
    forall q, 0 <= q -> g (rb_data v') q = if q =? p then x else g (rb_data v) q.
Proof.
  intros v p f x HV Hp Hb Hf. destruct (pos_range v p HV Hp Hb) as [Hr Hbit]. unfold upd_word.
  rewrite rd_ok, wr_ok by auto. cbn [with_data]. eexists. split; [reflexivity|]. destruct HV.
  set (d' := upd (Z.to_nat (rb_word p)) (f (wd (rb_data v) (rb_word p))) (rb_data v)).
  split; [|split; [reflexivity|split; [reflexivity|]]].
  - split; cbn; auto.
    + unfold d'. rewrite upd_length. auto.
    + intros i. unfold d'. rewrite upd_nth. destruct (_ && _)%bool; auto. apply Hf. apply w_words0.
  - intros q Hq. cbn [rb_data]. unfold g.
    assert (Hqw : 0 <= rb_word q /\ 0 <= rb_bit q).
    { unfold rb_word, rb_bit. change kBlockDataWidth with 498. change kNumWordsPerBlock with 8. change kBlockHeaderWidth with 14. change kWordWidth with 64. dlia. }
    destruct (Z.eqb_spec q p) as [->|Hne].
    + unfold d'. rewrite upd_nth_same by lia. destruct (Hf _ (w_words0 (Z.to_nat (rb_word p)))) as [_ H]. rewrite H by lia.
      rewrite Z.eqb_refl. reflexivity.
    + unfold d'. destruct (Z.eq_dec (rb_word q) (rb_word p)) as [E|E].
      * rewrite E, upd_nth_same by lia. destruct (Hf _ (w_words0 (Z.to_nat (rb_word p)))) as [_ H]. rewrite H by lia.
        destruct (Z.eqb_spec (rb_bit q) (rb_bit p)) as [E2|]; auto. exfalso. apply Hne. apply pos_inj; auto.
      * rewrite upd_nth_other by lia. reflexivity.
Qed.

Lemma bit1 : forall b j, 0 <= b -> 0 <= j -> Z.testbit (Z.shiftl 1 b) j = (j =? b).
Proof.
  intros b j Hb Hj. destruct (Z_lt_le_dec j b) as [L|L].
  - rewrite Z.shiftl_spec_low by lia. destruct (Z.eqb_spec j b); auto; lia.
  - rewrite Z.shiftl_spec by lia. destruct (Z.eqb_spec j b) as [->|].
    + rewrite Z.sub_diag. reflexivity.
    + change 1 with (Z.ones 1). rewrite Z.ones_spec_high by lia. reflexivity.
Qed.
Lemma not64_bit : forall x j, 0 <= j < 64 -> Z.testbit (not64 x) j = negb (Z.testbit x j).
Proof. intros. unfold not64, w64. rewrite Z.mod_pow2_bits_low by lia. apply Z.lnot_spec. lia. Qed.

Section Bit.
Variable b : Z.
Hypothesis Hb : 0 <= b < 64.
Lemma set_word : forall y, word y ->
  word (Z.lor y (Z.shiftl 1 b)) /\ forall j, 0 <= j -> Z.testbit (Z.lor y (Z.shiftl 1 b)) j = if j =? b then true else Z.testbit y j.
Proof.
  intros y Hy.
  assert (H : forall j, 0 <= j -> Z.testbit (Z.lor y (Z.shiftl 1 b)) j = if j =? b then true else Z.testbit y j).
  { intros j Hj. rewrite Z.lor_spec, bit1 by lia. destruct (Z.eqb_spec j b).
    - apply Bool.orb_true_r.
    - apply Bool.orb_false_r. }
  split; auto. apply bits_word.
  - apply Z.lor_nonneg. split; [apply Hy|]. apply Z.shiftl_nonneg. lia.
  - intros j Hj. rewrite H by lia. destruct (Z.eqb_spec j b); [lia|]. apply word_bits; auto.
Qed.
Lemma unset_word : forall y, word y ->
  word (Z.land y (not64 (Z.shiftl 1 b))) /\ forall j, 0 <= j -> Z.testbit (Z.land y (not64 (Z.shiftl 1 b))) j = if j =? b then false else Z.testbit y j.
Proof.
  intros y Hy.
  assert (H : forall j, 0 <= j -> Z.testbit (Z.land y (not64 (Z.shiftl 1 b))) j = if j =? b then false else Z.testbit y j).
  { intros j Hj. rewrite Z.land_spec. destruct (Z_lt_le_dec j 64).
    - rewrite not64_bit, bit1 by lia. destruct (Z.eqb_spec j b); cbn [negb].
      + apply Bool.andb_false_r.
      + apply Bool.andb_true_r.
    - rewrite word_bits by auto. destruct (Z.eqb_spec j b); auto. }
  split; auto. apply bits_word.
  - apply Z.land_nonneg. left. apply Hy.
  - intros j Hj. rewrite H by lia. destruct (Z.eqb_spec j b); auto. apply word_bits; auto.
Qed.
Lemma setv_word : forall (x : bool) y, word y ->
  let z := Z.lor (Z.land y (not64 (Z.shiftl 1 b))) (Z.land (w64 (- Z.b2z x)) (Z.shiftl 1 b)) in
  word z /\ forall j, 0 <= j -> Z.testbit z j = if j =? b then x else Z.testbit y j.
Proof.
  intros x y Hy z. destruct (unset_word y Hy) as [U1 U2]. destruct x.
  - assert (E : Z.land (w64 (- Z.b2z true)) (Z.shiftl 1 b) = Z.shiftl 1 b).
    { change (w64 (- Z.b2z true)) with (Z.ones 64). apply Z.bits_inj'. intros j Hj. rewrite Z.land_spec, bit1 by lia.
      destruct (Z.eqb_spec j b); [|apply Bool.andb_false_r]. rewrite Z.ones_spec_low by lia. reflexivity. }
    unfold z. rewrite E. destruct (set_word _ U1) as [S1 S2]. split; auto.
    intros j Hj. rewrite S2, U2 by lia. destruct (j =? b); auto.
  - assert (E : Z.land (w64 (- Z.b2z false)) (Z.shiftl 1 b) = 0) by reflexivity.
    unfold z. rewrite E, Z.lor_0_r. auto.
Qed.
End Bit.

Lemma is_set_spec : forall v p, wfv v -> 0 <= p -> p / 498 < rb_blocks v -> rb_is_set p v = Some (g (rb_data v) p).
Proof.
  intros v p HV Hp Hb. destruct (pos_range v p HV Hp Hb) as [Hr Hbit]. unfold rb_is_set. rewrite rd_ok by auto. f_equal.
  unfold g. change 1 with (Z.ones 1) at 1. rewrite Z.land_ones by lia. change (2 ^ 1) with 2.
  rewrite Zmod_odd, <- Z.bit0_odd, Z.shiftr_spec by lia. rewrite Z.add_0_l.
  destruct (Z.testbit _ _); reflexivity.
Qed.

Definition rel (n : nat) (v : rbv) (f : nat -> bool) : Prop :=
  wfv v /\ rb_len v = Z.of_nat n /\ forall q, (q < n)%nat -> g (rb_data v) (Z.of_nat q) = f q.

Lemma blk_lt : forall v n p, wfv v -> rb_len v = Z.of_nat n -> (p < n)%nat -> Z.of_nat p / 498 < rb_blocks v.
Proof. intros v n p HV El Hp. destruct HV. rewrite w_nb0, El. unfold rdiv_ceil. dlia. Qed.

Lemma update_spec : forall n v f, rel n v f -> exists v', rb_update v = Some v' /\ rel n v' f /\
  forall junk pos, Z.of_nat pos / 498 < rb_blocks v -> rb_rank junk (Z.of_nat pos) v' = Some (cnt (g (rb_data v)) 0 pos).
Proof.
  intros n v f (HV & El & Hf). assert (HV' := HV). destruct HV'.
  assert (0 <= rb_blocks v) by (rewrite w_nb0; unfold rdiv_ceil; dlia).
  destruct (update_loop_spec v (Z.to_nat (rb_blocks v)) HV) as (d & s & cr & cbr & ns & E & HU); [lia|].
  unfold rb_update. rewrite E. eexists. split; [reflexivity|]. split.
  - assert (HU' := HU). destruct HU'. split; [|split; auto].
    + split; cbn [rb_len rb_blocks rb_data rb_super]; auto; [rewrite u_len0; auto|rewrite u_slen0; auto].
    + intros q Hq. cbn [rb_data]. rewrite <- Hf by auto. rewrite !g_fb by lia. apply u_bits0; dlia.
  - intros junk pos Hpos. eapply rank_spec; eauto. lia.
Qed.

Lemma step_spec : forall n v f o, rel n v f -> bvalid n o -> exists v', rb_step v o = Some v' /\ rel n v' (bstep f o).
Proof.
  intros n v f o HR Ho. assert (HR' := HR). destruct HR' as (HV & El & Hf).
  assert (Hgen : forall p x ff, (p < n)%nat ->
    (forall y, word y -> word (ff y) /\ forall j, 0 <= j -> Z.testbit (ff y) j = if j =? rb_bit (Z.of_nat p) then x else Z.testbit y j) ->
    exists v', upd_word v (Z.of_nat p) ff = Some v' /\ rel n v' (fun q => if (q =? p)%nat then x else f q)).
  { intros p x ff Hp Hff. destruct (upd_word_spec v (Z.of_nat p) ff x HV) as (v' & E & HV' & E1 & E2 & HG); auto; [lia|eapply blk_lt; eauto|].
    exists v'. split; auto. split; auto. split; [congruence|]. intros q Hq. rewrite HG by lia.
    destruct (Z.eqb_spec (Z.of_nat q) (Z.of_nat p)), (Nat.eqb_spec q p); auto; lia. }
  assert (Hbit : forall p, (p < n)%nat -> 0 <= rb_bit (Z.of_nat p) < 64).
  { intros p Hp. apply (pos_range v); auto; [lia|]. eapply blk_lt; eauto. }
  destruct o as [p|p|p x|]; cbn [rb_step bstep bvalid] in *.
  - apply Hgen; auto. intros y Hy. apply set_word; auto.
  - apply Hgen; auto. intros y Hy. apply unset_word; auto.
  - apply Hgen; auto. intros y Hy. apply setv_word; auto.
  - destruct (update_spec n v f HR) as (v' & E & HR' & _). eauto.
Qed.
Lemma run_spec : forall n ops v f, rel n v f -> Forall (bvalid n) ops ->
  exists v', rb_run ops v = Some v' /\ rel n v' (fold_left bstep ops f).
Proof.
  intros n. induction ops as [|o ops IH]; intros v f HR HO; cbn [rb_run fold_left].
  - eauto.
  - inversion HO; subst. destruct (step_spec n v f o HR) as (v1 & E & HR1); auto. rewrite E. apply IH; auto.
Qed.

Lemma wf_init : forall n d s, Z.of_nat (length d) = 8 * rdiv_ceil (Z.of_nat n) 498 ->
  Z.of_nat (length s) = rdiv_ceil (Z.of_nat n) 15936 -> words d -> wfv (rb_init (Z.of_nat n) d s).
Proof.
  intros n d s Hd Hs HW. unfold rb_init. change kBlockDataWidth with 498. change kNumWordsPerBlock with 8.
  set (k := Z.to_nat ((rdiv_ceil (Z.of_nat n) 498 - 1) * 8)).
  assert (Hk : (k <= length d)%nat) by (unfold k; lia).
  split; cbn [rb_len rb_blocks rb_data rb_super]; auto; [lia| |].
  - rewrite app_length, firstn_length, repeat_length. lia.
  - intros i. destruct (Nat.lt_ge_cases i k) as [L|L].
    + rewrite app_nth1 by (rewrite firstn_length; lia).
      rewrite <- (firstn_skipn k d) in HW. specialize (HW i). rewrite app_nth1 in HW by (rewrite firstn_length; lia). exact HW.
    + rewrite app_nth2 by (rewrite firstn_length; lia).
      replace (nth _ _ _) with 0; [split; [lia|reflexivity]|]. symmetry. set (m := (i - _)%nat).
      destruct (Nat.lt_ge_cases m (length d - k)) as [Lm|Lm].
      * apply (repeat_spec (length d - k)). apply nth_In. rewrite repeat_length. auto.
      * apply nth_overflow. rewrite repeat_length. auto.
Qed.
Lemma wf_init_all : forall n x s, Z.of_nat (length s) = rdiv_ceil (Z.of_nat n) 15936 ->
  wfv (rb_init_all (Z.of_nat n) x s).
Proof.
  intros n x s Hs. unfold rb_init_all. change kBlockDataWidth with 498. change kNumWordsPerBlock with 8.
  assert (0 <= rdiv_ceil (Z.of_nat n) 498) by (unfold rdiv_ceil; dlia).
  split; cbn [rb_len rb_blocks rb_data rb_super]; auto; [lia| |].
  - rewrite repeat_length. lia.
  - intros i. set (m := Z.to_nat _). destruct (Nat.lt_ge_cases i m) as [L|L].
    + replace (nth i _ 0) with (if x then 2 ^ 64 - 1 else 0).
      * destruct x; split; try lia; reflexivity.
      * symmetry. apply (repeat_spec m). apply nth_In. rewrite repeat_length. auto.
    + rewrite nth_overflow by (rewrite repeat_length; auto). split; [lia|reflexivity].
Qed.

Lemma rel_is_set : forall n v f p, rel n v f -> (p < n)%nat -> rb_is_set (Z.of_nat p) v = Some (f p).
Proof.
  intros n v f p (HV & El & Hf) Hp. rewrite is_set_spec; auto; [|lia|eapply blk_lt; eauto]. f_equal. auto.
Qed.
Lemma cnt_filter : forall (f : nat -> bool) d pos, (forall q, (q < pos)%nat -> g d (Z.of_nat q) = f q) ->
  cnt (g d) 0 pos = Z.of_nat (length (filter f (seq 0 pos))).
Proof.
  intros f d pos. induction pos as [|pos IH]; intros H; [reflexivity|].
  unfold cnt in *. rewrite sumn_S, IH by (intros; apply H; lia).
  rewrite seq_S, filter_app, app_length. cbn [Nat.add filter]. rewrite Z.add_0_l, H by lia.
  destruct (f pos); cbn [length Z.b2z]; lia.
Qed.

Theorem rank_correct : forall n v0 f0 ops, wfv v0 -> rb_len v0 = Z.of_nat n ->
  (forall p, (p < n)%nat -> rb_is_set (Z.of_nat p) v0 = Some (f0 p)) -> Forall (bvalid n) ops ->
  exists v, rb_run ops v0 = Some v /\
    (forall p, (p < n)%nat -> rb_is_set (Z.of_nat p) v = Some (fold_left bstep ops f0 p)) /\
    exists v', rb_run (ops ++ [RUpdate]) v0 = Some v' /\
      (forall p, (p < n)%nat -> rb_is_set (Z.of_nat p) v' = Some (fold_left bstep ops f0 p)) /\
      forall junk pos, (pos < n)%nat \/ (pos = n /\ (n mod 498 <> 0)%nat) ->
        rb_rank junk (Z.of_nat pos) v' = Some (Z.of_nat (length (filter (fold_left bstep ops f0) (seq 0 pos)))).
Proof.
  intros n v0 f0 ops HV El Hf HO.
  assert (HR0 : rel n v0 f0).
  { split; auto. split; auto. intros q Hq. pose proof (is_set_spec v0 (Z.of_nat q) HV) as E.
    rewrite Hf in E by auto. assert (Some (f0 q) = Some (g (rb_data v0) (Z.of_nat q))); [|congruence].
    apply E; [lia|eapply blk_lt; eauto]. }
  destruct (run_spec n ops v0 f0 HR0 HO) as (v & E & HR). exists v. split; auto. split.
  { intros p Hp. eapply rel_is_set; eauto. }
  destruct (update_spec n v _ HR) as (v' & E' & HR' & Hrank).
  exists v'. split; [|split].
  - assert (G : forall ops w w' u, rb_run ops w = Some w' -> rb_update w' = Some u -> rb_run (ops ++ [RUpdate]) w = Some u).
    { clear. induction ops as [|o ops IH]; intros w w' u E1 E2; cbn [rb_run app] in *.
      - inversion E1; subst. cbn [rb_step]. rewrite E2. reflexivity.
      - destruct (rb_step w o); [|discriminate]. eapply IH; eauto. }
    eapply G; eauto.
  - intros p Hp. eapply rel_is_set; eauto.
  - intros junk pos Hpos. destruct HR as (HV1 & El1 & Hf1). rewrite Hrank.
    + f_equal. apply cnt_filter. intros q Hq. apply Hf1. lia.
    + destruct HV1. rewrite w_nb0, El1. unfold rdiv_ceil. destruct Hpos as [|[-> Hn]]; [dlia|].
      assert (Z.of_nat n mod 498 <> 0) by (pose proof (Nat2Z.inj_mod n 498) as Em; change (Z.of_nat 498) with 498 in Em; lia). dlia.
Qed.

Lemma rank_of_length_oob : forall junk v, rb_blocks v = 1 -> length (rb_data v) = 8%nat -> rb_rank junk 498 v = None.
Proof.
  intros junk v Hb Hd. unfold rb_rank. change (498 / kBlockDataWidth * kNumWordsPerBlock) with 8.
  replace (rd (rb_data v) 8) with (@None Z).
  - destruct (rd (rb_super v) _); reflexivity.
  - symmetry. unfold rd. change (0 <=? 8) with true. cbn iota. apply nth_error_None. change (Z.to_nat 8) with 8%nat. lia.
Qed.

Lemma built_wf : forall n v, built n v -> wfv v /\ rb_len v = Z.of_nat n.
Proof.
  intros n v [d s H1 H2 H3|x s H]; split; try reflexivity.
  - apply wf_init; auto.
  - apply wf_init_all; auto.
Qed.
Lemma init_all_set : forall n x s p, (p < n)%nat -> Z.of_nat (length s) = rdiv_ceil (Z.of_nat n) 15936 ->
  rb_is_set (Z.of_nat p) (rb_init_all (Z.of_nat n) x s) = Some x.
Proof.
  intros n x s p Hp Hs. pose proof (wf_init_all n x s Hs) as HV.
  assert (Hb := blk_lt _ n p HV eq_refl Hp).
  destruct (pos_range _ (Z.of_nat p) HV ltac:(lia) Hb) as [Hr Hbit].
  rewrite is_set_spec; auto; [|lia]. f_equal. unfold g.
  set (v := rb_init_all (Z.of_nat n) x s) in *.
  replace (wd (rb_data v) (rb_word (Z.of_nat p))) with (if x then Z.ones 64 else 0).
  - destruct x; [apply Z.ones_spec_low; lia|apply Z.bits_0].
  - symmetry. unfold v, rb_init_all in *. cbn [rb_data] in *. set (m := Z.to_nat _) in *. rewrite repeat_length in Hr.
    apply (repeat_spec m). apply nth_In. rewrite repeat_length. lia.
Qed.
Theorem rank_built : forall n v0 ops, built n v0 -> Forall (bvalid n) ops ->
  exists f0, (forall p, (p < n)%nat -> rb_is_set (Z.of_nat p) v0 = Some (f0 p)) /\
  exists v, rb_run ops v0 = Some v /\
    (forall p, (p < n)%nat -> rb_is_set (Z.of_nat p) v = Some (fold_left bstep ops f0 p)) /\
    exists v', rb_run (ops ++ [RUpdate]) v0 = Some v' /\
      (forall p, (p < n)%nat -> rb_is_set (Z.of_nat p) v' = Some (fold_left bstep ops f0 p)) /\
      forall junk pos, (pos < n)%nat \/ (pos = n /\ (n mod 498 <> 0)%nat) ->
        rb_rank junk (Z.of_nat pos) v' = Some (Z.of_nat (length (filter (fold_left bstep ops f0) (seq 0 pos)))).
Proof.
  intros n v0 ops HB HO. destruct (built_wf n v0 HB) as [HV El].
  exists (fun p => g (rb_data v0) (Z.of_nat p)).
  assert (Hf : forall p, (p < n)%nat -> rb_is_set (Z.of_nat p) v0 = Some (g (rb_data v0) (Z.of_nat p))).
  { intros p Hp. apply is_set_spec; auto; [lia|]. eapply blk_lt; eauto. }
  split; auto. apply rank_correct; auto.
Qed.
