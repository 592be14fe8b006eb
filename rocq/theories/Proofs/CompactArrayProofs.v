From Verif Require Import Lib.Prelude Model.CompactArrayModel.
Local Open Scope Z_scope.

Section P.
Variable isz : nat.

Lemma pow256_S : forall c, 256 ^ Z.of_nat (S c) = 256 * 256 ^ Z.of_nat c.
Proof. intros. rewrite Nat2Z.inj_succ, Z.pow_succ_r by lia. reflexivity. Qed.

Lemma load_upd_other : forall cnt a i x b, (i < a \/ a + cnt <= i)%nat -> ca_load cnt a (upd i x b) = ca_load cnt a b.
Proof.
  induction cnt as [|c IH]; intros a i x b H; cbn [ca_load]; auto.
  rewrite upd_nth_error. replace (_ && _)%bool with false.
  2:{ symmetry. apply Bool.andb_false_iff. left. apply Nat.eqb_neq. lia. }
  rewrite IH by lia. reflexivity.
Qed.

Lemma store_spec : forall cnt a v b, (a + cnt <= length b)%nat ->
  exists b', ca_store cnt a v b = Some b' /\ length b' = length b /\
    ca_load cnt a b' = Some (v mod 256 ^ Z.of_nat cnt) /\
    (forall c a', (a' + c <= a \/ a + cnt <= a')%nat -> ca_load c a' b' = ca_load c a' b) /\
    (forall i, (i < a \/ a + cnt <= i)%nat -> nth_error b' i = nth_error b i).
Proof.
  induction cnt as [|c IH]; intros a v b H; cbn [ca_store].
  - exists b. cbn [ca_load]. rewrite Z.mod_1_r. auto.
  - destruct (Nat.ltb_spec a (length b)); [|lia].
    destruct (IH (S a) (Z.shiftr v 8) (upd a (Z.land v 255) b)) as (b' & E & HL & Hld & Hot & Hnth).
    { rewrite upd_length. lia. }
    exists b'. rewrite upd_length in HL. split; auto. split; auto. split; [|split].
    + cbn [ca_load]. rewrite Hnth by lia. rewrite upd_nth_error, Nat.eqb_refl.
      destruct (Nat.ltb_spec a (length b)); [|lia]. cbn [andb]. rewrite Hld. f_equal.
      change 255 with (Z.ones 8). rewrite Z.land_ones, Z.shiftr_div_pow2 by lia. change (2 ^ 8) with 256.
      rewrite pow256_S. pose proof (Z.pow_pos_nonneg 256 (Z.of_nat c)).
      rewrite Z.rem_mul_r by lia. lia.
    + intros c' a' Ha. rewrite Hot by lia. apply load_upd_other. lia.
    + intros i Hi. rewrite Hnth by lia. rewrite upd_nth_error.
      replace (_ && _)%bool with false; auto. symmetry. apply Bool.andb_false_iff. left. apply Nat.eqb_neq. lia.
Qed.

Definition wf (bw n : nat) (a : carr) : Prop :=
  ca_bw a = bw /\ ca_num a = n /\ ca_size a = (n * bw + isz - bw)%nat /\ length (ca_bytes a) = (n * bw + isz - bw)%nat /\
  ca_usize a = ca_size a /\ ca_unum a = n.

Lemma write_spec : forall bw n a i v, (0 < bw <= isz)%nat -> wf bw n a -> (i < n)%nat ->
  exists a', ca_write i v a = Some a' /\ wf bw n a' /\
    forall j, (j < n)%nat -> ca_read j a' = if (j =? i)%nat then Some (v mod 256 ^ Z.of_nat bw) else ca_read j a.
Proof.
  intros bw n a i v Hbw (E1 & E2 & E3 & E4 & E5 & E6) Hi. unfold ca_write. rewrite E1.
  assert (Hin : (i * bw + bw <= n * bw)%nat).
  { replace (i * bw + bw)%nat with (S i * bw)%nat by lia. apply Nat.mul_le_mono_r. lia. }
  destruct (store_spec bw (i * bw) v (ca_bytes a)) as (b' & E & HL & Hld & Hot & _); [lia|].
  rewrite E. eexists. split; [reflexivity|]. split.
  - unfold wf. cbn. rewrite HL. auto 10.
  - intros j Hj. unfold ca_read. cbn [ca_bw ca_bytes]. rewrite ?E1. destruct (Nat.eqb_spec j i) as [->|Hne]; auto.
    apply Hot. assert (j < i \/ i < j)%nat as [L|L] by lia.
    + left. replace (j * bw + bw)%nat with (S j * bw)%nat by lia. apply Nat.mul_le_mono_r. lia.
    + right. replace (i * bw + bw)%nat with (S i * bw)%nat by lia. apply Nat.mul_le_mono_r. lia.
Qed.

(** The last value written to an index, 0 if none. *)
Definition last_written (ws : list (nat * Z)) (i : nat) : Z :=
  fold_left (fun acc p => if (i =? fst p)%nat then snd p else acc) ws 0.

Lemma writes_spec : forall bw n ws a, (0 < bw <= isz)%nat -> wf bw n a -> (forall i v, In (i, v) ws -> (i < n)%nat) ->
  exists a', ca_writes ws a = Some a' /\ wf bw n a' /\
    forall j, (j < n)%nat -> forall x, ca_read j a = Some (x mod 256 ^ Z.of_nat bw) ->
      ca_read j a' = Some (fold_left (fun acc p => if (j =? fst p)%nat then snd p else acc) ws x mod 256 ^ Z.of_nat bw).
Proof.
  intros bw n. induction ws as [|[i v] ws IH]; intros a Hbw HW Hin; cbn [ca_writes].
  - exists a. split; auto.
  - destruct (write_spec bw n a i v Hbw HW (Hin i v (or_introl eq_refl))) as (a1 & E & HW1 & HR).
    rewrite E. destruct (IH a1 Hbw HW1) as (a2 & E2 & HW2 & HR2); [intros; eapply Hin; right; eauto|].
    exists a2. split; auto. split; auto. intros j Hj x Hx. cbn [fold_left fst snd]. apply HR2; auto.
    rewrite HR by auto. destruct (Nat.eqb_spec j i); auto.
Qed.

Lemma load_zero : forall cnt a n, (a + cnt <= n)%nat -> ca_load cnt a (repeat 0 n) = Some 0.
Proof.
  induction cnt as [|c IH]; intros a n H; cbn [ca_load]; auto.
  rewrite IH by lia. rewrite (nth_error_nth' _ 0) by (rewrite repeat_length; lia).
  replace (nth a (repeat 0 n) 0) with 0; auto. symmetry. apply (repeat_spec n). apply nth_In. rewrite repeat_length. lia.
Qed.

Lemma iter_spec : forall m fuel at_ bw b (f : nat -> Z), (0 < bw)%nat -> (m <= fuel)%nat ->
  (forall j, (j < m)%nat -> ca_load bw (at_ + j * bw) b = Some (f j)) ->
  ca_iter fuel at_ (at_ + m * bw) bw b = Some (map f (seq 0 m)).
Proof.
  induction m as [|m IH]; intros fuel at_ bw b f Hbw Hf Hl.
  - replace (at_ + 0 * bw)%nat with at_ by lia. destruct fuel; cbn [ca_iter]; rewrite Nat.eqb_refl; auto.
  - destruct fuel as [|fuel]; [lia|]. cbn [ca_iter].
    destruct (Nat.eqb_spec at_ (at_ + S m * bw)); [cbn in e; lia|].
    pose proof (Hl 0%nat ltac:(lia)) as H0. replace (at_ + 0 * bw)%nat with at_ in H0 by lia. rewrite H0.
    replace (at_ + S m * bw)%nat with ((at_ + bw) + m * bw)%nat by (cbn; lia).
    rewrite (IH fuel (at_ + bw)%nat bw b (fun j => f (S j))); [|lia|lia|].
    + cbn [seq map]. rewrite <- seq_shift, map_map. reflexivity.
    + intros j Hj. rewrite <- (Hl (S j)) by lia. f_equal. cbn. lia.
Qed.

Lemma values_spec : forall bw n a f, (0 < bw <= isz)%nat -> ca_bw a = bw -> ca_size a = (n * bw + isz - bw)%nat ->
  (n * bw <= length (ca_bytes a))%nat -> (forall j, (j < n)%nat -> ca_read j a = Some (f j)) ->
  ca_values isz a = Some (map f (seq 0 n)).
Proof.
  intros bw n a f Hbw E1 E3 E4 HR. unfold ca_values. rewrite E1, E3.
  replace (n * bw + isz - bw - (isz - bw))%nat with (0 + n * bw)%nat by lia.
  apply iter_spec; try lia.
  - assert (n * 1 <= n * bw)%nat by (apply Nat.mul_le_mono_l; lia). lia.
  - intros j Hj. rewrite <- HR by auto. unfold ca_read. rewrite E1. reflexivity.
Qed.

Theorem compact_array_spec : forall bw n ws, (0 < bw <= isz)%nat -> (forall i v, In (i, v) ws -> (i < n)%nat) ->
  exists a, ca_writes ws (ca_resize isz bw n) = Some a /\ ca_num a = n /\
    (forall i, (i < n)%nat -> ca_read i a = Some (last_written ws i mod 256 ^ Z.of_nat bw)) /\
    ca_values isz a = Some (map (fun i => last_written ws i mod 256 ^ Z.of_nat bw) (seq 0 n)) /\
    (forall m, (m <= n)%nat ->
       let r := ca_restrict isz m a in
       ca_num r = m /\ (forall i, (i < m)%nat -> ca_read i r = ca_read i a) /\
       ca_values isz r = Some (map (fun i => last_written ws i mod 256 ^ Z.of_nat bw) (seq 0 m)) /\
       ca_unrestrict r = a) /\
    ((n > 0)%nat -> ca_of_bytes isz bw (ca_bytes a) = a).
Proof.
  intros bw n ws Hbw Hin.
  assert (HW0 : wf bw n (ca_resize isz bw n)).
  { unfold wf, ca_resize. cbn. rewrite repeat_length. auto 10. }
  destruct (writes_spec bw n ws _ Hbw HW0 Hin) as (a & E & HW & HR).
  assert (HRD : forall i, (i < n)%nat -> ca_read i a = Some (last_written ws i mod 256 ^ Z.of_nat bw)).
  { intros i Hi. apply HR; auto. rewrite Z.mod_0_l.
    - unfold ca_read, ca_resize. cbn [ca_bw ca_bytes]. apply load_zero.
      assert (S i * bw <= n * bw)%nat by (apply Nat.mul_le_mono_r; lia). cbn in *. lia.
    - pose proof (Z.pow_pos_nonneg 256 (Z.of_nat bw)). lia. }
  destruct HW as (E1 & E2 & E3 & E4 & E5 & E6).
  exists a. split; auto. split; auto. split; auto. split; [|split].
  - apply (values_spec bw); auto. lia.
  - intros m Hm r. split; auto. assert (m * bw <= n * bw)%nat by (apply Nat.mul_le_mono_r; lia).
    split; [reflexivity|]. split.
    + apply (values_spec bw); auto; cbn; try lia.
      intros j Hj. rewrite <- HRD by lia. reflexivity.
    + unfold r, ca_unrestrict, ca_restrict. cbn. destruct a; cbn in *. congruence.
  - intros Hn. unfold ca_of_bytes. rewrite E4.
    replace (n * bw + isz - bw - (isz - bw))%nat with (n * bw)%nat by lia.
    rewrite Nat.div_mul by lia. destruct a; cbn in *. congruence.
Qed.
End P.
