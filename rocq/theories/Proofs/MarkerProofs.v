(* Proofs about the marker (Model/MarkerModel.v). *)
From Verif Require Import Lib.Prelude Spec.MarkSet Model.MarkerModel Proofs.VarintProofs.
Local Open Scope Z_scope.

Lemma land_bit d m : 0 <= m -> negb (Z.land d (2 ^ m) =? 0) = Z.testbit d m.
Proof.
  intros Hm. destruct (Z.testbit d m) eqn:E.
  - apply Bool.negb_true_iff, Z.eqb_neq. intros H.
    assert (Z.testbit (Z.land d (2 ^ m)) m = false) by (rewrite H; apply Z.bits_0).
    rewrite Z.land_spec, E, Z.pow2_bits_true in H0 by exact Hm. discriminate.
  - apply Bool.negb_false_iff, Z.eqb_eq. apply Z.bits_inj'. intros i Hi. rewrite Z.land_spec, Z.bits_0.
    rewrite Z.pow2_bits_eqb by exact Hm. destruct (Z.eqb_spec m i) as [<-|]; [rewrite E; reflexivity|apply Bool.andb_false_r].
Qed.

Lemma land_mask k d : 0 <= k <= 32 -> 0 <= d < 2 ^ 32 -> Z.land d (mr_mask k) = d / 2 ^ k * 2 ^ k.
Proof.
  intros Hk Hd. unfold mr_mask.
  assert (E : 2 ^ 32 - 2 ^ k = Z.shiftl (Z.ones (32 - k)) k).
  { rewrite Z.ones_equiv, Z.shiftl_mul_pow2 by lia. unfold Z.pred. rewrite Z.mul_add_distr_r, <- Z.pow_add_r by lia.
    replace (32 - k + k) with 32 by lia. lia. }
  rewrite E, <- Z.shiftl_mul_pow2, <- Z.shiftr_div_pow2 by lia.
  apply Z.bits_inj'. intros i Hi. rewrite Z.land_spec, !Z.shiftl_spec by exact Hi.
  destruct (Z.lt_ge_cases i k) as [Hik|Hik].
  - rewrite !(Z.testbit_neg_r _ (i - k)) by lia. apply Bool.andb_false_r.
  - rewrite Z.shiftr_spec by lia. replace (i - k + k) with i by lia.
    destruct (Z.lt_ge_cases i 32) as [H32|H32].
    + rewrite Z.ones_spec_low by lia. apply Bool.andb_true_r.
    + rewrite Z.ones_spec_high by lia. rewrite Bool.andb_false_r. symmetry.
      destruct (Z.eq_dec d 0) as [->|Hd0]; [apply Z.bits_0|]. apply Z.bits_above_log2; [lia|].
      apply Z.log2_lt_pow2; [lia|]. apply (Z.lt_le_trans _ (2 ^ 32)); [lia|]. apply Z.pow_le_mono_r; lia.
Qed.

Lemma lor_low k t : 0 <= k -> Z.lor (t * 2 ^ k) (mr_low k) = t * 2 ^ k + (2 ^ k - 1).
Proof.
  intros Hk. rewrite Z.lor_comm. unfold mr_low. pose proof (pow2_pos k Hk).
  rewrite (lor_disjoint (2 ^ k - 1) t k Hk) by lia. lia.
Qed.

Lemma lor_bit_div k d m : 0 <= m < k -> Z.lor d (2 ^ m) / 2 ^ k = d / 2 ^ k.
Proof.
  intros Hm. rewrite <- !Z.shiftr_div_pow2 by lia. rewrite Z.shiftr_lor, (Z.shiftr_div_pow2 (2 ^ m)) by lia.
  rewrite (Z.div_small (2 ^ m)); [apply Z.lor_0_r|]. split; [apply Z.lt_le_incl, pow2_pos; lia|apply Z.pow_lt_mono_r; lia].
Qed.

Section K.
Context (w k : Z) (Hw : w = 32 \/ w = 64) (Hk : 1 <= k <= 31).

(** [limit]: for 64-bit values the stamps must stay below 2^32. *)
Record minv (limit : Z) (s : marker) (a : marks) (t : Z) : Prop := mkMinv {
  mi_id : mr_id s = t * 2 ^ k;
  mi_t : 0 <= t < 2 ^ (32 - k);
  mi_t32 : w = 32 -> t < 2 ^ (32 - k) - 1 \/ (k = 31 /\ t = 0);
  mi_t64 : w = 64 -> t <= limit;
  mi_size : length (mr_data s) = mk_size a;
  mi_first : length (mr_first s) = Z.to_nat k;
  mi_data : forall e, 0 <= nth e (mr_data s) 0 /\ nth e (mr_data s) 0 / 2 ^ k <= t;
  mi_marks : forall e m, Z.of_nat m < k ->
     mk_marked a e m = ((nth e (mr_data s) 0 / 2 ^ k =? t) && Z.testbit (nth e (mr_data s) 0) (Z.of_nat m))%bool }.

Lemma data_range d t : 0 <= d -> d / 2 ^ k <= t -> t < 2 ^ (32 - k) -> 0 <= d < 2 ^ 32.
Proof.
  intros Hd Hq Ht. split; [exact Hd|]. pose proof (pow2_pos k ltac:(lia)).
  assert (d < 2 ^ (32 - k) * 2 ^ k).
  { apply (Z.lt_le_trans _ ((d / 2 ^ k + 1) * 2 ^ k)).
    - pose proof (Z.mul_succ_div_gt d (2 ^ k) ltac:(lia)). unfold Z.succ in *. lia.
    - apply Z.mul_le_mono_nonneg_r; lia. }
  rewrite <- Z.pow_add_r in H0 by lia. replace (32 - k + k) with 32 in H0 by lia. exact H0.
Qed.

Lemma mask_eq limit s a t e : minv limit s a t ->
  (Z.land (nth e (mr_data s) 0) (mr_mask k) =? mr_id s) = (nth e (mr_data s) 0 / 2 ^ k =? t).
Proof.
  intros HI. destruct (mi_data _ _ _ _ HI e) as [H1 H2]. rewrite (mi_id _ _ _ _ HI).
  rewrite land_mask by (try lia; apply (data_range _ t); auto; apply (mi_t _ _ _ _ HI)).
  pose proof (pow2_pos k ltac:(lia)).
  destruct (Z.eqb_spec (nth e (mr_data s) 0 / 2 ^ k) t) as [->|Hne]; [apply Z.eqb_refl|].
  apply Z.eqb_neq. intros E. apply Z.mul_cancel_r in E; lia.
Qed.

Lemma get_ok limit s a t e m : minv limit s a t -> Z.of_nat m < k -> mr_get k s e m = mk_marked a e m.
Proof.
  intros HI Hm. unfold mr_get. cbv zeta. rewrite (mask_eq limit s a t e HI), land_bit by lia.
  symmetry. apply (mi_marks _ _ _ _ HI). exact Hm.
Qed.

Lemma set_ok limit s a t track e m : minv limit s a t -> (e < mk_size a)%nat -> Z.of_nat m < k ->
  minv limit (mr_set k track s e m) (marks_step a (MSet track e m)) t.
Proof.
  intros HI He Hm. pose proof HI as [I1 I2 I3 I3' I4 I4f I5 I6].
  set (d := nth e (mr_data s) 0).
  set (d' := if Z.land d (mr_mask k) =? mr_id s then Z.lor d (2 ^ Z.of_nat m) else Z.lor (mr_id s) (2 ^ Z.of_nat m)).
  assert (Hd' : 0 <= d' /\ d' / 2 ^ k = t /\ forall m', Z.of_nat m' < k ->
     Z.testbit d' (Z.of_nat m') = (Nat.eqb m' m || mk_marked a e m')%bool).
  { pose proof (mask_eq limit s a t e HI) as Em. fold d in Em. unfold d'. rewrite Em. destruct (I5 e) as [P1 P2]. fold d in P1, P2.
    pose proof (pow2_pos (Z.of_nat m) ltac:(lia)). pose proof (pow2_pos k ltac:(lia)).
    destruct (Z.eqb_spec (d / 2 ^ k) t) as [Et|Hne].
    - split; [apply Z.lor_nonneg; lia|]. split; [rewrite lor_bit_div by lia; exact Et|].
      intros m' Hm'. rewrite Z.lor_spec, Z.pow2_bits_eqb by lia. rewrite (I6 e m' Hm'). fold d. rewrite Et, Z.eqb_refl. cbn [andb].
      rewrite Bool.orb_comm. f_equal. destruct (Nat.eqb_spec m' m) as [->|]; [apply Z.eqb_refl|apply Z.eqb_neq; lia].
    - rewrite I1. split; [apply Z.lor_nonneg; split; [apply Z.mul_nonneg_nonneg|]; lia|].
      split; [rewrite lor_bit_div by lia; apply Z.div_mul; lia|].
      intros m' Hm'. rewrite Z.lor_spec, Z.pow2_bits_eqb by lia. rewrite (I6 e m' Hm'). fold d.
      rewrite (proj2 (Z.eqb_neq _ _) Hne). cbn [andb]. rewrite Bool.orb_false_r.
      rewrite <- Z.shiftl_mul_pow2 by lia. rewrite Z.shiftl_spec, Z.testbit_neg_r by lia. cbn [orb].
      destruct (Nat.eqb_spec m' m) as [->|]; [apply Z.eqb_refl|apply Z.eqb_neq; lia]. }
  destruct Hd' as (D1 & D2 & D3).
  assert (Hdata : mr_data (mr_set k track s e m) = upd e d' (mr_data s)) by (destruct track; reflexivity).
  assert (Hid : mr_id (mr_set k track s e m) = mr_id s) by (destruct track; reflexivity).
  constructor; rewrite ?Hdata, ?Hid; try assumption.
  - rewrite upd_length. exact I4.
  - destruct track; cbn [mr_set mr_first]; [unfold mr_set; cbn [mr_first]; rewrite upd_length|]; exact I4f.
  - intros e'. rewrite upd_nth. destruct (_ && _)%bool; [split; [exact D1|rewrite D2; lia]|apply I5].
  - intros e' m' Hm'. rewrite upd_nth. cbn [marks_step mk_marked].
    destruct (Nat.eqb_spec e e') as [<-|Hne].
    + rewrite Nat.eqb_refl, (proj2 (Nat.ltb_lt e (length (mr_data s)))) by lia. cbn [andb].
      rewrite D2, Z.eqb_refl, D3 by exact Hm'. reflexivity.
    + rewrite (proj2 (Nat.eqb_neq e' e)) by lia. cbn [andb orb]. apply I6. exact Hm'.
Qed.

Lemma reset_ok limit s a t : minv limit s a t -> (w = 64 -> limit < 2 ^ (32 - k) - 1) -> 0 <= limit ->
  exists t', minv (limit + 1) (mr_reset w k s) (marks_step a MReset) t'.
Proof.
  intros HI Hlim Hl0. pose proof HI as [I1 I2 I3 I3' I4 I4f I5 I6].
  pose proof (pow2_pos k ltac:(lia)) as Hp. pose proof (pow2_pos (32 - k) ltac:(lia)) as Hp'.
  assert (E32 : 2 ^ (32 - k) * 2 ^ k = 2 ^ 32) by (rewrite <- Z.pow_add_r by lia; f_equal; lia).
  assert (Hpp : 1 * 2 ^ k <= 2 ^ (32 - k) * 2 ^ k) by (apply Z.mul_le_mono_nonneg_r; lia).
  assert (Hzero : forall l : list Z, forall e, nth e (map (fun _ => 0) l) 0 = 0).
  { induction l as [|x l IH]; intros [|e]; cbn; auto. }
  assert (Hdone : minv (limit + 1) (mkMarker (map (fun _ => 0) (mr_data s)) 0 (map (fun _ => 0%nat) (mr_first s))) (marks_step a MReset) 0).
  { constructor; cbn [mr_id mr_data mr_first marks_step mk_size mk_marked]; try (rewrite map_length; assumption); try lia.
    - intros e. rewrite Hzero. rewrite Z.div_0_l by lia. lia.
    - intros e m Hm. rewrite Hzero, Z.bits_0. symmetry. apply Bool.andb_false_r. }
  unfold mr_reset. cbv zeta. rewrite I1, lor_low by lia.
  replace (t * 2 ^ k + (2 ^ k - 1) + 1) with ((t + 1) * 2 ^ k) by ring.
  assert (Hid32 : (t + 1) * 2 ^ k <= 2 ^ 32) by (rewrite <- E32; apply Z.mul_le_mono_nonneg_r; lia).
  assert (Hlt : forall t', t' = t + 1 -> t' < 2 ^ (32 - k) ->
    (w = 32 -> t' < 2 ^ (32 - k) - 1 \/ (k = 31 /\ t' = 0)) ->
    minv (limit + 1) (mkMarker (mr_data s) (t' * 2 ^ k) (map (fun _ => 0%nat) (mr_first s))) (marks_step a MReset) t').
  { intros t' Et Ht' H32. constructor; cbn [mr_id mr_data mr_first marks_step mk_size mk_marked]; try assumption; try lia.
    - rewrite map_length. exact I4f.
    - intros e. destruct (I5 e). lia.
    - intros e m Hm. destruct (I5 e). rewrite (proj2 (Z.eqb_neq _ _)) by lia. reflexivity. }
  destruct Hw as [->| ->].
  - (* 32 bit *)
    destruct (I3 eq_refl) as [Hlt2|[Ek Et]].
    + assert (Hb : (t + 1) * 2 ^ k < 2 ^ 32) by (rewrite <- E32; apply Z.mul_lt_mono_pos_r; lia).
      assert (0 <= (t + 1) * 2 ^ k) by (apply Z.mul_nonneg_nonneg; lia).
      rewrite Z.mod_small by lia. rewrite lor_low by lia.
      destruct (Z.eqb_spec ((t + 1) * 2 ^ k + (2 ^ k - 1)) (2 ^ 32 - 1)) as [E|E].
      * exists 0. exact Hdone.
      * exists (t + 1). apply Hlt; [reflexivity|lia|]. intros _. left.
        destruct (Z.eq_dec (t + 1) (2 ^ (32 - k) - 1)) as [E'|]; [|lia].
        exfalso. apply E. rewrite E', <- E32. ring.
    + exists 0. replace (Z.lor (((t + 1) * 2 ^ k) mod 2 ^ 32) (mr_low k) =? 2 ^ 32 - 1) with true
        by (rewrite Ek, Et; reflexivity). exact Hdone.
  - specialize (I3' eq_refl). specialize (Hlim eq_refl).
    assert (0 <= (t + 1) * 2 ^ k) by (apply Z.mul_nonneg_nonneg; lia).
    assert (H64 : 2 ^ 32 < 2 ^ 64 - 2 ^ 32) by reflexivity.
    rewrite Z.mod_small by lia. rewrite lor_low by lia.
    rewrite (proj2 (Z.eqb_neq _ _)) by lia.
    exists (t + 1). apply Hlt; [reflexivity|lia|discriminate].
Qed.

Lemma resize_ok limit s a t n : minv limit s a t -> minv limit (mr_resize n s) (marks_step a (MResize n)) t.
Proof.
  intros [I1 I2 I3 I3' I4 I4f I5 I6].
  assert (Hn : forall e, nth e (mr_data (mr_resize n s)) 0 = if (e <? n)%nat then nth e (mr_data s) 0 else 0).
  { intros e. unfold mr_resize. cbn [mr_data]. destruct (Nat.lt_ge_cases e (length (firstn n (mr_data s)))) as [H|H].
    - rewrite app_nth1 by exact H. rewrite firstn_length in H. rewrite (proj2 (Nat.ltb_lt e n)) by lia.
      rewrite <- (firstn_skipn n (mr_data s)) at 2. rewrite app_nth1; [reflexivity|rewrite firstn_length; exact H].
    - rewrite app_nth2 by exact H. rewrite nth_repeat. rewrite firstn_length in H.
      destruct (Nat.ltb_spec e n); [|reflexivity]. symmetry. apply nth_overflow. lia. }
  pose proof (pow2_pos k ltac:(lia)).
  constructor; try assumption.
  - unfold mr_resize. cbn [mr_data marks_step mk_size]. rewrite app_length, firstn_length, repeat_length. lia.
  - intros e. rewrite Hn. destruct (Nat.ltb e n); [apply I5|]. rewrite Z.div_0_l by lia. lia.
  - intros e m Hm. rewrite Hn. cbn [marks_step mk_marked]. destruct (Nat.ltb e n); cbn [andb]; [apply I6; exact Hm|].
    rewrite Z.bits_0. symmetry. apply Bool.andb_false_r.
Qed.

Lemma run_ok : forall ops limit s a t, minv limit s a t -> 0 <= limit -> valid_mops k ops (mk_size a) ->
  (w = 64 -> limit + num_resets ops < 2 ^ (32 - k)) ->
  exists limit' t', minv limit' (mr_run w k ops s) (marks_run ops a) t'.
Proof.
  induction ops as [|o ops IH]; intros limit s a t HI Hl HV HR.
  - exists limit, t. exact HI.
  - unfold mr_run, marks_run. cbn [fold_left]. fold (mr_run w k ops (mr_step w k s o)). fold (marks_run ops (marks_step a o)).
    assert (Hnr : num_resets (o :: ops) = (match o with MReset => 1 | _ => 0 end) + num_resets ops).
    { unfold num_resets. cbn [filter]. destruct o; cbn [length]; lia. }
    assert (Hnn : 0 <= num_resets ops) by (unfold num_resets; lia).
    destruct o as [track e m| |n]; cbn [valid_mops] in HV.
    + destruct HV as (He & Hm & HV). apply (IH limit _ _ t); auto.
      apply set_ok; assumption.
    + destruct (reset_ok limit s a t HI) as (t' & HI').
      * intros E. specialize (HR E). lia.
      * exact Hl.
      * apply (IH (limit + 1) _ _ t'); auto; [lia|]. intros E. specialize (HR E). lia.
    + apply (IH limit _ _ t); auto.
      apply resize_ok; assumption.
Qed.

Lemma minv_init n : minv 0 (mr_make k n) (marks_init n) 0.
Proof.
  assert (Hp := pow2_pos k ltac:(lia)). assert (Hp' := pow2_pos (32 - k) ltac:(lia)).
  constructor; cbn [mr_make mr_id mr_data mr_first marks_init mk_size mk_marked]; rewrite ?repeat_length; try lia.
  - intros _. destruct (Z.eq_dec k 31); [right; lia|left]. pose proof (Z.pow_le_mono_r 2 2 (32 - k) ltac:(lia) ltac:(lia)). lia.
  - intros e. rewrite nth_repeat, Z.div_0_l by lia. lia.
  - intros e m Hm. rewrite nth_repeat, Z.bits_0. symmetry. apply Bool.andb_false_r.
Qed.

Lemma marker_correct n ops e m : valid_mops k ops n -> (w = 32 \/ num_resets ops < 2 ^ (32 - k)) -> Z.of_nat m < k ->
  mr_get k (mr_run w k ops (mr_make k n)) e m = mk_marked (marks_run ops (marks_init n)) e m.
Proof.
  intros HV HR Hm. destruct (run_ok ops 0 (mr_make k n) (marks_init n) 0 (minv_init n) (Z.le_refl 0) HV) as (l & t & HI).
  - intros E. destruct HR; lia.
  - apply (get_ok l _ _ t); assumption.
Qed.

(** After 2^(32-k) resets a 64-bit marker no longer marks anything. *)
Lemma resets_id (n : nat) : w = 64 -> Z.of_nat n <= 2 ^ (32 - k) ->
  mr_id (mr_run w k (repeat MReset n) (mr_make k 1)) = Z.of_nat n * 2 ^ k /\
  mr_data (mr_run w k (repeat MReset n) (mr_make k 1)) = [0].
Proof.
  intros Ew. induction n as [|n IH]; intros Hn; [split; reflexivity|].
  destruct IH as [IH1 IH2]; [lia|].
  assert (E : repeat MReset (S n) = repeat MReset n ++ [MReset]).
  { change [MReset] with (repeat MReset 1). rewrite <- repeat_app. f_equal. lia. }
  rewrite E. unfold mr_run. rewrite fold_left_app. cbn [fold_left]. fold (mr_run w k (repeat MReset n) (mr_make k 1)).
  cbn [mr_step]. unfold mr_reset. cbv zeta. rewrite IH1, lor_low by lia.
  pose proof (pow2_pos k ltac:(lia)).
  assert (E32 : 2 ^ (32 - k) * 2 ^ k = 2 ^ 32) by (rewrite <- Z.pow_add_r by lia; f_equal; lia).
  replace (Z.of_nat n * 2 ^ k + (2 ^ k - 1) + 1) with (Z.of_nat (S n) * 2 ^ k) by lia.
  assert (Z.of_nat (S n) * 2 ^ k <= 2 ^ 32) by (rewrite <- E32; apply Z.mul_le_mono_nonneg_r; lia).
  assert (2 ^ k <= 2 ^ 31) by (apply Z.pow_le_mono_r; lia).
  assert (H64 : 2 ^ 32 + 2 ^ 31 < 2 ^ w - 1) by (rewrite Ew; reflexivity).
  rewrite Z.mod_small by lia. rewrite lor_low by lia. rewrite (proj2 (Z.eqb_neq _ _)) by lia.
  cbn [mr_id mr_data]. auto.
Qed.

Lemma marker_wraps : w = 64 ->
  mr_get k (mr_run w k (repeat MReset (Z.to_nat (2 ^ (32 - k))) ++ [MSet false 0 0]) (mr_make k 1)) 0 0 = false.
Proof.
  intros Ew. pose proof (pow2_pos (32 - k) ltac:(lia)). pose proof (pow2_pos k ltac:(lia)).
  destruct (resets_id (Z.to_nat (2 ^ (32 - k))) Ew) as [E1 E2]; [lia|].
  rewrite Z2Nat.id in E1 by lia. rewrite <- Z.pow_add_r in E1 by lia. replace (32 - k + k) with 32 in E1 by lia.
  unfold mr_run. rewrite fold_left_app. cbn [fold_left mr_step].
  fold (mr_run w k (repeat MReset (Z.to_nat (2 ^ (32 - k)))) (mr_make k 1)).
  set (s := mr_run _ _ _ _) in *. unfold mr_get, mr_set. cbn [mr_data mr_id]. rewrite E1, E2. cbn [nth upd].
  rewrite Z.land_0_l. change (0 =? 2 ^ 32) with false. cbv iota.
  match goal with |- (?a && ?b)%bool = false => assert (a = false) as ->; [|reflexivity] end.
  apply Z.eqb_neq. intros E.
  change (Z.land (Z.lor (2 ^ 32) (2 ^ Z.of_nat 0)) (mr_mask k) = 2 ^ 32) in E.
  assert (B : Z.testbit (Z.land (Z.lor (2 ^ 32) (2 ^ Z.of_nat 0)) (mr_mask k)) 32 = true) by (rewrite E; reflexivity).
  rewrite Z.land_spec in B. apply Bool.andb_true_iff in B. destruct B as [_ B].
  assert (0 < mr_mask k < 2 ^ 32).
  { unfold mr_mask. assert (2 ^ k < 2 ^ 32) by (apply Z.pow_lt_mono_r; lia). lia. }
  rewrite Z.bits_above_log2 in B; [discriminate|lia|]. apply Z.log2_lt_pow2; lia.
Qed.

(** First unmarked element. *)
Lemma advance_spec s m : forall fuel p, (length (mr_data s) <= p + fuel)%nat ->
  let q := mr_advance fuel k s m p in
  (p <= q)%nat /\ (forall e, (p <= e < q)%nat -> mr_get k s e m = true) /\
  ((q < length (mr_data s))%nat -> mr_get k s q m = false) /\ (q <= Nat.max p (length (mr_data s)))%nat.
Proof.
  induction fuel as [|fuel IH]; intros p Hp; cbn [mr_advance]; cbv zeta.
  - split; [lia|]. split; [lia|]. split; lia.
  - destruct (Nat.ltb_spec p (length (mr_data s))) as [Hlt|Hge]; cbn [andb].
    + destruct (mr_get k s p m) eqn:Eg.
      * destruct (IH (S p) ltac:(lia)) as (H1 & H2 & H3 & H4). split; [lia|]. split; [|split; [exact H3|lia]].
        intros e He. destruct (Nat.eq_dec e p) as [->|]; [exact Eg|apply H2; lia].
      * split; [lia|]. split; [lia|]. split; [intros _; exact Eg|lia].
    + split; [lia|]. split; [lia|]. split; lia.
Qed.

Definition first_ok (s : marker) (a : marks) : Prop :=
  forall m, Z.of_nat m < k ->
    (mr_first_unmarked s m <= mk_size a)%nat /\
    (forall e, (e < mr_first_unmarked s m)%nat -> mk_marked a e m = true) /\
    ((mr_first_unmarked s m < mk_size a)%nat -> mk_marked a (mr_first_unmarked s m) m = false).

Lemma first_run : forall ops limit s a t, minv limit s a t -> 0 <= limit -> first_ok s a ->
  valid_mops k ops (mk_size a) -> no_resize ops -> all_tracked ops ->
  (w = 64 -> limit + num_resets ops < 2 ^ (32 - k)) ->
  first_ok (mr_run w k ops s) (marks_run ops a).
Proof.
  induction ops as [|o ops IH]; intros limit s a t HI Hl HF HV HNR HT HR; [exact HF|].
  unfold mr_run, marks_run. cbn [fold_left]. fold (mr_run w k ops (mr_step w k s o)). fold (marks_run ops (marks_step a o)).
  assert (Hnr : num_resets (o :: ops) = (match o with MReset => 1 | _ => 0 end) + num_resets ops).
  { unfold num_resets. cbn [filter]. destruct o; cbn [length]; lia. }
  assert (Hnn : 0 <= num_resets ops) by (unfold num_resets; lia).
  destruct o as [track e m| |n]; cbn [valid_mops no_resize all_tracked] in *.
  - destruct HV as (He & Hm & HV). destruct HT as [-> HT].
    pose proof (set_ok limit s a t true e m HI He Hm) as HI'.
    apply (IH limit _ _ t); auto.
    pose proof (set_ok limit s a t false e m HI He Hm) as HI1.
      set (s1 := mr_set k false s e m) in *.
      assert (Hadv : mr_first (mr_set k true s e m) = upd m (mr_advance (length (mr_data s1)) k s1 m (nth m (mr_first s1) 0%nat)) (mr_first s1)) by reflexivity.
      assert (Hs1 : mr_first s1 = mr_first s) by reflexivity.
      assert (Hg : forall e' m', Z.of_nat m' < k -> mr_get k s1 e' m' = mk_marked (marks_step a (MSet true e m)) e' m').
      { intros e' m' Hm'. exact (get_ok limit _ _ t e' m' HI1 Hm'). }
      assert (Hlen : length (mr_data s1) = mk_size a) by exact (mi_size _ _ _ _ HI1).
      intros m' Hm'. unfold mr_first_unmarked. cbn [mr_step]. rewrite Hadv, Hs1, upd_nth.
      destruct (HF m' Hm') as (F1 & F2 & F3). unfold mr_first_unmarked in F1, F2, F3.
      destruct (Nat.eqb_spec m m') as [<-|Hne].
      * rewrite (mi_first _ _ _ _ HI), (proj2 (Nat.ltb_lt m (Z.to_nat k))) by lia. cbn [andb].
        destruct (advance_spec s1 m (length (mr_data s1)) (nth m (mr_first s) 0%nat) ltac:(lia)) as (A1 & A2 & A3 & A4).
        cbn [marks_step mk_size]. rewrite Hlen in *. split; [lia|]. split.
        -- intros e' He'. destruct (Nat.lt_ge_cases e' (nth m (mr_first s) 0%nat)) as [Hlt|Hge].
           ++ cbn [mk_marked]. rewrite F2 by exact Hlt. apply Bool.orb_true_r.
           ++ transitivity (mr_get k s1 e' m); [symmetry; apply (Hg e' m Hm)|]. apply A2. lia.
        -- intros Hq. eapply eq_trans; [symmetry; apply (Hg _ m Hm)|]. apply A3. exact Hq.
      * cbn [andb marks_step mk_size mk_marked]. split; [exact F1|]. split.
        -- intros e' He'. rewrite F2 by exact He'. apply Bool.orb_true_r.
        -- intros Hq. rewrite F3 by exact Hq. rewrite (proj2 (Nat.eqb_neq m' m)) by lia. rewrite Bool.andb_false_r. reflexivity.
  - destruct (reset_ok limit s a t HI) as (t' & HI'); [intros E; specialize (HR E); lia|exact Hl|].
    apply (IH (limit + 1) _ _ t'); auto; [lia| |intros E; specialize (HR E); lia].
    intros m Hm. assert (E0 : mr_first_unmarked (mr_reset w k s) m = 0%nat).
    { unfold mr_first_unmarked, mr_reset. cbv zeta.
      assert (Hz : forall l : list nat, nth m (map (fun _ => 0%nat) l) 0%nat = 0%nat).
      { intros l. revert m Hm. clear. intros m _. revert m. induction l as [|x l IH]; intros [|m]; cbn; auto. }
      destruct (_ =? _); cbn [mr_first]; apply Hz. }
    cbn [mr_step]. rewrite E0. split; [lia|]. split; [lia|]. reflexivity.
  - destruct HNR.
Qed.

Lemma first_correct n ops m : valid_mops k ops n -> no_resize ops -> all_tracked ops ->
  (w = 32 \/ num_resets ops < 2 ^ (32 - k)) -> Z.of_nat m < k ->
  let s := mr_run w k ops (mr_make k n) in
  let a := marks_run ops (marks_init n) in
  (mr_first_unmarked s m <= n)%nat /\
  (forall e, (e < mr_first_unmarked s m)%nat -> mk_marked a e m = true) /\
  ((mr_first_unmarked s m < n)%nat -> mk_marked a (mr_first_unmarked s m) m = false).
Proof.
  intros HV HN HT HR Hm s a.
  assert (Hsz : mk_size a = n).
  { unfold a. clear HV HT HR a s. change n with (mk_size (marks_init n)) at 2. generalize (marks_init n).
    induction ops as [|o ops IH]; intros a; [reflexivity|]. unfold marks_run. cbn [fold_left]. fold (marks_run ops (marks_step a o)).
    destruct o; cbn [no_resize] in HN; try contradiction; rewrite IH by exact HN; reflexivity. }
  assert (HF : first_ok s a).
  { apply (first_run ops 0 _ _ 0 (minv_init n) (Z.le_refl 0)); auto.
    - intros m' Hm'. assert (E0 : mr_first_unmarked (mr_make k n) m' = 0%nat) by (unfold mr_first_unmarked, mr_make; cbn [mr_first]; apply nth_repeat).
      rewrite E0. split; [lia|]. split; [lia|]. reflexivity.
    - intros E. destruct HR; lia. }
  destruct (HF m Hm) as (F1 & F2 & F3). rewrite Hsz in *. auto.
Qed.
End K.

Lemma marker_wraps_marks k : 1 <= k <= 31 ->
  let ops := repeat MReset (Z.to_nat (2 ^ (32 - k))) ++ [MSet false 0 0] in
  mr_get k (mr_run 64 k ops (mr_make k 1)) 0 0 = false /\
  mk_marked (marks_run ops (marks_init 1)) 0%nat 0%nat = true.
Proof.
  intros Hk ops. split; [exact (marker_wraps 64 k Hk eq_refl)|].
  unfold ops, marks_run. rewrite fold_left_app. reflexivity.
Qed.
