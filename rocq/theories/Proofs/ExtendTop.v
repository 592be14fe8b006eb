(* Extension of a partition, and uncoarsening with extensions. *)
From Verif Require Import Lib.Prelude Spec.Induced Spec.ExtendSpec Spec.Level Model.MathModel Model.PartUtilsModel Model.SubgraphModel Model.ExtendModel Model.DeepModel
  Proofs.PartUtilsProofs Proofs.SubgraphBase Proofs.SubgraphPar Proofs.FinalK Proofs.SubgraphFill Proofs.ExtendBase Proofs.ExtendStep.

(** ** Labels of one extension *)
Lemma seq_sum_mono (num : nat -> nat) b b' : b < b' -> list_sum (map num (seq 0 b)) + num b <= list_sum (map num (seq 0 b')).
Proof.
  intros H. replace b' with (S b + (b' - S b)) by lia. rewrite seq_app, map_app, list_sum_app. cbn [Nat.add].
  rewrite seq_S, map_app, list_sum_app. cbn [Nat.add map]. rewrite list_sum_cons. lia.
Qed.

Lemma extended_refines bip g part order kp num desired : bipartitioner bip -> length part = length g ->
  (forall b, In b part -> b < kp) -> Permutation order (seq 0 (length g)) ->
  list_sum (map num (seq 0 kp)) = desired -> (forall b, b < kp -> 1 <= num b) ->
  refines part (map (extended_label bip g part order kp num) (seq 0 (length g))) desired /\
  forall u, u < length g -> let b := nth u part 0 in
    list_sum (map num (seq 0 b)) <= extended_label bip g part order kp num u < list_sum (map num (seq 0 b)) + num b.
Proof.
  intros Hb Hl Hlab Ho Hs Hn.
  assert (R : forall u, u < length g -> nth u part 0 < kp /\
     list_sum (map num (seq 0 (nth u part 0))) <= extended_label bip g part order kp num u < list_sum (map num (seq 0 (nth u part 0))) + num (nth u part 0)).
  { intros u Hu. assert (Hbu : nth u part 0 < kp) by (apply Hlab, nth_In; lia). split; auto.
    unfold extended_label. set (b := nth u part 0) in *. split; [lia|]. apply Nat.add_lt_mono_l.
    eapply rb_range; [exact Hb|auto|]. apply nth_In. rewrite rb_length, induced_length by auto. apply index_of_in.
    rewrite listing_blk, in_blk. split.
    - apply (Permutation_in u (Permutation_sym Ho)), in_seq. lia.
    - unfold b. apply nth_error_nth'. lia. }
  split; [|intros u Hu; apply (R u Hu)]. split; [rewrite map_length, seq_length; auto|]. split.
  - intros x Hx. apply in_map_iff in Hx. destruct Hx as (u & <- & Hu). apply in_seq in Hu. destruct (R u ltac:(lia)) as [R1 R2].
    assert (A := seq_sum_mono num (nth u part 0) kp R1). lia.
  - intros u v Hu Hv. rewrite Hl in Hu, Hv. rewrite !nth_map_seq by auto. cbn [Nat.add]. intros E.
    destruct (R u Hu) as [U1 U2], (R v Hv) as [V1 V2].
    destruct (Nat.lt_trichotomy (nth u part 0) (nth v part 0)) as [H|[H|H]]; auto;
      assert (A := seq_sum_mono num _ _ H); lia.
Qed.

Lemma refines_trans a b c kb kc : refines a b kb -> refines b c kc -> refines a c kc.
Proof.
  intros (L1 & _ & R1) (L2 & B2 & R2). split; [congruence|]. split; auto. intros u v Hu Hv E. apply R1; auto. apply R2; auto; congruence.
Qed.

(** ** The loop *)
Section Loop.
Context {M : Type}.
Variables (step : nat -> nat -> M -> list nat -> option (M * list nat)) (I : M -> Prop) (k n factor threads desired : nat).
Hypothesis Hstep : forall l target mem part, 2 ^ l <= target -> level_ok target k -> I mem -> length part = n -> (forall b, In b part -> b < 2 ^ l) ->
  exists mem' part', step (2 ^ l) target mem part = Some (mem', part') /\ I mem' /\ refines part part' target.
Hypothesis Hd : level_ok desired k.
Hypothesis Hfac : factor = 0 \/ exists j, 1 <= j /\ factor = 2 ^ j.

Lemma extend_loop_ok : forall fuel l mem part, desired <= fuel + 2 ^ l -> 2 ^ l <= desired -> I mem -> length part = n -> (forall b, In b part -> b < 2 ^ l) ->
  exists mem' part' l', extend_loop step fuel factor threads desired mem part (2 ^ l) = Some (mem', part', 2 ^ l') /\
    I mem' /\ 2 ^ l' <= desired /\ refines part part' (2 ^ l').
Proof.
  assert (Refl : forall part kp, (forall b, In b part -> b < kp) -> refines part part kp) by (intros; repeat split; auto).
  induction fuel as [|fuel IH]; intros l mem part Hf Hl Hm Hlen Hlab.
  - assert (2 ^ l = desired) by lia. exists mem, part, l. cbn [extend_loop].
    destruct (Nat.ltb_spec (factor * 2 ^ l) desired) as [H1|H1].
    2:{ rewrite andb_false_r. cbn [andb]. auto. }
    destruct (Nat.eqb_spec factor 0) as [->|Hn]; cbn [negb andb]; auto. exfalso.
    destruct Hfac as [|(j & Hj & E)]; [easy|]. assert (A := pow2_pos j). rewrite <- H in H1.
    assert (1 * 2 ^ l <= factor * 2 ^ l) by (apply Nat.mul_le_mono_r; lia). lia.
  - cbn [extend_loop]. destruct (negb (factor =? 0) && (factor * 2 ^ l <? desired) && (2 ^ l <? threads)) eqn:E.
    + apply andb_prop in E. destruct E as [E _]. apply andb_prop in E. destruct E as [E1 E2].
      apply Nat.ltb_lt in E2. apply negb_true_iff, Nat.eqb_neq in E1. destruct Hfac as [|(j & Hj & Ej)]; [easy|].
      assert (Ep : factor * 2 ^ l = 2 ^ (l + j)) by (rewrite Nat.pow_add_r, Ej; lia). rewrite Ep in *.
      assert (P := pow2_pos l).
      assert (Hgt : 2 * 2 ^ l <= 2 ^ (l + j)).
      { rewrite <- Nat.pow_succ_r'. apply Nat.pow_le_mono_r; lia. }
      destruct (Hstep l (2 ^ (l + j)) mem part) as (m1 & p1 & Es & I1 & R1); auto; [lia| |].
      { destruct Hd as (D1 & D2 & _). split; [apply pow2_pos|]. split; [lia|]. left. eauto. }
      rewrite Es. assert (R1' := R1). destruct R1' as (L1 & B1 & _).
      destruct (IH (l + j) m1 p1) as (m2 & p2 & l2 & E3 & I2 & H2 & R2); auto; try lia.
      exists m2, p2, l2. split; auto. split; auto. split; auto. eapply refines_trans; eauto.
    + exists mem, part, l. auto.
Qed.

Lemma extend_with_ok l mem part : 2 ^ l <= desired -> I mem -> length part = n -> (forall b, In b part -> b < 2 ^ l) ->
  exists mem' part', extend_with step factor threads mem part (2 ^ l) desired = Some (mem', part') /\ I mem' /\ refines part part' desired.
Proof.
  intros Hl Hm Hlen Hlab. unfold extend_with.
  destruct (extend_loop_ok desired l mem part) as (m1 & p1 & l1 & E & I1 & H1 & R1); auto; [lia|].
  rewrite E. destruct R1 as (L1 & B1 & R1).
  destruct (Hstep l1 desired m1 p1) as (m2 & p2 & Es & I2 & R2); auto; [congruence|].
  exists m2, p2. split; auto. split; auto. eapply refines_trans; [split; [exact L1|split; [exact B1|exact R1]]|exact R2].
Qed.
End Loop.

Theorem extend_partition_ok ub g k factor threads choices mem part l desired :
  lg_ok g -> length part = length g -> (forall b, In b part -> b < 2 ^ l) -> (N.of_nat k < 2 ^ 31)%N ->
  2 ^ l <= desired -> level_ok desired k -> (factor = 0 \/ exists j, 1 <= j /\ factor = 2 ^ j) ->
  (forall kp, choice_ok g kp (choices kp)) -> mem_fits g k mem ->
  exists mem' part', extend_partition ub g k factor threads choices mem part (2 ^ l) desired = Some (mem', part') /\
    mem_fits g k mem' /\ refines part part' desired.
Proof.
  intros Hok Hlen Hlab Hk Hl Hd Hf Hc Hm. unfold extend_partition.
  apply (extend_with_ok _ (mem_fits g k) k (length g)); auto.
  clear - Hok Hk Hc. intros l target mem part Hl Ht Hm Hlen Hlab. destruct (Hc (2 ^ l)) as (C1 & C2 & C3 & C4).
  destruct (extend_step_ok ub g k (choices (2 ^ l)) part l target) with (mem := mem) as (mem' & fks & E & Z & S & N); auto.
  rewrite E. do 2 eexists. split; [reflexivity|]. split.
  - destruct Z as (Z1 & Z2 & Z3 & Z4). unfold mem_fits. rewrite <- Z1, <- Z2, <- Z3, <- Z4. auto.
  - apply extended_refines; auto. intros b Hb. apply N; auto.
Qed.

Theorem extend_lazy_partition_ok ub g k factor threads choices tid mems part l desired :
  lg_ok g -> length part = length g -> (forall b, In b part -> b < 2 ^ l) -> (N.of_nat k < 2 ^ 31)%N ->
  2 ^ l <= desired -> level_ok desired k -> (factor = 0 \/ exists j, 1 <= j /\ factor = 2 ^ j) ->
  (forall kp, choice_ok g kp (choices kp)) ->
  (forall b, tid b < length mems) -> (forall m, In m mems -> lazy_mem_ok (lg_is_nw g) (lg_is_ew g) m) ->
  exists mems' part', extend_lazy ub g k factor threads choices tid mems part (2 ^ l) desired = Some (mems', part') /\
    length mems' = length mems /\ (forall m, In m mems' -> lazy_mem_ok (lg_is_nw g) (lg_is_ew g) m) /\
    refines part part' desired.
Proof.
  intros Hok Hlen Hlab Hk Hl Hd Hf Hc Ht Hm. unfold extend_lazy.
  destruct (extend_with_ok (fun kp d ms p => extend_lazy_step ub g k (choices kp) tid ms p kp d)
     (fun ms => length ms = length mems /\ forall m, In m ms -> lazy_mem_ok (lg_is_nw g) (lg_is_ew g) m) k (length g) factor threads desired) with (l := l) (mem := mems) (part := part)
    as (m' & p' & E & (I1 & I2) & R); auto.
  - clear - Hok Hk Hc Ht. intros l target ms part Hl Hd (L & Hm) Hlen Hlab. destruct (Hc (2 ^ l)) as (C1 & C2 & C3 & C4).
    destruct (extend_lazy_ok ub g k (choices (2 ^ l)) part l target) with (tid := tid) (mems := ms) as (mem' & fks & E & Z & H & S & N); auto.
    { intros b Hb. rewrite L. auto. }
    rewrite E. do 2 eexists. split; [reflexivity|]. split; [split; [congruence|auto]|].
    apply extended_refines; auto. intros b Hb. apply N; auto.
  - exists m', p'. auto.
Qed.
