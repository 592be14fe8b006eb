From Verif Require Import Lib.Prelude Spec.CountMap Model.CompactHashModel.
From Coq Require Import Permutation.
Local Open Scope Z_scope.

Section P.
Variables (w kb : Z) (b : nat) (full : bool).
Notation size := (Nat.pow 2 b).
Notation vbits := (vb w kb).
Hypothesis Hkb : 0 < kb < w.

Lemma size_pos : (0 < size)%nat.
Proof. pose proof (Nat.pow_nonzero 2 b ltac:(lia)); lia. Qed.
Lemma size_Z : Z.of_nat size = 2 ^ Z.of_nat b.
Proof. rewrite Nat2Z.inj_pow. reflexivity. Qed.

Notation hsh := (ch_hash size).
Lemma hash_mod : forall k, 0 <= k -> hsh k = Z.to_nat (k mod Z.of_nat size).
Proof.
  intros k Hk. unfold ch_hash. f_equal. rewrite size_Z.
  replace (2 ^ Z.of_nat b - 1) with (Z.ones (Z.of_nat b)) by (rewrite Z.ones_equiv; lia).
  apply Z.land_ones; lia.
Qed.
Lemma hash_lt : forall k, 0 <= k -> (hsh k < size)%nat.
Proof.
  intros k Hk. rewrite hash_mod by lia. pose proof size_pos.
  pose proof (Z.mod_pos_bound k (Z.of_nat size) ltac:(lia)). lia.
Qed.
Lemma next_spec : forall p, (p < size)%nat -> ch_next size p = if (S p =? size)%nat then 0%nat else S p.
Proof.
  intros p Hp. unfold ch_next. rewrite hash_mod by lia.
  replace (Z.of_nat p + 1) with (Z.of_nat (S p)) by lia. rewrite <- Nat2Z.inj_mod, Nat2Z.id.
  destruct (Nat.eqb_spec (S p) size) as [E|E].
  - rewrite E. apply Nat.mod_same. pose proof size_pos; lia.
  - apply Nat.mod_small. lia.
Qed.

(** Packed entries. *)
Definition ent (k v : Z) : Z := k * 2 ^ vbits + v.
Definition okent (e : Z) : Prop := exists k v, 0 <= k < 2 ^ kb /\ 0 < v < 2 ^ vbits /\ e = ent k v.
Lemma pw : 2 ^ w = 2 ^ kb * 2 ^ vbits.
Proof. rewrite <- Z.pow_add_r by (unfold vb; lia). f_equal. unfold vb; lia. Qed.
Lemma ent_key : forall k v, 0 <= v < 2 ^ vbits -> ch_key w kb (ent k v) = k.
Proof.
  intros k v Hv. unfold ch_key, ent. rewrite Z.shiftr_div_pow2 by (unfold vb; lia).
  rewrite Z.div_add_l by lia. rewrite Z.div_small by lia. lia.
Qed.
Lemma ent_val : forall k v, 0 <= v < 2 ^ vbits -> ch_val w kb (ent k v) = v.
Proof.
  intros k v Hv. unfold ch_val, ent. rewrite Z.shiftl_mul_pow2, Z.shiftr_div_pow2 by lia.
  rewrite pw. replace (2 ^ kb * 2 ^ vbits) with (2 ^ vbits * 2 ^ kb) by ring.
  pose proof (Z.pow_pos_nonneg 2 kb ltac:(lia) ltac:(lia)).
  pose proof (Z.pow_pos_nonneg 2 vbits ltac:(lia) ltac:(unfold vb; lia)).
  rewrite Z.mul_mod_distr_r by lia. rewrite Z.div_mul by lia.
  rewrite Z.add_comm, Z.mod_add by lia. apply Z.mod_small; lia.
Qed.
Lemma val_0 : ch_val w kb 0 = 0.
Proof. unfold ch_val. rewrite Z.shiftl_0_l, Z.mod_0_l, Z.shiftr_0_l; [reflexivity|]. pose proof (Z.pow_pos_nonneg 2 w); lia. Qed.
Lemma encode_ent : forall k v, 0 <= k < 2 ^ kb -> 0 <= v < 2 ^ vbits -> ch_encode w kb k v = ent k v.
Proof.
  intros k v Hk Hv. unfold ch_encode, ent.
  pose proof (Z.pow_pos_nonneg 2 vbits ltac:(lia) ltac:(unfold vb; lia)).
  assert (E : Z.lor (Z.shiftl k vbits) v = k * 2 ^ vbits + v).
  { assert (Z.land (Z.shiftl k vbits) v = 0).
    { apply Z.bits_inj'. intros n Hn. rewrite Z.land_spec, Z.bits_0.
      destruct (Z_lt_le_dec n vbits).
      - rewrite Z.shiftl_spec_low by lia. reflexivity.
      - replace v with (v mod 2 ^ vbits) by (apply Z.mod_small; lia).
        rewrite Z.mod_pow2_bits_high by (unfold vb in *; lia). apply Bool.andb_false_r. }
    rewrite <- Z.lxor_lor by auto. rewrite <- Z.add_nocarry_lxor by auto.
    rewrite Z.shiftl_mul_pow2 by (unfold vb; lia). reflexivity. }
  rewrite E. apply Z.mod_small. rewrite pw. split; [lia|].
  assert (k * 2 ^ vbits <= (2 ^ kb - 1) * 2 ^ vbits) by (apply Z.mul_le_mono_nonneg_r; lia). lia.
Qed.
Lemma ent_pos : forall k v, 0 <= k -> 0 < v -> 0 < ent k v.
Proof.
  intros. unfold ent. pose proof (Z.pow_pos_nonneg 2 vbits ltac:(lia) ltac:(unfold vb; lia)).
  pose proof (Z.mul_nonneg_nonneg k (2 ^ vbits)). lia.
Qed.

(** Cyclic distance. *)
Definition dist (x y : nat) : nat := if (x <=? y)%nat then (y - x)%nat else (y + size - x)%nat.
Ltac dst := unfold dist in *;
  repeat match goal with
  | |- context [(?x <=? ?y)%nat] => destruct (Nat.leb_spec x y)
  | H0 : context [(?x <=? ?y)%nat] |- _ => destruct (Nat.leb_spec x y)
  end.
Notation K e := (ch_key w kb e).
Notation hk e := (hsh (ch_key w kb e)).
Notation at_ p d := (nth p d 0).

Lemma movable_dist : forall k from to, 0 <= k -> (from < size)%nat -> (to < size)%nat -> from <> to ->
  ch_movable size k from to = true <-> (dist (hsh k) to < dist (hsh k) from)%nat.
Proof.
  intros k f t Hk Hf Ht Hne. pose proof (hash_lt k Hk). unfold ch_movable. set (h := hsh k) in *.
  rewrite Nat.leb_le.
  destruct (Nat.ltb_spec f h), (Nat.leb_spec h t), (Nat.ltb_spec t f); cbn [Nat.b2n]; dst; lia.
Qed.
Lemma movable_same : forall k p, ch_movable size k p p = false.
Proof.
  intros k p. unfold ch_movable. set (h := hsh k). apply Nat.leb_gt.
  destruct (Nat.ltb_spec p h), (Nat.leb_spec h p), (Nat.ltb_spec p p); cbn [Nat.b2n]; lia.
Qed.

(** The table invariant: the stored keys are distinct, and the table could have been filled by inserting its elements
    one by one in order of rank. *)
Definition path_ok (D : list Z) (r : nat -> nat) (p : nat) : Prop :=
  forall q, (q < size)%nat -> (dist (hk (at_ p D)) q < dist (hk (at_ p D)) p)%nat -> at_ q D <> 0 /\ (r q < r p)%nat.
Record inv (D : list Z) (r : nat -> nat) : Prop := {
  i_len : length D = size;
  i_ok : forall p, (p < size)%nat -> at_ p D <> 0 -> okent (at_ p D);
  i_key : forall p q, (p < size)%nat -> (q < size)%nat -> at_ p D <> 0 -> at_ q D <> 0 -> K (at_ p D) = K (at_ q D) -> p = q;
  i_path : forall p, (p < size)%nat -> at_ p D <> 0 -> path_ok D r p
}.

Lemma okent_key : forall e, okent e -> 0 <= K e < 2 ^ kb.
Proof. intros e (k & v & Hk & Hv & ->). rewrite ent_key by lia. lia. Qed.

(** find. *)
Lemma find_loop_spec : forall fuel D k p0, (p0 < size)%nat -> 0 <= k -> fuel = (size - dist (hsh k) p0)%nat ->
  (forall q, (q < size)%nat -> (dist (hsh k) q < dist (hsh k) p0)%nat -> at_ q D <> 0 /\ K (at_ q D) <> k) ->
  match ch_find_loop w kb size full fuel D k p0 with
  | Some (p, e) => (p < size)%nat /\ e = at_ p D /\
      (forall q, (q < size)%nat -> (dist (hsh k) q < dist (hsh k) p)%nat -> at_ q D <> 0 /\ K (at_ q D) <> k) /\
      (e = 0 \/ K e = k \/ (full = true /\ dist (hsh k) p = (size - 1)%nat))
  | None => full = false /\ forall q, (q < size)%nat -> at_ q D <> 0 /\ K (at_ q D) <> k
  end.
Proof.
  induction fuel as [|f IH]; intros D k p0 Hp Hk Hf Hpre.
  { exfalso. pose proof (hash_lt k Hk). dst; lia. }
  cbn [ch_find_loop].
  destruct (Z.eqb_spec (at_ p0 D) 0) as [E0|E0]; cbn [negb andb].
  { split; auto. }
  destruct (Z.eqb_spec (K (at_ p0 D)) k) as [Ek|Ek]; cbn [negb andb].
  { split; auto. }
  pose proof (hash_lt k Hk) as Hh. pose proof (next_spec p0 Hp) as Hn.
  assert (Hcase : (ch_next size p0 = hsh k /\ dist (hsh k) p0 = size - 1 \/
          ch_next size p0 <> hsh k /\ ch_next size p0 < size /\ dist (hsh k) (ch_next size p0) = S (dist (hsh k) p0))%nat).
  { rewrite Hn. destruct (Nat.eqb_spec (S p0) size); dst; lia. }
  destruct Hcase as [[E1 E2]|(E1 & E2 & E3)].
  - rewrite E1, Nat.eqb_refl, Bool.andb_true_r. destruct full; cbn [negb].
    + split; [auto|]. split; [auto|]. split; [auto|]. right; right. auto.
    + destruct f; [|dst; lia]. cbn [ch_find_loop]. split; auto. intros q Hq.
      destruct (Nat.eq_dec q p0) as [->|]; auto. apply Hpre; auto. dst; lia.
  - destruct (Nat.eqb_spec (ch_next size p0) (hsh k)); [lia|]. rewrite Bool.andb_false_r. cbn [negb].
    apply IH; auto; [lia|].
    intros q Hq Hd. destruct (Nat.eq_dec q p0) as [->|]; auto. apply Hpre; auto. dst; lia.
Qed.
Lemma dist_self : forall x, dist x x = 0%nat.
Proof. intros; dst; lia. Qed.
Lemma find_spec : forall D k, 0 <= k ->
  match ch_find w kb size full D k with
  | Some (p, e) => (p < size)%nat /\ e = at_ p D /\
      (forall q, (q < size)%nat -> (dist (hsh k) q < dist (hsh k) p)%nat -> at_ q D <> 0 /\ K (at_ q D) <> k) /\
      (e = 0 \/ K e = k \/ (full = true /\ dist (hsh k) p = (size - 1)%nat))
  | None => full = false /\ forall q, (q < size)%nat -> at_ q D <> 0 /\ K (at_ q D) <> k
  end.
Proof.
  intros D k Hk. unfold ch_find. apply find_loop_spec; auto using hash_lt.
  - rewrite dist_self. lia.
  - rewrite dist_self. lia.
Qed.

Lemma find_present : forall D r k p, inv D r -> 0 <= k -> (p < size)%nat -> at_ p D <> 0 -> K (at_ p D) = k ->
  ch_find w kb size full D k = Some (p, at_ p D).
Proof.
  intros D r k p HI Hk Hp Hne Ek. pose proof (find_spec D k Hk) as Hf. pose proof (hash_lt k Hk) as Hh.
  destruct (ch_find w kb size full D k) as [[p' e]|].
  - destruct Hf as (Hp' & -> & Hpre & Hend).
    assert (p' = p); [|subst; reflexivity].
    destruct (Nat.eq_dec p' p) as [|Hd]; auto. exfalso.
    assert (Hlt : (dist (hsh k) p' < dist (hsh k) p)%nat).
    { destruct (Nat.lt_ge_cases (dist (hsh k) p) (dist (hsh k) p')) as [L|L].
      - exfalso. apply (Hpre p Hp L). exact Ek.
      - dst; lia. }
    destruct (i_path _ _ HI p Hp Hne p' Hp') as [O _]; [rewrite Ek; exact Hlt|].
    destruct Hend as [E|[E|[_ E]]]; [contradiction| |].
    + apply Hd. eapply i_key; eauto. congruence.
    + dst; lia.
  - exfalso. destruct Hf as [_ Hf]. apply (Hf p Hp). exact Ek.
Qed.
(** Counting the occupied slots. *)
Definition slots (D : list Z) : list nat := filter (fun i => negb (at_ i D =? 0)) (seq 0 size).
Lemma find_absent : forall D k, 0 <= k -> (forall p, (p < size)%nat -> at_ p D <> 0 -> K (at_ p D) <> k) ->
  (exists z, (z < size)%nat /\ at_ z D = 0) ->
  exists p, ch_find w kb size full D k = Some (p, 0) /\ (p < size)%nat /\ at_ p D = 0 /\
    (forall q, (q < size)%nat -> (dist (hsh k) q < dist (hsh k) p)%nat -> at_ q D <> 0).
Proof.
  intros D k Hk Hab (z & Hz & Ez). pose proof (find_spec D k Hk) as Hf. pose proof (hash_lt k Hk) as Hh.
  destruct (ch_find w kb size full D k) as [[p e]|].
  - destruct Hf as (Hp & -> & Hpre & Hend). exists p.
    assert (E : at_ p D = 0).
    { destruct Hend as [E|[E|[_ E]]]; auto.
      - destruct (Z.eq_dec (at_ p D) 0); auto. exfalso. apply (Hab p Hp); auto.
      - destruct (Nat.eq_dec z p) as [->|Hne]; auto. exfalso.
        destruct (Hpre z Hz) as [O _]; [|contradiction]. dst; lia. }
    rewrite E. repeat split; auto. intros q Hq Hd. apply (Hpre q Hq Hd).
  - exfalso. destruct Hf as [_ Hf]. destruct (Hf z Hz) as [O _]. contradiction.
Qed.

(** Closing the hole. *)
Record einv (D0 D : list Z) (r : nat -> nat) (s hole d : nat) : Prop := {
  e_len : length D = size;
  e_s : (s < size)%nat; e_hole : (hole < size)%nat; e_hd : (dist s hole <= d)%nat;
  e_occ : at_ hole D <> 0;
  e_s0 : at_ s D <> 0;
  e_same : forall e, e <> 0 -> (exists p, (p < size)%nat /\ p <> hole /\ at_ p D = e) <-> (exists p, (p < size)%nat /\ p <> s /\ at_ p D0 = e);
  e_ok : forall p, (p < size)%nat -> at_ p D <> 0 -> okent (at_ p D);
  e_key : forall p q, (p < size)%nat -> (q < size)%nat -> p <> hole -> q <> hole -> at_ p D <> 0 -> at_ q D <> 0 ->
          K (at_ p D) = K (at_ q D) -> p = q;
  e_path : forall p, (p < size)%nat -> p <> hole -> at_ p D <> 0 -> path_ok D r p;
  e_scan : forall p, (p < size)%nat -> p <> hole -> at_ p D <> 0 -> (dist s p <= d)%nat ->
           (dist (hk (at_ p D)) p <= dist s p /\ ~ dist (hk (at_ p D)) hole < dist (hk (at_ p D)) p)%nat \/
           (r p <= r hole)%nat
}.
Definition same_but (D0 : list Z) (s : nat) (D : list Z) : Prop :=
  forall e, e <> 0 -> (exists p, (p < size)%nat /\ at_ p D = e) <-> (exists p, (p < size)%nat /\ p <> s /\ at_ p D0 = e).

(* nth in an updated table *)
Lemma at_upd : forall p q x (D : list Z), length D = size -> (p < size)%nat ->
  at_ q (upd p x D) = if (q =? p)%nat then x else at_ q D.
Proof.
  intros p q x D HL Hp. destruct (Nat.eqb_spec q p) as [->|Hne].
  - apply upd_nth_same. lia.
  - apply upd_nth_other. lia.
Qed.
Lemma hk_lt : forall D r p, (forall p, (p < size)%nat -> at_ p D <> 0 -> okent (at_ p D)) -> (r = r :> nat) ->
  (p < size)%nat -> at_ p D <> 0 -> (hk (at_ p D) < size)%nat.
Proof. intros D r p HO _ Hp Hne. apply hash_lt. pose proof (okent_key _ (HO p Hp Hne)). lia. Qed.

Lemma einv_finish : forall D0 D r s hole d, einv D0 D r s hole d ->
  (forall p, (p < size)%nat -> p <> hole -> at_ p D <> 0 -> ~ (dist (hk (at_ p D)) hole < dist (hk (at_ p D)) p)%nat) ->
  inv (upd hole 0 D) r /\ same_but D0 s (upd hole 0 D).
Proof.
  intros D0 D r s hole d E Hno. destruct E.
  assert (HU : forall q, at_ q (upd hole 0 D) = if (q =? hole)%nat then 0 else at_ q D).
  { intros q. apply at_upd; auto. }
  split.
  - split.
    + rewrite upd_length. auto.
    + intros p Hp. rewrite HU. destruct (Nat.eqb_spec p hole) as [->|]; [lia|]. auto.
    + intros p q Hp Hq. rewrite !HU. destruct (Nat.eqb_spec p hole), (Nat.eqb_spec q hole); try lia. auto.
    + intros p Hp. rewrite HU. destruct (Nat.eqb_spec p hole) as [->|Hph]; [lia|]. intros Hne q Hq.
      rewrite !HU. destruct (Nat.eqb_spec p hole); [lia|]. intros Hd.
      destruct (Nat.eqb_spec q hole) as [->|].
      * exfalso. apply (Hno p Hp Hph Hne Hd).
      * apply e_path0; auto.
  - intros e He. rewrite <- (e_same0 e He). split.
    + intros (p & Hp & Ep). exists p. rewrite HU in Ep. destruct (Nat.eqb_spec p hole); [lia|]. auto.
    + intros (p & Hp & Hph & Ep). exists p. rewrite HU. destruct (Nat.eqb_spec p hole); [lia|]. auto.
Qed.

Lemma erase_loop_spec : forall fuel D0 D r s hole cur d,
  einv D0 D r s hole d -> (cur < size)%nat -> dist s cur = d -> (d < size)%nat -> (size <= d + fuel)%nat ->
  (full = false -> exists z, (z < size)%nat /\ at_ z D = 0 /\ (d < dist s z)%nat) ->
  exists D' r', ch_erase_loop w kb size full fuel s hole cur D = Some D' /\ inv D' r' /\ same_but D0 s D'.
Proof.
  induction fuel as [|f IH]; intros D0 D r s hole cur d E Hcur Hd Hds Hfuel Hz; [lia|].
  cbn [ch_erase_loop]. pose proof (next_spec cur Hcur) as Hn. set (c := ch_next size cur) in *.
  assert (Hc : (c < size)%nat). { rewrite Hn. destruct (Nat.eqb_spec (S cur) size); lia. }
  assert (E' := E). destruct E'.
  assert (Hcase : (S d = size /\ c = s \/ S d < size /\ c <> s /\ dist s c = S d)%nat).
  { rewrite Hn. clear - Hd Hcur Hds e_s1. destruct (Nat.eqb_spec (S cur) size); dst; lia. }
  destruct Hcase as [[E1 E2]|(E1 & E2 & E3)].
  - (* all the way round *)
    destruct full eqn:Ef.
    2:{ exfalso. destruct (Hz eq_refl) as (z & Hz1 & Hz2 & Hz3). clear - Hz1 Hz3 E1 e_s1. dst; lia. }
    rewrite E2, Nat.eqb_refl. cbn [negb orb]. rewrite Bool.andb_false_r.
    destruct (Z.eqb_spec (at_ s D) 0) as [Es|Es]; [contradiction|]. cbn [orb].
    assert (Hall : forall p, (p < size)%nat -> p <> hole -> at_ p D <> 0 -> ~ (dist (hk (at_ p D)) hole < dist (hk (at_ p D)) p)%nat).
    { intros p Hp Hph Hne Hlt. destruct (e_scan0 p Hp Hph Hne) as [[_ Hx]|Hx]; [clear - Hp E1 e_s1; dst; lia|contradiction|].
      destruct (e_path0 p Hp Hph Hne hole e_hole0 Hlt) as [_ Hr]. lia. }
    assert (Hmv : ch_movable size (K (at_ s D)) s hole = false).
    { destruct (Nat.eq_dec s hole) as [<-|Hne]; [apply movable_same|].
      destruct (ch_movable size (K (at_ s D)) s hole) eqn:Em; auto. exfalso.
      apply movable_dist in Em; auto; [|apply okent_key; auto]. apply (Hall s); auto. }
    rewrite Hmv. destruct (einv_finish _ _ _ _ _ _ E Hall) as [HI HS]. eauto.
  - destruct (Nat.eqb_spec c s); [lia|]. cbn [negb]. rewrite Bool.orb_true_r, Bool.andb_true_r.
    destruct (Z.eqb_spec (at_ c D) 0) as [Ec|Ec]; cbn [orb negb].
    + (* an empty slot *)
      assert (Hch : c <> hole) by congruence.
      rewrite Ec.
      assert (Hfin : (if full then upd c 0 (upd hole 0 D) else upd hole 0 D) = upd hole 0 D).
      { destruct full; auto. apply (nth_ext _ _ 0 0); [rewrite upd_length; auto|]. intros i _.
        rewrite at_upd by (rewrite ?upd_length; auto). rewrite at_upd by auto.
        destruct (Nat.eqb_spec i c) as [->|]; auto. destruct (Nat.eqb_spec c hole); lia. }
      rewrite Hfin.
      destruct (einv_finish _ _ _ _ _ _ E) as [HI HS]; [|eauto].
      intros p Hp Hph Hne Hlt.
      destruct (Nat.le_gt_cases (dist s p) d) as [Hle|Hgt].
      * destruct (e_scan0 p Hp Hph Hne Hle) as [[_ Hx]|Hx]; [contradiction|].
        destruct (e_path0 p Hp Hph Hne hole e_hole0 Hlt) as [_ Hr]. lia.
      * assert (Hpc : p <> c) by congruence.
        assert (Hh := hk_lt D 0 p e_ok0 eq_refl Hp Hne). set (h := hk (at_ p D)) in *.
        destruct (e_path0 p Hp Hph Hne c Hc) as [O _]; [|contradiction]. fold h.
        clearbody h c. clear - Hlt Hgt Hpc E3 e_hd0 e_hole0 e_s1 Hp Hc Hh. dst; lia.
    + assert (Hhc : c <> hole). { intros ->. lia. }
      assert (Hh := hk_lt D 0 c e_ok0 eq_refl Hc Ec).
      destruct (ch_movable size (K (at_ c D)) c hole) eqn:Em.
      * (* moved *)
        apply movable_dist in Em; auto; [|apply okent_key; auto].
        set (r' := fun q => if (q =? hole)%nat then r c else r q).
        destruct (e_path0 c Hc Hhc Ec hole e_hole0 Em) as [_ Hrc].
        assert (HU : forall q, at_ q (upd hole (at_ c D) D) = if (q =? hole)%nat then at_ c D else at_ q D).
        { intros q. apply at_upd; auto. }
        assert (Hocc : forall q, at_ q D <> 0 -> at_ q (upd hole (at_ c D) D) <> 0).
        { intros q Hq. rewrite HU. destruct (Nat.eqb_spec q hole); auto. }
        apply (IH D0 (upd hole (at_ c D) D) r' s c c (S d)); auto; try lia.
        2:{ intros Ef. destruct (Hz Ef) as (z & Z1 & Z2 & Z3). exists z. split; auto. rewrite HU.
            destruct (Nat.eqb_spec z hole) as [->|]; [lia|]. split; auto.
            assert (Hzc : z <> c) by congruence. clear - Z1 Z3 E3 Hzc Hc e_s1. dst; lia. }
        split; auto.
        -- rewrite upd_length; auto.
        -- lia.
        -- intros e He. rewrite <- (e_same0 e He). split.
           ++ intros (p & Hp & Hpc & Ep). rewrite HU in Ep. destruct (Nat.eqb_spec p hole) as [->|].
              ** exists c. auto.
              ** exists p. auto.
           ++ intros (p & Hp & Hph & Ep). destruct (Nat.eq_dec p c) as [->|].
              ** exists hole. rewrite HU, Nat.eqb_refl. auto.
              ** exists p. rewrite HU. destruct (Nat.eqb_spec p hole); [lia|]. auto.
        -- intros p Hp. rewrite HU. destruct (Nat.eqb_spec p hole) as [->|]; auto.
        -- intros p q Hp Hq Hpc Hqc. rewrite !HU.
           destruct (Nat.eqb_spec p hole) as [->|], (Nat.eqb_spec q hole) as [->|]; auto; intros Hn1 Hn2 Ek.
           ++ exfalso. apply Hqc. symmetry. apply e_key0; auto.
           ++ exfalso. apply Hpc. apply e_key0; auto.
        -- intros p Hp Hpc Hne q Hq Hlt. rewrite HU in Hne, Hlt. unfold r'.
           destruct (Nat.eqb_spec p hole) as [->|Hph].
           ++ assert (Hq' : (dist (hk (at_ c D)) q < dist (hk (at_ c D)) c)%nat) by lia.
              destruct (e_path0 c Hc Hhc Ec q Hq Hq') as [O R]. split; auto.
              destruct (Nat.eqb_spec q hole) as [->|]; [lia|exact R].
           ++ destruct (e_path0 p Hp Hph Hne q Hq Hlt) as [O R]. split; auto.
              destruct (Nat.eqb_spec q hole) as [->|]; [|exact R].
              assert (Hp1 : (S d < dist s p)%nat).
              { destruct (Nat.le_gt_cases (dist s p) d) as [Hle|Hgt].
                - destruct (e_scan0 p Hp Hph Hne Hle) as [[_ Hx]|Hx]; [contradiction|lia].
                - clear - Hgt Hpc E3 Hp Hc e_s1. dst; lia. }
              apply (e_path0 p Hp Hph Hne c Hc).
              assert (Hh2 := hk_lt D 0 p e_ok0 eq_refl Hp Hne). set (h := hk (at_ p D)) in *.
              clearbody h c. clear - Hlt Hp1 Hpc E3 e_hd0 e_hole0 e_s1 Hp Hc Hh2. dst; lia.
        -- intros p Hp Hpc Hne Hle. rewrite HU in Hne |- *. unfold r'.
           destruct (Nat.eqb_spec c hole); [lia|].
           destruct (Nat.eqb_spec p hole) as [->|Hph]; [right; lia|].
           assert (Hle' : (dist s p <= d)%nat) by (clear - Hle Hpc E3 Hp Hc e_s1; dst; lia).
           destruct (e_scan0 p Hp Hph Hne Hle') as [[Hx Hy]|Hx]; [left|right; lia].
           split; auto. assert (Hh2 := hk_lt D 0 p e_ok0 eq_refl Hp Hne). set (h := hk (at_ p D)) in *.
           clearbody h c. clear - Hx Hle' E3 Hp Hc e_s1 Hh2. dst; lia.
      * (* stays *)
        assert (Hnm : ~ (dist (hk (at_ c D)) hole < dist (hk (at_ c D)) c)%nat).
        { intros Hlt. apply movable_dist in Hlt; auto; [congruence|apply okent_key; auto]. }
        apply (IH D0 D r s hole c (S d)); auto; try lia.
        2:{ intros Ef. destruct (Hz Ef) as (z & Z1 & Z2 & Z3). exists z. split; auto. split; auto.
            assert (Hzc : z <> c) by congruence. clear - Z1 Z3 E3 Hzc Hc e_s1. dst; lia. }
        split; auto; try lia.
        intros p Hp Hph Hne Hle. destruct (Nat.eq_dec p c) as [->|Hpc].
        -- left. split; auto. set (h := hk (at_ c D)) in *. clearbody h c.
           clear - Hnm E3 e_hd0 Hh Hc e_s1 e_hole0 Hhc. dst; lia.
        -- apply e_scan0; auto. clear - Hle Hpc E3 Hp Hc e_s1. dst; lia.
Qed.
End P.
