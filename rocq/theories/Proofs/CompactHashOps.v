From Verif Require Import Lib.Prelude Spec.CountMap Model.CompactHashModel Proofs.CompactHashProofs.
From Coq Require Import Permutation.
Local Open Scope Z_scope.

Section P.
Variables (w kb : Z) (b : nat) (full : bool).
Notation size := (Nat.pow 2 b).
Notation vbits := (vb w kb).
Hypothesis Hkb : 0 < kb < w.
Notation K e := (ch_key w kb e).
Notation at_ p d := (nth p d 0).
Notation KN := (Z.to_nat (2 ^ kb)).
Notation ent := (ent w kb).

Definition rep (D : list Z) (M : Z -> Z) : Prop :=
  (exists r, inv w kb b D r) /\
  forall k, 0 <= k < 2 ^ kb -> 0 <= M k < 2 ^ vbits /\
    (M k = 0 -> forall p, (p < size)%nat -> at_ p D <> 0 -> K (at_ p D) <> k) /\
    (M k <> 0 -> exists p, (p < size)%nat /\ at_ p D = ent k (M k)).

Lemma KN_Z : Z.of_nat KN = 2 ^ kb.
Proof. pose proof (Z.pow_pos_nonneg 2 kb). lia. Qed.
Lemma in_keys : forall M k, In k (cm_keys KN M) <-> 0 <= k < 2 ^ kb /\ M k <> 0.
Proof.
  intros M k. unfold cm_keys. rewrite filter_In, in_map_iff, Bool.negb_true_iff, Z.eqb_neq.
  pose proof KN_Z. split.
  - intros [(n & <- & Hn) Hne]. apply in_seq in Hn. lia.
  - intros [Hk Hne]. split; auto. exists (Z.to_nat k). rewrite in_seq. lia.
Qed.
Lemma nodup_keys : forall M, NoDup (cm_keys KN M).
Proof.
  intros M. apply NoDup_filter. apply FinFun.Injective_map_NoDup; [|apply seq_NoDup].
  intros x y E. lia.
Qed.

(** The stored pairs are those of the map. *)
Lemma rep_slot : forall D M p, rep D M -> (p < size)%nat -> at_ p D <> 0 ->
  let k := K (at_ p D) in 0 <= k < 2 ^ kb /\ M k <> 0 /\ at_ p D = ent k (M k).
Proof.
  intros D M p [[r HI] HR] Hp Hne k. pose proof (i_ok _ _ _ _ _ HI p Hp Hne) as Hok.
  pose proof (okent_key w kb Hkb _ Hok) as Hk. fold k in Hk. split; auto.
  destruct (HR k Hk) as (Hb & Hz & Hx).
  destruct (Z.eq_dec (M k) 0) as [E|E].
  - exfalso. apply (Hz E p Hp Hne). reflexivity.
  - split; auto. destruct (Hx E) as (q & Hq & Eq). 
    assert (Hqp : at_ q D <> 0). { rewrite Eq. pose proof (ent_pos w kb Hkb k (M k)). lia. }
    assert (q = p); [|subst; auto]. apply (i_key _ _ _ _ _ HI); auto. rewrite Eq, ent_key by (auto; lia). reflexivity.
Qed.
Lemma slots_keys : forall D M, rep D M ->
  Permutation (map (fun i => K (at_ i D)) (slots b D)) (cm_keys KN M).
Proof.
  intros D M HR. apply NoDup_Permutation.
  - assert (forall l, NoDup l -> (forall i, In i l -> (i < size)%nat /\ at_ i D <> 0) -> NoDup (map (fun i => K (at_ i D)) l)).
    { induction l as [|a l IH]; intros HN HA; cbn [map]; constructor.
      - intros Hin. apply in_map_iff in Hin. destruct Hin as (q & Eq & Hq). inversion HN; subst.
        assert (q = a); [|subst; contradiction]. destruct HR as [[r HI] _].
        destruct (HA q); [right; auto|]. destruct (HA a); [left; auto|].
        apply (i_key _ _ _ _ _ HI); auto.
      - inversion HN; subst. apply IH; auto. intros; apply HA; right; auto. }
    apply H; [apply NoDup_filter, seq_NoDup|]. intros i Hi. apply filter_In in Hi. destruct Hi as [Hs Hn].
    apply in_seq in Hs. rewrite Bool.negb_true_iff, Z.eqb_neq in Hn. lia.
  - apply nodup_keys.
  - intros k. rewrite in_map_iff, in_keys. split.
    + intros (i & <- & Hi). apply filter_In in Hi. destruct Hi as [Hs Hn].
      apply in_seq in Hs. rewrite Bool.negb_true_iff, Z.eqb_neq in Hn.
      destruct (rep_slot D M i HR) as (A & B & C); auto; lia.
    + intros [Hk Hne]. destruct HR as [[r HI] HR]. destruct (HR k Hk) as (Hb & _ & Hx).
      destruct (Hx Hne) as (p & Hp & Ep). exists p. rewrite Ep, ent_key by (auto; lia). split; auto.
      apply filter_In. rewrite in_seq, Ep, Bool.negb_true_iff, Z.eqb_neq. pose proof (ent_pos w kb Hkb k (M k)). lia.
Qed.
Lemma rep_empty_slot : forall D M, rep D M -> (cm_size KN M < size)%nat -> exists z, (z < size)%nat /\ at_ z D = 0.
Proof.
  intros D M HR Hs. pose proof (Permutation_length (slots_keys D M HR)) as HP. rewrite map_length in HP.
  fold (cm_size KN M) in HP.
  destruct (existsb (fun i => at_ i D =? 0) (seq 0 size)) eqn:E.
  - apply existsb_exists in E. destruct E as (z & Hz & Ez). apply in_seq in Hz. exists z. lia.
  - exfalso. assert (slots b D = seq 0 size); [|rewrite H, seq_length in HP; lia].
    unfold slots. assert (forall l, existsb (fun i => at_ i D =? 0) l = false -> filter (fun i => negb (at_ i D =? 0)) l = l).
    { induction l as [|a l IH]; cbn; auto. destruct (at_ a D =? 0); cbn; [discriminate|]. intros H. rewrite IH; auto. }
    auto.
Qed.

(** get. *)
Lemma get_spec : forall D M k, rep D M -> (full = false -> (cm_size KN M < size)%nat) -> 0 <= k < 2 ^ kb ->
  ch_get w kb size full D k = Some (M k).
Proof.
  intros D M k HR Hs Hk. assert (HR' := HR). destruct HR' as [[r HI] HR']. destruct (HR' k Hk) as (Hb & Hz & Hx).
  unfold ch_get. destruct (Z.eq_dec (M k) 0) as [E|E].
  - rewrite E. specialize (Hz E). pose proof (find_spec w kb b full D k ltac:(lia)) as Hf.
    destruct (ch_find w kb size full D k) as [[p e]|].
    + destruct Hf as (Hp & -> & _ & Hend). f_equal.
      destruct (Z.eq_dec (at_ p D) 0) as [E0|E0].
      * rewrite E0, val_0 by auto. destruct full; auto. destruct (_ =? _); auto.
      * destruct Hend as [?|[?|[-> _]]]; [contradiction|exfalso; apply (Hz p Hp); auto|].
        destruct (Z.eqb_spec (K (at_ p D)) k); auto. exfalso; apply (Hz p Hp); auto.
    + exfalso. destruct Hf as [Ef Hf]. destruct (rep_empty_slot D M HR (Hs Ef)) as (z & Hz1 & Hz2).
      destruct (Hf z Hz1). contradiction.
  - destruct (Hx E) as (p & Hp & Ep). pose proof (ent_pos w kb Hkb k (M k)).
    rewrite (find_present w kb b full D r k p HI); try lia; [|rewrite Ep, ent_key by (auto; lia); reflexivity].
    f_equal. rewrite Ep, ent_key, ent_val by (auto; lia). rewrite Z.eqb_refl. destruct full; auto.
Qed.

(** Overwriting the value of a contained key. *)
Lemma rep_update : forall D M k p v, rep D M -> 0 <= k < 2 ^ kb -> (p < size)%nat -> at_ p D <> 0 -> K (at_ p D) = k ->
  0 < v < 2 ^ vbits -> rep (upd p (ent k v) D) (fun x => if x =? k then v else M x).
Proof.
  intros D M k p v HR Hk Hp Hne Ek Hv. assert (HR' := HR). destruct HR' as [[r HI] HR'].
  pose proof (i_len _ _ _ _ _ HI) as HL.
  assert (HU : forall q, at_ q (upd p (ent k v) D) = if (q =? p)%nat then ent k v else at_ q D).
  { intros q. apply (at_upd b); auto. }
  assert (HK : forall q, (at_ q (upd p (ent k v) D) <> 0 <-> at_ q D <> 0) /\ K (at_ q (upd p (ent k v) D)) = K (at_ q D)).
  { intros q. rewrite HU. destruct (Nat.eqb_spec q p) as [->|]; [|tauto]. rewrite ent_key by (auto; lia).
    pose proof (ent_pos w kb Hkb k v). split; [lia|auto]. }
  split.
  - exists r. split.
    + rewrite upd_length; auto.
    + intros q Hq Hn. rewrite HU in *. destruct (Nat.eqb_spec q p); [|eapply i_ok; eauto].
      exists k, v. auto.
    + intros q q' Hq Hq' Hn Hn' E. apply (i_key _ _ _ _ _ HI); auto; try (apply HK; auto).
      rewrite <- (proj2 (HK q)), <- (proj2 (HK q')). exact E.
    + intros q Hq Hn q' Hq' Hd. rewrite (proj2 (HK q)) in Hd. apply (proj1 (HK q)) in Hn.
      destruct (i_path _ _ _ _ _ HI q Hq Hn q' Hq' Hd) as [O R]. split; auto. apply HK. auto.
  - intros x Hx. destruct (Z.eqb_spec x k) as [->|Hxk].
    + split; [lia|]. split; [lia|]. intros _. exists p. split; auto. rewrite HU, Nat.eqb_refl. reflexivity.
    + destruct (HR' x Hx) as (Hb & Hz & He). split; auto. split.
      * intros E q Hq Hn. rewrite (proj2 (HK q)). apply Hz; auto. apply HK; auto.
      * intros E. destruct (He E) as (q & Hq & Eq). exists q. split; auto. rewrite HU.
        destruct (Nat.eqb_spec q p) as [->|]; auto. exfalso. apply Hxk. rewrite <- Ek, Eq, ent_key by (auto; lia). reflexivity.
Qed.

(** Inserting a key into an empty slot at the end of its probe path. *)
Lemma rep_insert : forall D M k p v, rep D M -> 0 <= k < 2 ^ kb -> (p < size)%nat -> at_ p D = 0 -> M k = 0 ->
  (forall q, (q < size)%nat -> (dist b (ch_hash size k) q < dist b (ch_hash size k) p)%nat -> at_ q D <> 0) ->
  0 < v < 2 ^ vbits -> rep (upd p (ent k v) D) (fun x => if x =? k then v else M x).
Proof.
  intros D M k p v HR Hk Hp He Hm Hpath Hv. assert (HR' := HR). destruct HR' as [[r HI] HR'].
  pose proof (i_len _ _ _ _ _ HI) as HL.
  assert (HU : forall q, at_ q (upd p (ent k v) D) = if (q =? p)%nat then ent k v else at_ q D).
  { intros q. apply (at_upd b); auto. }
  pose proof (ent_pos w kb Hkb k v ltac:(lia) ltac:(lia)) as Hep.
  set (B := S (list_max (map r (seq 0 size)))).
  assert (HB : forall q, (q < size)%nat -> (r q < B)%nat).
  { intros q Hq. pose proof (list_max_le (map r (seq 0 size)) (list_max (map r (seq 0 size)))) as [L _].
    specialize (L (le_n _)). rewrite Forall_forall in L. specialize (L (r q)).
    assert (In (r q) (map r (seq 0 size))) by (apply in_map, in_seq; lia). specialize (L H). unfold B. lia. }
  split.
  - exists (fun q => if (q =? p)%nat then B else r q). split.
    + rewrite upd_length; auto.
    + intros q Hq Hn. rewrite HU in *. destruct (Nat.eqb_spec q p); [|eapply i_ok; eauto]. exists k, v. auto.
    + intros q q' Hq Hq'. rewrite !HU.
      destruct (HR' k Hk) as (_ & Hz & _). specialize (Hz Hm).
      destruct (Nat.eqb_spec q p) as [->|], (Nat.eqb_spec q' p) as [->|]; auto; intros Hn Hn' E.
      * exfalso. rewrite ent_key in E by (auto; lia). apply (Hz q' Hq' Hn'). auto.
      * exfalso. rewrite ent_key in E by (auto; lia). apply (Hz q Hq Hn). auto.
      * eapply i_key; eauto.
    + intros q Hq Hn q' Hq' Hd. rewrite HU in Hn, Hd. rewrite HU.
      destruct (Nat.eqb_spec q p) as [->|Hqp].
      * rewrite ent_key in Hd by (auto; lia). destruct (Nat.eqb_spec q' p) as [->|]; [lia|].
        split; auto.
      * destruct (i_path _ _ _ _ _ HI q Hq Hn q' Hq' Hd) as [O R].
        destruct (Nat.eqb_spec q' p) as [->|]; [contradiction|]. auto.
  - intros x Hx. destruct (Z.eqb_spec x k) as [->|Hxk].
    + split; [lia|]. split; [lia|]. intros _. exists p. rewrite HU, Nat.eqb_refl. auto.
    + destruct (HR' x Hx) as (Hb & Hz & Hy). split; auto. split.
      * intros E q Hq. rewrite HU. destruct (Nat.eqb_spec q p); [|auto]. intros _. rewrite ent_key by (auto; lia). auto.
      * intros E. destruct (Hy E) as (q & Hq & Eq). exists q. split; auto. rewrite HU.
        destruct (Nat.eqb_spec q p) as [->|]; auto. exfalso. pose proof (ent_pos w kb Hkb x (M x)). lia.
Qed.

Lemma rep_ext : forall D M M', rep D M -> (forall k, 0 <= k < 2 ^ kb -> M k = M' k) -> rep D M'.
Proof. intros D M M' [HI HR] E. split; auto. intros k Hk. rewrite <- E by auto. auto. Qed.

Lemma increase_spec : forall D M k v, rep D M ->
  cm_valid_op KN (2 ^ vbits) size M (CInc k v) ->
  exists D', ch_increase w kb size full D k v = Some (D', M k =? 0) /\ rep D' (cm_step M (CInc k v)).
Proof.
  intros D M k v HR (Hk & Hv & Hs & Hc). rewrite KN_Z in Hk. assert (HR' := HR). destruct HR' as [[r HI] HR'].
  destruct (HR' k Hk) as (Hb & Hz & Hx). unfold ch_increase.
  destruct (Z.eq_dec (M k) 0) as [E|E].
  - destruct (find_absent w kb b full D k ltac:(lia) (Hz E)) as (p & -> & Hp & Ep & Hpath).
    { apply (rep_empty_slot D M HR). unfold cm_size in *.
      assert (Hi : incl (k :: cm_keys KN M) (cm_keys KN (cm_step M (CInc k v)))).
      { intros x Hxi. apply in_keys. cbn [cm_step]. destruct Hxi as [<-|Hxi].
        - rewrite Z.eqb_refl. lia.
        - apply in_keys in Hxi. destruct (Z.eqb_spec x k); [subst; lia|auto]. }
      apply NoDup_incl_length in Hi; [cbn [length] in Hi; lia|]. constructor; [|apply nodup_keys].
      rewrite in_keys. tauto. }
    eexists. split; [rewrite E; reflexivity|].
    rewrite val_0, encode_ent by (auto; lia). eapply rep_ext; [apply rep_insert; eauto; lia|].
    intros x _. cbn. destruct (Z.eqb_spec x k); subst; lia.
  - destruct (Hx E) as (p & Hp & Ep). pose proof (ent_pos w kb Hkb k (M k)).
    rewrite (find_present w kb b full D r k p HI); try lia; [|rewrite Ep, ent_key by (auto; lia); reflexivity].
    rewrite Ep, ent_val by (auto; lia). eexists. split.
    { f_equal. f_equal. destruct (Z.eqb_spec (ent k (M k)) 0), (Z.eqb_spec (M k) 0); auto; lia. }
    rewrite encode_ent by (auto; lia).
    eapply rep_ext; [apply (rep_update D M k p (M k + v)); auto; try lia|].
    + rewrite Ep, ent_key by (auto; lia). reflexivity.
    + intros x _. cbn. destruct (Z.eqb_spec x k); subst; lia.
Qed.

Lemma decrease_spec : forall D M k v, rep D M -> (full = false -> (cm_size KN M < size)%nat) ->
  cm_valid_op KN (2 ^ vbits) size M (CDec k v) ->
  exists D', ch_decrease w kb size full D k v = Some (D', M k - v =? 0) /\ rep D' (cm_step M (CDec k v)).
Proof.
  intros D M k v HR Hsz (Hk & Hv). rewrite KN_Z in Hk. assert (HR' := HR). destruct HR' as [[r HI] HR'].
  destruct (HR' k Hk) as (Hb & Hz & Hx). unfold ch_decrease.
  destruct (Hx ltac:(lia)) as (p & Hp & Ep). pose proof (ent_pos w kb Hkb k (M k) ltac:(lia) ltac:(lia)) as Hpos.
  assert (Hkp : K (at_ p D) = k) by (rewrite Ep, ent_key by (auto; lia); reflexivity).
  rewrite (find_present w kb b full D r k p HI); try lia.
  rewrite Ep, ent_val by (auto; lia). destruct (Z.ltb_spec v (M k)) as [Hlt|Hge].
  - eexists. split.
    { f_equal. f_equal. symmetry. apply Z.eqb_neq. lia. }
    replace (ent k (M k) - v) with (ent k (M k - v)) by (unfold CompactHashProofs.ent; lia).
    eapply rep_ext; [apply (rep_update D M k p (M k - v)); auto; lia|].
    intros x _. cbn. destruct (Z.eqb_spec x k); subst; lia.
  - assert (HE : einv w kb b D D r p p 0).
    { split; auto; try lia.
      - apply (i_len _ _ _ _ _ HI).
      - unfold dist. destruct (Nat.leb_spec p p); lia.
      - intros e He. reflexivity.
      - apply (i_ok _ _ _ _ _ HI).
      - intros; eapply i_key; eauto.
      - intros; eapply i_path; eauto.
      - intros q Hq Hqp Hn Hd. exfalso. unfold dist in Hd. destruct (Nat.leb_spec p q); lia. }
    destruct (erase_loop_spec w kb b full Hkb size D D r p p p 0 HE) as (D' & r' & EL & HI' & HS); auto; try lia.
    { unfold dist. destruct (Nat.leb_spec p p); lia. }
    { intros Ef. destruct (rep_empty_slot D M HR (Hsz Ef)) as (z & Z1 & Z2). exists z. split; auto. split; auto.
      assert (z <> p) by (intros ->; lia). unfold dist. destruct (Nat.leb_spec p z); lia. }
    rewrite EL. exists D'. split; [f_equal; f_equal; symmetry; apply Z.eqb_eq; lia|].
    split; [eauto|]. intros x Hxr. cbn [cm_step]. destruct (HR' x Hxr) as (Hb' & Hz' & Hx').
    destruct (Z.eqb_spec x k) as [->|Hxk].
    + split; [lia|]. split; [|lia]. intros _ q Hq Hn Ek.
      destruct (HS (at_ q D') Hn) as [HS1 _]. destruct HS1 as (q' & Hq' & Hne & Eq'); [eauto|].
      apply Hne. apply (i_key _ _ _ _ _ HI); auto; try lia; try congruence.
    + split; auto. split.
      * intros E q Hq Hn Ek. destruct (HS (at_ q D') Hn) as [HS1 _]. destruct HS1 as (q' & Hq' & Hne & Eq'); [eauto|].
        apply (Hz' E q' Hq'); congruence.
      * intros E. destruct (Hx' E) as (q & Hq & Eq). pose proof (ent_pos w kb Hkb x (M x) ltac:(lia) ltac:(lia)).
        destruct (HS (ent x (M x)) ltac:(lia)) as [_ HS2]. destruct HS2 as (q' & Hq' & Eq').
        { exists q. split; auto. split; auto. intros ->. apply Hxk. rewrite <- Hkp, Eq, ent_key by (auto; lia). reflexivity. }
        exists q'. auto.
Qed.

Lemma rep_init : rep (repeat 0 size) (fun _ => 0).
Proof.
  assert (HU : forall q, at_ q (repeat 0 size) = 0).
  { intros q. destruct (Nat.lt_ge_cases q size); [|apply nth_overflow; rewrite repeat_length; lia].
    apply (repeat_spec size). apply nth_In. rewrite repeat_length. auto. }
  split.
  - exists (fun _ => 0%nat). split.
    + apply repeat_length.
    + intros p _. rewrite HU. lia.
    + intros p q _ _. rewrite HU. lia.
    + intros p _. rewrite HU. lia.
  - intros k Hk. pose proof (Z.pow_pos_nonneg 2 vbits ltac:(lia) ltac:(unfold vb; lia)). split; [lia|]. split; [|lia].
    intros _ p _. rewrite HU. lia.
Qed.

Lemma size_dec : forall M k v, 0 <= k < 2 ^ kb -> M k <> 0 ->
  (cm_size KN (cm_step M (CDec k v)) <= cm_size KN M)%nat.
Proof.
  intros M k v Hk Hm. unfold cm_size. apply NoDup_incl_length; [apply nodup_keys|].
  intros x Hx. apply in_keys in Hx. apply in_keys. cbn in Hx. destruct (Z.eqb_spec x k); subst; tauto.
Qed.

Definition cap : nat := if full then size else pred size.
Lemma run_spec : forall ops D M, rep D M -> (cm_size KN M <= cap)%nat -> cm_valid KN (2 ^ vbits) cap M ops ->
  exists D', ch_run w kb size full ops D = Some (D', cm_rets M ops) /\ rep D' (cm_run ops M) /\
             (cm_size KN (cm_run ops M) <= cap)%nat.
Proof.
  pose proof (size_pos b) as Hs0. unfold cap.
  induction ops as [|o ops IH]; intros D M HR Hs HV; cbn [ch_run].
  - exists D. auto.
  - destruct HV as [HV1 HV2].
    assert (exists D', ch_step w kb size full D o = Some (D', match o with CInc k v => M k =? 0 | CDec k v => M k - v =? 0 end) /\
                       rep D' (cm_step M o) /\ (cm_size KN (cm_step M o) <= cap)%nat) as (D' & E & HR1 & Hs1).
    { destruct o as [k v|k v].
      - destruct (increase_spec D M k v HR) as (D' & E & H1).
        { destruct HV1 as (A & B & C & F). repeat split; auto; try lia. destruct full; lia. }
        exists D'. split; [exact E|]. split; auto. apply HV1.
      - destruct (decrease_spec D M k v HR) as (D' & E & H1).
        { intros ->. lia. }
        { exact HV1. }
        exists D'. split; [exact E|]. split; auto. destruct HV1 as [A B]. rewrite KN_Z in A.
        etransitivity; [apply size_dec; lia|]. exact Hs. }
    rewrite E. destruct (IH D' (cm_step M o) HR1 Hs1 HV2) as (D2 & E2 & HR2 & Hs2).
    rewrite E2. exists D2. cbn [cm_rets]. auto.
Qed.

Lemma for_each_spec : forall D M, rep D M ->
  Permutation (ch_for_each w kb size D) (map (fun k => (k, M k)) (cm_keys KN M)).
Proof.
  intros D M HR.
  assert (E : ch_for_each w kb size D = map (fun k => (k, M k)) (map (fun i => K (at_ i D)) (slots b D))).
  { unfold ch_for_each, slots.
    assert (G : forall l, (forall i, In i l -> (i < size)%nat) ->
      flat_map (fun i => if at_ i D =? 0 then [] else [(K (at_ i D), ch_val w kb (at_ i D))]) l =
      map (fun k => (k, M k)) (map (fun i => K (at_ i D)) (filter (fun i => negb (at_ i D =? 0)) l))).
    { induction l as [|a l IH]; intros Hl; auto. cbn [flat_map filter].
      rewrite IH by (intros; apply Hl; right; auto).
      destruct (Z.eqb_spec (at_ a D) 0) as [E0|E0]; cbn [negb map app]; auto. f_equal. f_equal.
      destruct (rep_slot D M a HR) as (A & B & C); auto; [apply Hl; left; auto|].
      rewrite C at 1. destruct HR as [_ HR]. destruct (HR _ A) as [Hb _]. apply ent_val; auto. }
    apply G. intros i Hi. apply in_seq in Hi. lia. }
  rewrite E. apply Permutation_map. apply slots_keys; auto.
Qed.

Theorem compact_hash_spec : forall ops, cm_valid KN (2 ^ vbits) cap (fun _ => 0) ops ->
  exists D, ch_run w kb size full ops (repeat 0 size) = Some (D, cm_rets (fun _ => 0) ops) /\
    (forall k, 0 <= k < 2 ^ kb -> ch_get w kb size full D k = Some (cm_run ops (fun _ => 0) k)) /\
    ch_count size D = cm_size KN (cm_run ops (fun _ => 0)) /\
    Permutation (ch_for_each w kb size D) (map (fun k => (k, cm_run ops (fun _ => 0) k)) (cm_keys KN (cm_run ops (fun _ => 0)))).
Proof.
  intros ops HV. pose proof (size_pos b) as Hs0.
  destruct (run_spec ops _ _ rep_init) as (D & E & HR & Hs); auto.
  { unfold cm_size, cm_keys. cbn. assert (G : forall l : list Z, filter (fun _ => false) l = []) by (induction l; auto).
    rewrite G. cbn. lia. }
  exists D. split; auto. split; [|split].
  - intros k Hk. apply get_spec; auto. intros Ef. unfold cap in Hs. rewrite Ef in Hs. lia.
  - unfold ch_count. pose proof (Permutation_length (slots_keys _ _ HR)) as HP. rewrite map_length in HP. exact HP.
  - apply for_each_spec; auto.
Qed.
End P.
