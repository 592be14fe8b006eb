(* Compressing a range of nodes: the bytes do not depend on what was written before. *)
From Verif Require Import Lib.Prelude Lib.Slice Lib.Count Model.VarintModel Model.CompressModel Model.CompressParModel.
Local Open Scope Z_scope.

Definition cg (M x y : Z) : Prop := exists k, x = y + k * M.
Lemma cg_refl M x : cg M x x. Proof. exists 0. lia. Qed.
Lemma cg_trans M a b d a' b' d' : cg M (b - a) (b' - a') -> cg M (d - b) (d' - b') -> cg M (d - a) (d' - a').
Proof. intros (k1 & H1) (k2 & H2). exists (k1 + k2). lia. Qed.
Lemma wrap_s_cg w x : 0 < w -> cg (2 ^ w) (wrap_s w x) x.
Proof.
  intros H. unfold wrap_s. exists (- ((x + 2 ^ (w - 1)) / 2 ^ w)).
  pose proof (Z.div_mod (x + 2 ^ (w - 1)) (2 ^ w) ltac:(pose proof (Z.pow_pos_nonneg 2 w ltac:(lia) ltac:(lia)); lia)). lia.
Qed.
Definition ins (w x : Z) : Prop := wrap_s w x = x.
Lemma ins_wrap w x : 0 < w -> ins w (wrap_s w x).
Proof.
  intros H. unfold ins, wrap_s. f_equal. assert (0 < 2 ^ w) by (apply Z.pow_pos_nonneg; lia).
  replace ((x + 2 ^ (w - 1)) mod 2 ^ w - 2 ^ (w - 1) + 2 ^ (w - 1)) with ((x + 2 ^ (w - 1)) mod 2 ^ w) by lia.
  now rewrite Z.mod_mod by lia.
Qed.
Lemma cg_wrap w x y : 0 < w -> cg (2 ^ w) x y -> wrap_s w x = wrap_s w y.
Proof.
  intros H (k & ->). unfold wrap_s. f_equal. replace (y + k * 2 ^ w + 2 ^ (w - 1)) with (y + 2 ^ (w - 1) + k * 2 ^ w) by lia.
  apply Z.mod_add. pose proof (Z.pow_pos_nonneg 2 w ltac:(lia) ltac:(lia)). lia.
Qed.

Section Tot.
Variable c : cconf.
Hypothesis Hwe : 0 < c_we c.
Notation M := (2 ^ c_we c).

(** The results of an encoder from two states that differ in the total weight only. *)
Definition srel (st st' st1 st1' : wstate) : Prop :=
  fst st1 = fst st1' /\ cg M (snd st1 - snd st) (snd st1' - snd st') /\ (ins (c_we c) (snd st) -> ins (c_we c) (snd st1)).
Lemma srel_refl st st' : fst st = fst st' -> srel st st' st st'.
Proof. intros H. split; [auto|split; [exists 0; lia|auto]]. Qed.
Lemma srel_trans a a' b b' d d' : srel a a' b b' -> srel b b' d d' -> srel a a' d d'.
Proof. intros (H1 & H2 & H3) (H4 & H5 & H6). split; [auto|split; [eapply cg_trans; eauto|auto]]. Qed.

Lemma ew_rel w st st' : fst st = fst st' ->
  fst (encode_edge_weight c w st) = fst (encode_edge_weight c w st') /\
  srel st st' (snd (encode_edge_weight c w st)) (snd (encode_edge_weight c w st')).
Proof.
  intros H. unfold encode_edge_weight. destruct (c_ew c); [|split; [auto|apply srel_refl; auto]].
  cbn [fst snd]. rewrite H. split; auto. split; [auto|]. cbn [snd]. split; [|intros _; now apply ins_wrap].
  destruct (wrap_s_cg (c_we c) (snd st + w) Hwe) as (k1 & E1). destruct (wrap_s_cg (c_we c) (snd st' + w) Hwe) as (k2 & E2).
  exists (k1 - k2). lia.
Qed.
Lemma body_rel len : forall pos nb st st', fst st = fst st' ->
  fst (fst (encode_interval_body c len pos nb st)) = fst (fst (encode_interval_body c len pos nb st')) /\
  snd (encode_interval_body c len pos nb st) = snd (encode_interval_body c len pos nb st') /\
  srel st st' (snd (fst (encode_interval_body c len pos nb st))) (snd (fst (encode_interval_body c len pos nb st'))).
Proof.
  induction len as [|len IH]; intros pos nb st st' H; cbn [encode_interval_body]; [cbn [fst snd]; split; [auto|split; [auto|apply srel_refl; auto]]|].
  set (nb1 := upd pos _ nb). destruct (ew_rel (snd (nth pos nb1 (0, 0))) st st' H) as (E1 & E2).
  destruct (encode_edge_weight c _ st) as [b1 s1], (encode_edge_weight c _ st') as [b1' s1']. cbn [fst snd] in E1, E2. subst b1'.
  destruct (IH (S pos) nb1 s1 s1' (proj1 E2)) as (F1 & F2 & F3).
  destruct (encode_interval_body c len (S pos) nb1 s1) as [[b2 s2] n2], (encode_interval_body c len (S pos) nb1 s1') as [[b2' s2'] n2'].
  cbn [fst snd] in *. subst. split; [auto|split; [auto|eapply srel_trans; eauto]].
Qed.
Lemma ilist_rel ivs : forall pr nb st st' r, fst st = fst st' ->
  let a := encode_interval_list c ivs pr nb st r in let a' := encode_interval_list c ivs pr nb st' r in
  fst (fst (fst a)) = fst (fst (fst a')) /\ snd (fst a) = snd (fst a') /\ snd a = snd a' /\ srel st st' (snd (fst (fst a))) (snd (fst (fst a'))).
Proof.
  induction ivs as [|[[[l rg] ln] ix] ivs IH]; intros pr nb st st' r H; cbn [encode_interval_list].
  { cbn. split; [auto|split; [auto|split; [auto|apply srel_refl; auto]]]. }
  destruct (body_rel (Z.to_nat ln) ix nb st st' H) as (E1 & E2 & E3).
  destruct (encode_interval_body c _ ix nb st) as [[b1 s1] n1], (encode_interval_body c _ ix nb st') as [[b1' s1'] n1']. cbn [fst snd] in *. subst.
  specialize (IH (wrap_u (c_wn c) (rg + 2)) n1' s1 s1' (r - ln) (proj1 E3)). cbv zeta in IH.
  destruct (encode_interval_list c ivs _ n1' s1 (r - ln)) as [[[b2 s2] n2] r2], (encode_interval_list c ivs _ n1' s1' (r - ln)) as [[[b2' s2'] n2'] r2'].
  cbn [fst snd] in *. destruct IH as (-> & -> & -> & IH). split; [auto|split; [auto|split; [auto|eapply srel_trans; eauto]]].
Qed.
Lemma gap_rel nb : forall pv st st', fst st = fst st' ->
  fst (encode_gap_loop c pv nb st) = fst (encode_gap_loop c pv nb st') /\
  srel st st' (snd (encode_gap_loop c pv nb st)) (snd (encode_gap_loop c pv nb st')).
Proof.
  induction nb as [|[v w] nb IH]; intros pv st st' H; cbn [encode_gap_loop]; [split; [auto|apply srel_refl; auto]|].
  destruct (v =? kInvalidNodeID c); [apply IH; auto|].
  destruct (ew_rel w st st' H) as (E1 & E2).
  destruct (encode_edge_weight c w st) as [b1 s1], (encode_edge_weight c w st') as [b1' s1']. cbn [fst snd] in E1, E2. subst b1'.
  destruct (IH v s1 s1' (proj1 E2)) as (F1 & F2).
  destruct (encode_gap_loop c v nb s1) as [b2 s2], (encode_gap_loop c v nb s1') as [b2' s2']. cbn [fst snd] in *. subst.
  split; [auto|eapply srel_trans; eauto].
Qed.
Lemma gaps_rel node dg nb st st' : fst st = fst st' ->
  fst (encode_gaps c node dg nb st) = fst (encode_gaps c node dg nb st') /\
  srel st st' (snd (encode_gaps c node dg nb st)) (snd (encode_gaps c node dg nb st')).
Proof.
  intros H. unfold encode_gaps. destruct (dg =? 0); [split; [auto|apply srel_refl; auto]|].
  destruct (skip_invalid c nb) as [|[v w] nb']; [split; [auto|apply srel_refl; auto]|].
  destruct (ew_rel w st st' H) as (E1 & E2).
  destruct (encode_edge_weight c w st) as [b1 s1], (encode_edge_weight c w st') as [b1' s1']. cbn [fst snd] in E1, E2. subst b1'.
  destruct (gap_rel nb' v s1 s1' (proj1 E2)) as (F1 & F2).
  destruct (encode_gap_loop c v nb' s1) as [b2 s2], (encode_gap_loop c v nb' s1') as [b2' s2']. cbn [fst snd] in *. subst.
  split; [auto|eapply srel_trans; eauto].
Qed.
Definition trel (t t' t1 t1' : Z) : Prop := cg M (t1 - t) (t1' - t') /\ (ins (c_we c) t -> ins (c_we c) t1).
Lemma trel_trans a a' b b' d d' : trel a a' b b' -> trel b b' d d' -> trel a a' d d'.
Proof. intros (H2 & H3) (H5 & H6). split; [eapply cg_trans; eauto|auto]. Qed.
Lemma trel_refl t t' : trel t t' t t'. Proof. split; [exists 0; lia|auto]. Qed.
Lemma edges_rel node ni nb t t' :
  fst (add_edges c node ni nb t) = fst (add_edges c node ni nb t') /\ trel t t' (snd (add_edges c node ni nb t)) (snd (add_edges c node ni nb t')).
Proof.
  unfold add_edges. destruct (c_iv c).
  - unfold encode_intervals. destruct (0 <? ni).
    + pose proof (ilist_rel (parse_intervals (c_wn c) nb) 0 nb (0, t) (0, t') (Z.of_nat (length nb)) eq_refl) as H. cbv zeta in H.
      destruct (encode_interval_list c _ 0 nb (0, t) _) as [[[b1 s1] n1] r1], (encode_interval_list c _ 0 nb (0, t') _) as [[[b1' s1'] n1'] r1'].
      cbn [fst snd] in H. destruct H as (-> & -> & -> & E).
      destruct (gaps_rel node r1' n1' s1 s1' (proj1 E)) as (F1 & F2).
      destruct (encode_gaps c node r1' n1' s1) as [b2 s2], (encode_gaps c node r1' n1' s1') as [b2' s2']. cbn [fst snd] in *. subst.
      split; auto. destruct (srel_trans _ _ _ _ _ _ E F2) as (_ & G1 & G2). split; auto.
    + destruct (gaps_rel node (Z.of_nat (length nb)) nb (0, t) (0, t') eq_refl) as (F1 & F2).
      destruct (encode_gaps c node _ nb (0, t)) as [b2 s2], (encode_gaps c node _ nb (0, t')) as [b2' s2']. cbn [fst snd] in *. subst.
      split; auto. destruct F2 as (_ & G1 & G2). split; auto.
  - destruct (gaps_rel node (Z.of_nat (length nb)) nb (0, t) (0, t') eq_refl) as (F1 & F2).
    destruct (encode_gaps c node _ nb (0, t)) as [b2 s2], (encode_gaps c node _ nb (0, t')) as [b2' s2']. cbn [fst snd] in *. subst.
    split; auto. destruct F2 as (_ & G1 & G2). split; auto.
Qed.
Lemma parts_rel node nb ps : forall o t t',
  fst (encode_part_loop c node nb ps o t) = fst (encode_part_loop c node nb ps o t') /\
  trel t t' (snd (encode_part_loop c node nb ps o t)) (snd (encode_part_loop c node nb ps o t')).
Proof.
  induction ps as [|p ps IH]; intros o t t'; cbn [encode_part_loop]; [split; [auto|apply trel_refl]|].
  set (ni := if c_iv c then count_intervals (c_wn c) (part_of nb p) else 0).
  destruct (edges_rel node ni (part_of nb p) t t') as (E1 & E2).
  destruct (add_edges c node ni (part_of nb p) t) as [b1 t1], (add_edges c node ni (part_of nb p) t') as [b1' t1']. cbn [fst snd] in *. subst b1'.
  destruct (IH (o + Z.of_nat (length b1)) t1 t1') as (F1 & F2).
  destruct (encode_part_loop c node nb ps _ t1) as [[x2 b2] t2], (encode_part_loop c node nb ps _ t1') as [[x2' b2'] t2']. cbn [fst snd] in *.
  injection F1 as -> ->. split; auto. eapply trel_trans; eauto.
Qed.
Lemma sorted_rel node nb t t' :
  fst (add_sorted c node nb t) = fst (add_sorted c node nb t') /\ trel t t' (snd (add_sorted c node nb t)) (snd (add_sorted c node nb t')).
Proof.
  unfold add_sorted. destruct (Nat.eqb (length nb) 0); [split; [auto|apply trel_refl]|].
  destruct (c_hd c && (kHighDegreeThreshold <=? Z.of_nat (length nb))).
  - pose proof (parts_rel node nb (seq 0 (num_parts (length nb))) (Z.of_nat (id_bytes c * num_parts (length nb))) t t') as (F1 & F2).
    destruct (encode_part_loop c node nb _ _ t) as [[x2 b2] t2], (encode_part_loop c node nb _ _ t') as [[x2' b2'] t2']. cbn [fst snd] in *.
    injection F1 as -> ->. split; auto.
  - set (ni := if c_iv c && negb false then count_intervals (c_wn c) nb else 0).
    destruct (edges_rel node ni nb t t') as (E1 & E2).
    destruct (add_edges c node ni nb t) as [b1 t1], (add_edges c node ni nb t') as [b1' t1']. cbn [fst snd] in *. subst b1'. auto.
Qed.

Variable sort : list nbr -> list nbr.
Hypothesis Hwi : 0 < c_wi c.
Lemma wrap_u_add a b : wrap_u (c_wi c) (a + wrap_u (c_wi c) b) = wrap_u (c_wi c) (a + b).
Proof. unfold wrap_u. rewrite Z.add_mod_idemp_r; auto. pose proof (Z.pow_pos_nonneg 2 (c_wi c) ltac:(lia) ltac:(lia)). lia. Qed.
Lemma build_shift nbs : forall node data t t',
  let r := build_loop c sort node nbs data t in let r0 := build_loop c sort node nbs [] t' in
  length (fst (fst r)) = length nbs /\
  (forall i, (i < length nbs)%nat -> nth i (fst (fst r)) 0 = wrap_u (c_wi c) (Z.of_nat (length data) + nth i (fst (fst r0)) 0)) /\
  snd (fst r) = data ++ snd (fst r0) /\ trel t t' (snd r) (snd r0).
Proof.
  induction nbs as [|nb nbs IH]; intros node data t t'; cbn [build_loop]; cbv zeta.
  { cbn. repeat split; auto; try lia. - now rewrite app_nil_r. - exists 0; lia. }
  destruct (sorted_rel (Z.of_nat node) (sort nb) t t') as (E1 & E2).
  destruct (add_sorted c _ (sort nb) t) as [b t1], (add_sorted c _ (sort nb) t') as [b' t1']. cbn [fst snd] in E1, E2. subst b'.
  pose proof (IH (S node) (data ++ b) t1 t1') as I1. pose proof (IH (S node) ([] ++ b) t1' t1') as I2. cbv zeta in I1, I2.
  destruct (build_loop c sort (S node) nbs (data ++ b) t1) as [[o1 d1] u1]. destruct (build_loop c sort (S node) nbs ([] ++ b) t1') as [[o2 d2] u2].
  destruct (build_loop c sort (S node) nbs [] t1') as [[o3 d3] u3]. cbn [fst snd length app] in *.
  destruct I1 as (L1 & N1 & D1 & T1). destruct I2 as (L2 & N2 & D2 & T2).
  split; [lia|]. split; [|split].
  - intros [|i] Hi; cbn [nth].
    + rewrite wrap_u_add. f_equal. cbn. lia.
    + rewrite N1, N2 by lia. rewrite wrap_u_add, app_length, Nat2Z.inj_add. f_equal. lia.
  - rewrite D1, D2, app_assoc. reflexivity.
  - eapply trel_trans; [exact E2|]. destruct T1 as (T1 & T1'), T2 as (T2 & T2'). split; auto.
    destruct T1 as (k1 & T1), T2 as (k2 & T2). exists (k1 - k2). lia.
Qed.
Lemma build_app a : forall b node t,
  let ra := build_loop c sort node a [] t in let rb := build_loop c sort (node + length a) b [] 0 in
  let r := build_loop c sort node (a ++ b) [] t in
  (forall i, (i < length a)%nat -> nth i (fst (fst r)) 0 = nth i (fst (fst ra)) 0) /\
  (forall i, (i < length b)%nat -> nth (length a + i) (fst (fst r)) 0 = wrap_u (c_wi c) (Z.of_nat (length (snd (fst ra))) + nth i (fst (fst rb)) 0)) /\
  snd (fst r) = snd (fst ra) ++ snd (fst rb) /\ cg M (snd r) (snd ra + snd rb) /\ (ins (c_we c) t -> ins (c_we c) (snd r)).
Proof.
  assert (G : forall a b node data t,
    let ra := build_loop c sort node a data t in let rb := build_loop c sort (node + length a) b [] 0 in
    let r := build_loop c sort node (a ++ b) data t in
    (forall i, (i < length a)%nat -> nth i (fst (fst r)) 0 = nth i (fst (fst ra)) 0) /\
    (forall i, (i < length b)%nat -> nth (length a + i) (fst (fst r)) 0 = wrap_u (c_wi c) (Z.of_nat (length (snd (fst ra))) + nth i (fst (fst rb)) 0)) /\
    snd (fst r) = snd (fst ra) ++ snd (fst rb) /\ cg M (snd r) (snd ra + snd rb) /\ (ins (c_we c) t -> ins (c_we c) (snd r))).
  { clear a. induction a as [|x a IH]; intros b node data t; cbv zeta.
    - cbn [build_loop app length fst snd]. rewrite Nat.add_0_r. pose proof (build_shift b node data t 0) as H. cbv zeta in H.
      destruct H as (H1 & H2 & H3 & (k & H4) & H5). split; [intros; lia|]. split; [exact H2|]. split; [exact H3|]. split; [exists k; lia|exact H5].
    - cbn [build_loop app]. pose proof (sorted_rel (Z.of_nat node) (sort x) t t) as SR. destruct (add_sorted c (Z.of_nat node) (sort x) t) as [bs t1]. destruct SR as (_ & _ & SR).
      specialize (IH b (S node) (data ++ bs) t1). cbv zeta in IH.
      replace (node + length (x :: a))%nat with (S node + length a)%nat by (cbn [length]; lia).
      destruct (build_loop c sort (S node) (a ++ b) (data ++ bs) t1) as [[o1 d1] u1]. destruct (build_loop c sort (S node) a (data ++ bs) t1) as [[o2 d2] u2].
      cbn [fst snd] in *. destruct IH as (I1 & I2 & I3 & I4 & I5). split; [|split; [|split; [|split]]]; auto.
      + intros [|i] Hi; cbn [nth length] in *; [auto|apply I1; lia].
      }
  intros. apply G.
Qed.
End Tot.

(** ** The chunks cover the nodes *)
Fixpoint tiles (s n : nat) (l : list (nat * nat * Z)) : Prop :=
  match l with
  | [] => s = n
  | (a, b, _) :: l' => a = s /\ (a < b)%nat /\ tiles b n l'
  end.
Lemma tiles_le l : forall s n, tiles s n l -> (s <= n)%nat.
Proof. induction l as [|[[a b] f] l IH]; intros s n H; cbn in H; [lia|]. destruct H as (-> & H1 & H2). apply IH in H2. lia. Qed.
Lemma chunk_loop_tiles mo degs : forall i start o fe, (start <= i)%nat -> tiles start (i + length degs) (chunk_loop mo i start o fe degs).
Proof.
  induction degs as [|d degs IH]; intros i start o fe H; cbn [chunk_loop length].
  - destruct (Nat.eqb_spec start i) as [E|E]; cbn; lia.
  - replace (i + S (length degs))%nat with (S i + length degs)%nat by lia.
    destruct (mo <=? o + d); [|apply IH; lia]. destruct (Nat.eqb_spec start i) as [E|E]; cbn [tiles].
    + subst. split; [auto|split; [lia|apply IH; lia]].
    + split; [auto|split; [lia|apply IH; lia]].
Qed.
Lemma chunks_tile m degs : tiles 0 (length degs) (compute_chunks m degs).
Proof. apply (chunk_loop_tiles (m / kNumChunks) degs 0 0 0 0). lia. Qed.

Notation dch0 := (0%nat, 0%nat, 0).
Lemma tiles_nth l : forall s n ch, tiles s n l -> (ch < length l)%nat ->
  (s <= fst (fst (nth ch l dch0)))%nat /\ (fst (fst (nth ch l dch0)) < snd (fst (nth ch l dch0)) <= n)%nat /\
  ((ch = 0)%nat -> fst (fst (nth ch l dch0)) = s) /\
  (forall ch', (ch < ch' < length l)%nat -> (snd (fst (nth ch l dch0)) <= fst (fst (nth ch' l dch0)))%nat).
Proof.
  induction l as [|[[a b] f] l IH]; intros s n ch H Hc; [cbn in Hc; lia|]. cbn in H. destruct H as (-> & H1 & H2).
  pose proof (tiles_le _ _ _ H2). destruct ch as [|ch]; cbn [nth fst snd length] in *.
  - repeat split; auto; try lia. intros [|ch'] Hc'; [lia|]. cbn [nth]. destruct (IH b n ch' H2 ltac:(lia)) as (X & _). exact X.
  - destruct (IH b n ch H2 ltac:(lia)) as (X1 & X2 & _ & X3). repeat split; try lia.
    intros [|ch'] Hc'; [lia|]. cbn [nth]. apply X3. lia.
Qed.
Lemma tiles_cover l : forall s n u, tiles s n l -> (s <= u < n)%nat ->
  exists ch, (ch < length l)%nat /\ (fst (fst (nth ch l dch0)) <= u < snd (fst (nth ch l dch0)))%nat.
Proof.
  induction l as [|[[a b] f] l IH]; intros s n u H Hu; cbn in H; [lia|]. destruct H as (-> & H1 & H2).
  destruct (Nat.lt_ge_cases u b) as [L|G].
  - exists 0%nat. cbn. lia.
  - destruct (IH b n u H2 ltac:(lia)) as (ch & X1 & X2). exists (S ch). cbn [length nth]. split; [lia|auto].
Qed.

Section Seq.
Variable c : cconf.
Variable sort : list nbr -> list nbr.
Variable nbs : list (list nbr).
Hypothesis Hwe : 0 < c_we c.
Hypothesis Hwi : 0 < c_wi c.
Lemma skipn_slice s b : (s <= b)%nat -> skipn s nbs = slice nbs s (b - s) ++ skipn b nbs.
Proof.
  intros H. unfold slice. rewrite <- (firstn_skipn (b - s) (skipn s nbs)) at 1. f_equal. rewrite skipn_skipn. f_equal. lia.
Qed.
Lemma slice_len s b : (s <= b <= length nbs)%nat -> length (slice nbs s (b - s)) = (b - s)%nat.
Proof. intros H. unfold slice. rewrite firstn_length, skipn_length. lia. Qed.

Lemma offs_len l s ch : tiles s (length nbs) l -> (ch < length l)%nat ->
  length (chunk_offs c sort nbs l ch) = (snd (fst (nth ch l dch0)) - fst (fst (nth ch l dch0)))%nat.
Proof.
  intros HT Hc. destruct (tiles_nth _ _ _ _ HT Hc) as (H1 & H2 & _). unfold chunk_offs, chunk_result.
  destruct (nth ch l dch0) as [[a b] f]. cbn [fst snd] in *.
  destruct (build_shift c Hwe sort Hwi (slice nbs a (b - a)) a [] 0 0) as (L & _). rewrite slice_len in L by lia. exact L.
Qed.
Lemma seq_chunks l : forall s, tiles s (length nbs) l ->
  let r := build_loop c sort s (skipn s nbs) [] 0 in
  let sz := fun ch => Z.of_nat (length (chunk_data c sort nbs l ch)) in
  (forall ch i, (ch < length l)%nat -> (i < length (chunk_offs c sort nbs l ch))%nat ->
     nth (chunk_start l ch - s + i) (fst (fst r)) 0 = wrap_u (c_wi c) (sumn ch sz + nth i (chunk_offs c sort nbs l ch) 0)) /\
  (forall ch j, (ch < length l)%nat -> (j < length (chunk_data c sort nbs l ch))%nat ->
     nth_error (snd (fst r)) (Z.to_nat (sumn ch sz) + j) = nth_error (chunk_data c sort nbs l ch) j) /\
  Z.of_nat (length (snd (fst r))) = sumn (length l) sz /\
  cg (2 ^ c_we c) (snd r) (sumn (length l) (chunk_tot c sort nbs l)) /\ ins (c_we c) (snd r) /\
  length (fst (fst r)) = (length nbs - s)%nat.
Proof.
  induction l as [|[[a b] f] l IH]; intros s HT; cbn [tiles] in HT; cbv zeta.
  { subst s. rewrite skipn_all. cbn. repeat split; try lia. - exists 0. lia. - unfold ins, wrap_s. rewrite Z.mod_small; [lia|].
    split; [apply Z.pow_nonneg; lia|]. apply Z.pow_lt_mono_r; lia. }
  destruct HT as (-> & Hab & HT). pose proof (tiles_le _ _ _ HT) as Hbn. specialize (IH b HT). cbv zeta in IH.
  rewrite (skipn_slice s b) by lia. pose proof (slice_len s b ltac:(lia)) as SL.
  pose proof (build_app c Hwe sort Hwi (slice nbs s (b - s)) (skipn b nbs) s 0) as A. cbv zeta in A. rewrite SL in A.
  replace (s + (b - s))%nat with b in A by lia.
  assert (E0 : chunk_result c sort nbs ((s, b, f) :: l) 0 = build_loop c sort s (slice nbs s (b - s)) [] 0) by reflexivity.
  assert (ES : forall ch, chunk_result c sort nbs ((s, b, f) :: l) (S ch) = chunk_result c sort nbs l ch) by reflexivity.
  assert (Est : forall ch, chunk_start ((s, b, f) :: l) (S ch) = chunk_start l ch) by reflexivity.
  unfold chunk_offs, chunk_data, chunk_tot in *.
  pose proof (build_shift c Hwe sort Hwi (slice nbs s (b - s)) s [] 0 0) as (LB & W0 & _). rewrite SL in LB, W0. cbn [length] in W0.
  pose proof (build_shift c Hwe sort Hwi (slice nbs s (b - s) ++ skipn b nbs) s [] 0 0) as (LR & _). rewrite app_length, SL, skipn_length in LR.
  destruct (build_loop c sort s (slice nbs s (b - s) ++ skipn b nbs) [] 0) as [[o d] t].
  destruct (build_loop c sort s (slice nbs s (b - s)) [] 0) as [[oa da] ta].
  destruct (build_loop c sort b (skipn b nbs) [] 0) as [[ob db] tb]. cbn [fst snd] in *.
  destruct A as (A1 & A2 & A3 & A4 & A5). destruct IH as (I1 & I2 & I3 & I4 & I5 & I6).
  assert (SS : forall ch, sumn (S ch) (fun ch => Z.of_nat (length (snd (fst (chunk_result c sort nbs ((s, b, f) :: l) ch))))) =
     Z.of_nat (length da) + sumn ch (fun ch => Z.of_nat (length (snd (fst (chunk_result c sort nbs l ch)))))).
  { intros ch. change (S ch) with (1 + ch)%nat. rewrite sumn_split, sumn_S, sumn_0, E0. cbn [fst snd]. rewrite Z.add_0_l. f_equal. }
  assert (NN : forall ch, 0 <= sumn ch (fun ch => Z.of_nat (length (snd (fst (chunk_result c sort nbs l ch)))))) by (intros; apply sumn_nonneg; intros; lia).
  split; [|split; [|split; [|split; [|split]]]].
  - intros [|ch] i Hch Hi.
    + rewrite E0 in *. cbn [fst snd] in *. change (chunk_start ((s, b, f) :: l) 0) with s. rewrite sumn_0, Nat.sub_diag, Z.add_0_l. cbn [plus].
      rewrite A1 by lia. rewrite W0 at 1 by lia. f_equal.
    + rewrite SS, ES in *. cbn [length] in Hch. specialize (I1 ch i ltac:(lia) Hi). rewrite Est.
      pose proof (offs_len l b ch HT ltac:(lia)) as OL. unfold chunk_offs in OL. destruct (tiles_nth l b _ ch HT ltac:(lia)) as (T1 & T2 & _).
      fold (chunk_start l ch) in *. rewrite OL in Hi. fold (chunk_start l ch) in Hi.
      replace (chunk_start l ch - s + i)%nat with ((b - s) + (chunk_start l ch - b + i))%nat by lia.
      rewrite A2 by (rewrite skipn_length; lia). rewrite I1, wrap_u_add by auto. f_equal. lia.
  - intros [|ch] j Hch Hj.
    + rewrite E0 in *. cbn [fst snd] in *. rewrite sumn_0. cbn [Z.to_nat plus]. rewrite A3, nth_error_app1 by lia. reflexivity.
    + rewrite SS, ES in *. cbn [length] in Hch. rewrite A3. pose proof (NN ch). rewrite nth_error_app2 by lia.
      rewrite <- (I2 ch j) by (auto; lia). f_equal. lia.
  - cbn [length]. rewrite SS, <- I3, A3, app_length. lia.
  - cbn [length]. change (S (length l)) with (1 + length l)%nat. rewrite sumn_split, sumn_S, sumn_0, E0. cbn [snd].
    destruct A4 as (k1 & A4), I4 as (k2 & I4). exists (k1 + k2). rewrite A4, I4.
    change (fun i => snd (chunk_result c sort nbs ((s, b, f) :: l) (1 + i))) with (fun i => snd (chunk_result c sort nbs l i)).
    change (sumn (length l) (fun ch => snd (chunk_result c sort nbs l ch))) with (sumn (length l) (fun i => snd (chunk_result c sort nbs l i))). lia.
  - apply A5. unfold ins, wrap_s. rewrite Z.mod_small; [lia|]. split; [apply Z.pow_nonneg; lia|]. apply Z.pow_lt_mono_r; lia.
  - lia.
Qed.
End Seq.
