(* StreamVByte for 64-bit integers without differential coding. *)
From Coq Require Import Sorting.Sorted.
From Verif Require Import Lib.Prelude Lib.Count Spec.ByteCodec Model.MathModel Model.VarintModel Model.StreamVByteModel Proofs.MathProofs Proofs.StreamVByteProofs Proofs.StreamVByteTop.
Local Open Scope Z_scope.

Definition wide_ok (v : Z) : Prop := 0 <= v < 2 ^ 64 /\ (bwidth v = 1 \/ bwidth v = 2 \/ bwidth v = 4 \/ bwidth v = 8)%nat.
Lemma wide_ranges v : 0 <= v < 2 ^ 16 \/ 2 ^ 24 <= v < 2 ^ 32 \/ 2 ^ 56 <= v < 2 ^ 64 -> wide_ok v.
Proof.
  intros H. unfold wide_ok. split; [lia|]. destruct (Z.lt_ge_cases v 256) as [L|G]; [left; apply bwidth_char; lia|right].
  destruct H as [H|[H|H]]; [left|right; left|right; right]; apply bwidth_char; cbn; lia.
Qed.
Lemma W8 : width_ok 8. Proof. right; reflexivity. Qed.
Lemma wide_bytes v : wide_ok v -> length (value_bytes 8 v) = bwidth v /\ le_bytes (value_bytes 8 v) = v /\ (1 <= bwidth v <= 8)%nat.
Proof. intros (H & _). exact (value_bytes_ok 8 v W8 H). Qed.
Lemma wide_req v : wide_ok v -> required_byte_width 8 v = bwidth v.
Proof. intros (_ & H). unfold required_byte_width. cbn [Nat.eqb]. destruct H as [-> |[-> |[-> | ->]]]; reflexivity. Qed.
Lemma wide_enc v : wide_ok v -> 0 <= encoded_byte_width 8 v <= 3 /\ actual_length 8 (encoded_byte_width 8 v) = bwidth v.
Proof. intros H. destruct (required_range 8 v W8 (proj1 H)) as (_ & A & B). split; [exact A|]. rewrite B. apply wide_req, H. Qed.
Lemma wide0 : wide_ok 0.
Proof. apply wide_ranges. left. lia. Qed.

Lemma reg64 g pre rest mem hd : Forall wide_ok g -> (length g <= 2)%nat -> mem = pre ++ gbytes 8 g ++ rest -> (16 <= length (gbytes 8 g ++ rest))%nat ->
  (forall i, (i < 2)%nat -> actual_length 8 (header hd i) = bwidth (nth i g 0)) ->
  exists data, decode_reg 8 mem (length pre) hd = Some data /\ length data = 2%nat /\ firstn (length g) data = g /\
    length_table 8 hd = (length (gbytes 8 g) + (2 - length g))%nat.
Proof.
  intros Hg Hl -> Hr Hh. unfold decode_reg, gbytes in *. rewrite load_ok by exact Hr. eexists. split; [reflexivity|]. split; [reflexivity|].
  assert (EL : lengths 8 hd = [bwidth (nth 0 g 0); bwidth (nth 1 g 0)]).
  { unfold lengths. change (lanes_per_reg 8) with 2%nat. cbn [seq map]. rewrite !Hh by lia. reflexivity. }
  assert (Iw : forall v, In v g -> wide_ok v) by (rewrite Forall_forall in Hg; exact Hg).
  assert (Nw : forall i, wide_ok (nth i g 0)). { intros i. destruct (Nat.lt_ge_cases i (length g)); [apply Iw, nth_In; assumption|rewrite nth_overflow by assumption; apply wide0]. }
  split.
  - unfold shuffle_table. rewrite EL. replace (length g) with (length (map (value_bytes 8) g)) by apply map_length. rewrite reg_ok; auto.
    + rewrite map_map. rewrite <- (map_id g) at 2. apply map_ext_in. intros v Hv. apply wide_bytes, Iw, Hv.
    + apply W8.
    + apply Forall_cons; [apply wide_bytes, Nw|]. apply Forall_cons; [apply wide_bytes, Nw|apply Forall_nil].
    + rewrite map_length, map_map, (map_ext_in _ bwidth) by (intros v Hv; apply wide_bytes, Iw, Hv).
      destruct g as [|a [|b [|c t]]]; cbn in Hl; try lia; reflexivity.
    + rewrite map_length. cbn [length]. exact Hl.
  - unfold length_table. rewrite EL, <- sum_len, map_map, (map_ext_in _ bwidth) by (intros v Hv; apply wide_bytes, Iw, Hv).
    assert (B0 : bwidth 0 = 1%nat) by reflexivity.
    destruct g as [|a [|b [|c t]]]; cbn in Hl; try lia; cbn [map nth fold_right length]; rewrite ?B0; lia.
Qed.
Lemma gbytes_app W a b : gbytes W (a ++ b) = gbytes W a ++ gbytes W b.
Proof. unfold gbytes. now rewrite map_app, concat_app. Qed.
Lemma wide_pos g : Forall wide_ok g -> g <> [] -> (1 <= length (gbytes 8 g))%nat.
Proof.
  intros H N. destruct g as [|v g]; [congruence|]. inversion H; subst. unfold gbytes. cbn [map concat]. rewrite app_length.
  destruct (wide_bytes v H2) as (-> & _ & B). lia.
Qed.
Lemma ctl64 g : Forall wide_ok g -> (length g <= 4)%nat ->
  (forall i, (i < 2)%nat -> actual_length 8 (header (Z.land (control_byte 8 g) 15) i) = bwidth (nth i (firstn 2 g) 0)) /\
  (forall i, (i < 2)%nat -> actual_length 8 (header (Z.shiftr (control_byte 8 g) 4) i) = bwidth (nth i (skipn 2 g) 0)).
Proof.
  intros Hg Hl. assert (Nw : forall i, wide_ok (nth i g 0)).
  { intros i. destruct (Nat.lt_ge_cases i (length g)); [rewrite Forall_forall in Hg; apply Hg, nth_In; assumption|rewrite nth_overflow by assumption; apply wide0]. }
  unfold control_byte.
  destruct (ctl_headers (encoded_byte_width 8 (nth 0 g 0)) (encoded_byte_width 8 (nth 1 g 0)) (encoded_byte_width 8 (nth 2 g 0)) (encoded_byte_width 8 (nth 3 g 0))) as (_ & _ & _ & _ & H0 & H1 & H2 & H3); try apply wide_enc, Nw.
  split; intros [|[|i]] Hi; try lia; rewrite ?H0, ?H1, ?H2, ?H3; rewrite (proj2 (wide_enc _ (Nw _))); f_equal;
    destruct g as [|a [|b [|c [|d t]]]]; reflexivity.
Qed.

Notation dg vs := (dgroups 8 G_NONE st0 vs).
Lemma groups64_ok mem rest : (15 <= length rest)%nat -> forall vs A B,
  mem = A ++ map (control_byte 8) (dg vs) ++ B ++ concat (map (gbytes 8) (dg vs)) ++ rest -> Forall wide_ok vs ->
  exists G, dg vs = G ++ dg (skipn (4 * (length vs / 4)) vs) /\ length G = (length vs / 4)%nat /\
    groups64 G_NONE mem (length vs / 4) (length A) (length A + length (dg vs) + length B) =
      Some (firstn (4 * (length vs / 4)) vs, (length A + length (dg vs) + length B + length (concat (map (gbytes 8) G)))%nat).
Proof.
  intros Hr. induction vs using four_ind; intros A B Em Hv;
    [exists []; repeat split; auto; cbn [length]; rewrite ?Nat.add_0_r; reflexivity
    |exists []; repeat split; auto; change (length [a] / 4)%nat with 0%nat; cbn [groups64 map concat length]; rewrite ?Nat.add_0_r; reflexivity
    |exists []; repeat split; auto; change (length [a; b] / 4)%nat with 0%nat; cbn [groups64 map concat length]; rewrite ?Nat.add_0_r; reflexivity
    |exists []; repeat split; auto; change (length [a; b; c] / 4)%nat with 0%nat; cbn [groups64 map concat length]; rewrite ?Nat.add_0_r; reflexivity
    |].
  assert (Ed : (length (a :: b :: c :: d :: vs) / 4 = S (length vs / 4))%nat).
  { cbn [length]. replace (S (S (S (S (length vs))))) with (length vs + 1 * 4)%nat by lia. rewrite Nat.div_add by lia. lia. }
  rewrite Ed. change (dg (a :: b :: c :: d :: vs)) with ([a; b; c; d] :: dg vs) in *. set (g := [a; b; c; d]) in *.
  do 4 (apply Forall_cons_iff in Hv; destruct Hv as (? & Hv)). rename Hv into Hvs.
  assert (Hg : Forall wide_ok g) by (do 4 (apply Forall_cons; [assumption|]); apply Forall_nil).
  cbn [map concat] in Em. set (gs := dg vs) in *.
  destruct (ctl64 g Hg (le_n 4)) as (C1 & C2). cbn [firstn skipn g] in C1, C2. fold g in C1, C2.
  assert (Hab : Forall wide_ok [a; b]) by (do 2 (apply Forall_cons; [assumption|]); apply Forall_nil).
  assert (Hcd : Forall wide_ok [c; d]) by (do 2 (apply Forall_cons; [assumption|]); apply Forall_nil).
  set (P := A ++ (control_byte 8 g :: map (control_byte 8) gs) ++ B). set (R := concat (map (gbytes 8) gs) ++ rest).
  assert (Eg : gbytes 8 g = gbytes 8 [a; b] ++ gbytes 8 [c; d]) by (rewrite <- gbytes_app; reflexivity).
  assert (Em1 : mem = P ++ gbytes 8 [a; b] ++ gbytes 8 [c; d] ++ R) by (rewrite Em, Eg; unfold P, R; now rewrite <- !app_assoc).
  assert (Em2 : mem = (P ++ gbytes 8 [a; b]) ++ gbytes 8 [c; d] ++ R) by (rewrite Em1; now rewrite <- !app_assoc).
  assert (Lr : (15 <= length R)%nat) by (unfold R; rewrite app_length; lia).
  pose proof (wide_pos _ Hcd ltac:(discriminate)) as Pcd.
  destruct (reg64 [a; b] P (gbytes 8 [c; d] ++ R) mem _ Hab (le_n 2) Em1 ltac:(rewrite !app_length; lia) C1) as (d1 & E1 & L1 & F1 & T1).
  destruct (reg64 [c; d] _ R mem _ Hcd (le_n 2) Em2 ltac:(rewrite !app_length; lia) C2) as (d2 & E2 & L2 & F2 & T2).
  cbn [length Nat.sub] in F1, F2, T1, T2. rewrite firstn_all2 in F1, F2 by lia. subst d1 d2. rewrite Nat.add_0_r in T1, T2.
  destruct (IHvs (A ++ [control_byte 8 g]) (B ++ gbytes 8 g)) as (G & EG & LG & E3); auto.
  { fold gs. rewrite Em. rewrite <- !app_assoc. reflexivity. }
  exists (g :: G). fold gs in EG, E3.
  assert (Es : skipn (4 * S (length vs / 4)) (a :: b :: c :: d :: vs) = skipn (4 * (length vs / 4)) vs).
  { replace (4 * S (length vs / 4))%nat with (S (S (S (S (4 * (length vs / 4)))))) by lia. reflexivity. }
  assert (Ei : firstn (4 * S (length vs / 4)) (a :: b :: c :: d :: vs) = [a; b; c; d] ++ firstn (4 * (length vs / 4)) vs).
  { replace (4 * S (length vs / 4))%nat with (S (S (S (S (4 * (length vs / 4)))))) by lia. reflexivity. }
  rewrite Es, Ei. split; [cbn [app]; f_equal; exact EG|]. split; [cbn [length]; lia|].
  cbn [groups64]. assert (En : nth_error mem (length A) = Some (control_byte 8 g)). { rewrite Em, nth_error_app2, Nat.sub_diag by lia. reflexivity. }
  rewrite En. assert (LP : length P = (length A + length (g :: gs) + length B)%nat) by (unfold P; rewrite !app_length; cbn [length]; rewrite map_length; lia).
  rewrite app_length in E2. rewrite <- LP, T1, E1, E2, T2.
  rewrite !app_length in E3. cbn [length] in E3. rewrite Eg, app_length in E3.
  replace (S (length A)) with (length A + 1)%nat by lia. 
  replace (length P + length (gbytes 8 [a; b]) + length (gbytes 8 [c; d]))%nat with (length A + 1 + length gs + (length B + (length (gbytes 8 [a; b]) + length (gbytes 8 [c; d]))))%nat by (rewrite LP; cbn [length]; lia).
  rewrite E3. cbn [map concat]. rewrite app_length, Eg, app_length. f_equal. f_equal. rewrite LP. cbn [length]. lia.
Qed.

Theorem decode64_ok vs rest : Forall wide_ok vs -> (15 <= length rest)%nat ->
  svb_decode64 G_NONE (ctl 8 G_NONE vs ++ dat 8 G_NONE vs ++ rest) (length vs) = Some vs.
Proof.
  intros Hv Hr. set (mem := ctl 8 G_NONE vs ++ dat 8 G_NONE vs ++ rest). unfold svb_decode64. rewrite groups_start.
  destruct (groups64_ok mem rest Hr vs [] [] eq_refl Hv) as (G & EG & LG & E).
  cbn [length Nat.add] in E. rewrite dgroups_count, Nat.add_0_r in E. rewrite E. clear E.
  pose proof (Nat.div_mod (length vs) 4 ltac:(lia)) as D. pose proof (Nat.mod_upper_bound (length vs) 4 ltac:(lia)) as M.
  set (r := skipn (4 * (length vs / 4)) vs) in *. assert (Lr : length r = (length vs mod 4)%nat) by (unfold r; rewrite skipn_length; lia).
  assert (Evs : firstn (4 * (length vs / 4)) vs ++ r = vs) by apply firstn_skipn.
  destruct (Nat.eqb_spec (length vs mod 4) 0) as [Z0|Nz].
  - assert (H : r = []) by (apply length_zero_iff_nil; lia). rewrite H, app_nil_r in Evs. rewrite Evs. reflexivity.
  - assert (Hrr : Forall wide_ok r). { rewrite Forall_forall in *. intros x Hx. apply Hv. rewrite <- Evs. apply in_or_app. auto. }
    rewrite (dgroups_small 8 G_NONE st0 r) in EG by lia. change (deltas 8 G_NONE st0 r) with r in EG.
    set (P := ctl 8 G_NONE vs ++ concat (map (gbytes 8) G)).
    assert (Er : r = firstn 2 r ++ skipn 2 r) by (symmetry; apply firstn_skipn).
    assert (Em : mem = P ++ gbytes 8 (firstn 2 r) ++ gbytes 8 (skipn 2 r) ++ rest).
    { unfold mem, dat, P. rewrite EG, map_app, concat_app. cbn [map concat]. rewrite app_nil_r, Er at 1. rewrite gbytes_app, <- !app_assoc. reflexivity. }
    assert (F1 : Forall wide_ok (firstn 2 r) /\ Forall wide_ok (skipn 2 r)) by (rewrite Er in Hrr; apply Forall_app in Hrr; exact Hrr).
    destruct F1 as (F1 & F2). destruct (ctl64 r Hrr ltac:(lia)) as (C1 & C2).
    assert (Lc : length P = ((length vs + 3) / 4 + length (concat (map (gbytes 8) G)))%nat) by (unfold P, ctl; rewrite app_length, map_length, dgroups_count; reflexivity).
    assert (En : nth_error mem (length vs / 4) = Some (control_byte 8 r)).
    { unfold mem, ctl. rewrite EG, map_app, <- app_assoc, nth_error_app2; rewrite map_length, LG; [|lia]. rewrite Nat.sub_diag. reflexivity. }
    assert (Lf : (1 <= length (firstn 2 r) <= 2)%nat) by (rewrite firstn_length; lia).
    pose proof (wide_pos (firstn 2 r) F1 ltac:(intros Q; rewrite Q in Lf; cbn [length] in Lf; lia)) as P1.
    destruct (reg64 (firstn 2 r) P (gbytes 8 (skipn 2 r) ++ rest) mem _ F1 ltac:(lia) Em ltac:(rewrite !app_length; lia) C1) as (d1 & E1 & L1 & G1 & T1).
    rewrite En, <- Lc, E1. destruct (Nat.leb_spec (length vs mod 4) 2) as [L2|G2].
    + assert (E2 : firstn 2 r = r) by (apply firstn_all2; lia). rewrite E2 in G1. rewrite <- Lr, G1, Evs. reflexivity.
    + assert (L3 : length r = 3%nat) by lia. assert (Lf2 : length (firstn 2 r) = 2%nat) by (rewrite firstn_length; lia).
      rewrite Lf2 in *. rewrite firstn_all2 in G1 by lia. subst d1. rewrite Nat.add_0_r in T1.
      assert (Ls : length (skipn 2 r) = 1%nat) by (rewrite skipn_length; lia).
      assert (Em2 : mem = (P ++ gbytes 8 (firstn 2 r)) ++ gbytes 8 (skipn 2 r) ++ rest) by (rewrite Em; now rewrite <- !app_assoc).
      pose proof (wide_pos (skipn 2 r) F2 ltac:(intros Q; rewrite Q in Ls; cbn [length] in Ls; lia)) as P2.
      destruct (reg64 (skipn 2 r) _ rest mem _ F2 ltac:(lia) Em2 ltac:(rewrite !app_length; lia) C2) as (d2 & E2 & L2' & G2' & T2).
      rewrite app_length in E2. rewrite T1, E2. rewrite Ls in G2'. rewrite G2', <- Er, Evs. reflexivity.
Qed.

(* ------------------------------------------------------------------------------------------------------ results *)
Lemma gbytes_le W g : width_ok W -> Forall (fun v => 0 <= v < 256 ^ Z.of_nat W) g -> (length (gbytes W g) <= W * length g)%nat.
Proof.
  intros HW. unfold gbytes. induction g as [|v g IH]; intros H; [cbn; lia|]. inversion H; subst. cbn [map concat length]. rewrite app_length.
  destruct (value_bytes_ok W v HW H2) as (-> & _ & B). specialize (IH H3). lia.
Qed.
Lemma deltas_fit W gap s vs : width_ok W -> Forall (fun v => 0 <= v < 256 ^ Z.of_nat W) vs -> Forall (fun v => 0 <= v < 256 ^ Z.of_nat W) (deltas W gap s vs).
Proof.
  intros HW H. assert (S : forall a b, 0 <= sub W a b < 256 ^ Z.of_nat W).
  { intros a b. unfold sub, wrap_u, w_bits. destruct HW as [-> | ->]; cbn [Z.of_nat Pos.of_succ_nat]; apply Z.mod_pos_bound; reflexivity. }
  unfold deltas, sub2. destruct gap; auto; apply Forall_forall; intros x Hx; apply in_map_iff in Hx; destruct Hx as (y & <- & _); apply S.
Qed.
Lemma dat_le W gap vs : width_ok W -> Forall (fun v => 0 <= v < 256 ^ Z.of_nat W) vs -> (length (dat W gap vs) <= W * length vs)%nat.
Proof.
  intros HW. unfold dat. generalize st0 as s. induction vs using four_ind; intros s H; cbn [dgroups map concat]; rewrite ?app_nil_r;
    try (etransitivity; [apply gbytes_le, deltas_fit, H; assumption|rewrite deltas_length by (cbn; lia); lia]).
  - cbn. lia.
  - rewrite app_length. assert (Hs : Forall (fun v => 0 <= v < 256 ^ Z.of_nat W) [a; b; c; d] /\ Forall (fun v => 0 <= v < 256 ^ Z.of_nat W) vs) by (apply (proj1 (Forall_app _ [a; b; c; d] vs)), H).
    destruct Hs as (H4 & Hvs). specialize (IHvs (next gap s a b c d) Hvs). pose proof (gbytes_le W _ HW (deltas_fit W gap s _ HW H4)) as G.
    rewrite deltas_length in G by (cbn; lia). cbn [length] in *. lia.
Qed.
Lemma ctl_length W gap vs : length (ctl W gap vs) = ((length vs + 3) / 4)%nat.
Proof. unfold ctl. rewrite map_length. apply dgroups_count. Qed.
Lemma sizes32 gap vs : Forall in32 vs -> fold_right Nat.add 0%nat (map (gwidth 4) (dgroups 4 gap st0 vs)) = length (dat 4 gap vs).
Proof.
  intros H. unfold dat. generalize st0 as s. revert H. induction vs using four_ind; intros H s; cbn [dgroups map concat fold_right]; rewrite ?app_nil_r, ?app_length;
    try (rewrite gbytes_count by (apply deltas_in32, H); lia).
  - reflexivity.
  - assert (Hs : Forall in32 [a; b; c; d] /\ Forall in32 vs) by (apply (proj1 (Forall_app _ [a; b; c; d] vs)), H). destruct Hs as (H4 & Hvs).
    rewrite (IHvs Hvs), gbytes_count by (apply deltas_in32, H4). reflexivity.
Qed.
Lemma pairs_listed vs : Nat.even (length vs) = true -> listed_in_pairs (pairs_of vs) vs.
Proof.
  intros H. apply Nat.even_spec in H. destruct H as (k & H). revert vs H. unfold listed_in_pairs. induction k as [|k IH]; intros vs H.
  - assert (vs = []) by (apply length_zero_iff_nil; lia). subst. reflexivity.
  - destruct vs as [|a [|b vs]]; cbn [length] in H; try lia. cbn. rewrite IH by lia. reflexivity.
Qed.

Theorem round32 gap vs mem : fit 32 vs -> (gap = G_DM -> nondecreasing vs) -> (control_bytes (length vs) + 4 * length vs <= length mem)%nat ->
  exists mem' fin, svb_encode 4 gap vs mem = Some (mem', fin) /\ (control_bytes (length vs) <= fin <= control_bytes (length vs) + 4 * length vs)%nat /\
    length mem' = length mem /\ skipn fin mem' = skipn fin mem /\
    forall behind, (15 <= length behind)%nat ->
      (exists pos, svb_decode32 gap (firstn fin mem' ++ behind) (length vs) = Some (vs, pos)) /\
      (Nat.even (length vs) = true -> exists ps, svb_decode32_pairs gap (firstn fin mem' ++ behind) (length vs) = Some (ps, fin) /\ listed_in_pairs ps vs).
Proof.
  intros Hv Hm Hl. unfold control_bytes in *. assert (B : (length (dat 4 gap vs) <= 4 * length vs)%nat) by (apply dat_le; [left; reflexivity|exact Hv]).
  destruct (encode_ok 4 gap vs mem ltac:(lia)) as (E & _). pose proof (ctl_length 4 gap vs) as Lc.
  set (fin := ((length vs + 3) / 4 + length (dat 4 gap vs))%nat) in *. set (mem' := ctl 4 gap vs ++ dat 4 gap vs ++ skipn fin mem) in *.
  assert (Em : mem' = (ctl 4 gap vs ++ dat 4 gap vs) ++ skipn fin mem) by (unfold mem'; now rewrite <- app_assoc).
  assert (Lf : length (ctl 4 gap vs ++ dat 4 gap vs) = fin) by (rewrite app_length, Lc; reflexivity).
  exists mem', fin. split; [exact E|]. split; [unfold fin; lia|]. split; [rewrite Em, app_length, Lf, skipn_length; unfold fin; lia|].
  split; [rewrite Em, skipn_app, <- Lf, skipn_all, Nat.sub_diag; reflexivity|].
  intros behind Hb. assert (Ef : firstn fin mem' = ctl 4 gap vs ++ dat 4 gap vs) by (rewrite Em, firstn_app, <- Lf, firstn_all, Nat.sub_diag, firstn_O, app_nil_r; reflexivity).
  rewrite Ef, <- app_assoc. destruct (decode32_ok gap vs behind Hv) as (D1 & D2); auto.
  { intros Eg. specialize (Hm Eg). constructor; [exact Hm|]. destruct vs as [|v t]; constructor. inversion Hv; subst. cbn. lia. }
  split; [exact D1|]. intros Hev. exists (pairs_of vs). split; [exact (D2 Hev)|apply pairs_listed, Hev].
Qed.
Theorem sizes_reported gap vs mem : fit 32 vs -> (control_bytes (length vs) + 4 * length vs <= length mem)%nat ->
  exists s n mem', enc_adds 4 gap (enc_init (length vs) mem) vs = Some (s, n) /\ svb_encode 4 gap vs mem = Some (mem', n).
Proof.
  intros Hv Hl. unfold control_bytes in *. assert (B : (length (dat 4 gap vs) <= 4 * length vs)%nat) by (apply dat_le; [left; reflexivity|exact Hv]).
  destruct (encode_ok 4 gap vs mem ltac:(lia)) as (E & s & E2). rewrite (sizes32 gap vs Hv) in E2. eauto.
Qed.
Theorem round64 vs mem : Forall (fun v => 0 <= v < 2 ^ 16 \/ 2 ^ 24 <= v < 2 ^ 32 \/ 2 ^ 56 <= v < 2 ^ 64) vs ->
  (control_bytes (length vs) + 8 * length vs <= length mem)%nat ->
  exists mem' fin, svb_encode 8 G_NONE vs mem = Some (mem', fin) /\ length mem' = length mem /\ skipn fin mem' = skipn fin mem /\
    forall behind, (15 <= length behind)%nat -> svb_decode64 G_NONE (firstn fin mem' ++ behind) (length vs) = Some vs.
Proof.
  intros Hv Hl. assert (Hw : Forall wide_ok vs) by (eapply Forall_impl; [|exact Hv]; intros v; apply wide_ranges). unfold control_bytes in *.
  assert (B : (length (dat 8 G_NONE vs) <= 8 * length vs)%nat) by (apply dat_le; [right; reflexivity|]; eapply Forall_impl; [|exact Hw]; intros v (Q & _); exact Q).
  destruct (encode_ok 8 G_NONE vs mem ltac:(lia)) as (E & _). pose proof (ctl_length 8 G_NONE vs) as Lc.
  set (fin := ((length vs + 3) / 4 + length (dat 8 G_NONE vs))%nat) in *. set (mem' := ctl 8 G_NONE vs ++ dat 8 G_NONE vs ++ skipn fin mem) in *.
  assert (Em : mem' = (ctl 8 G_NONE vs ++ dat 8 G_NONE vs) ++ skipn fin mem) by (unfold mem'; now rewrite <- app_assoc).
  assert (Lf : length (ctl 8 G_NONE vs ++ dat 8 G_NONE vs) = fin) by (rewrite app_length, Lc; reflexivity).
  exists mem', fin. split; [exact E|]. split; [rewrite Em, app_length, Lf, skipn_length; unfold fin; lia|].
  split; [rewrite Em, skipn_app, <- Lf, skipn_all, Nat.sub_diag; reflexivity|].
  intros behind Hb. assert (Ef : firstn fin mem' = ctl 8 G_NONE vs ++ dat 8 G_NONE vs) by (rewrite Em, firstn_app, <- Lf, firstn_all, Nat.sub_diag, firstn_O, app_nil_r; reflexivity).
  rewrite Ef, <- app_assoc. apply decode64_ok; assumption.
Qed.
