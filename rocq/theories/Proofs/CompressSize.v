(* Size of the encoded adjacency structure and total edge weight (Model/CompressModel.v). *)
From Coq Require Import Sorted.
From Verif Require Import Lib.Prelude Lib.Count Spec.Compress Spec.CompressInput Model.MathModel Model.VarintModel Model.CompressModel
  Proofs.VarintProofs Proofs.CompressProofs Proofs.CompressGraphProofs.
Local Open Scope Z_scope.

(** ** Lengths of varints *)
Lemma length_loop_mono f1 : forall f2 a b, 0 <= a <= b -> b < 2 ^ (7 * Z.of_nat f2) -> (0 < f2)%nat ->
  a < 2 ^ (7 * Z.of_nat f1) -> (0 < f1)%nat ->
  1 <= varint_length_loop f1 a <= varint_length_loop f2 b.
Proof.
  induction f1 as [|f1 IH]; intros f2 a b Hab Hb Hf2 Ha Hf1; [lia|].
  destruct f2 as [|f2]; [lia|]. cbn [varint_length_loop]. rewrite !shiftr_7.
  assert (Hpow : forall f, 2 ^ (7 * Z.of_nat (S f)) = 128 * 2 ^ (7 * Z.of_nat f)).
  { intros f. replace (7 * Z.of_nat (S f)) with (7 + 7 * Z.of_nat f) by lia. rewrite Z.pow_add_r by lia. reflexivity. }
  assert (Hdiv : forall x f, 0 <= x < 2 ^ (7 * Z.of_nat (S f)) -> 127 < x -> 0 <= x / 128 < 2 ^ (7 * Z.of_nat f) /\ (0 < f)%nat).
  { intros x f Hx H127. rewrite Hpow in Hx. split; [split; [apply Z.div_pos; lia|apply Z.div_lt_upper_bound; lia]|].
    destruct f; [|lia]. change (128 * 2 ^ (7 * Z.of_nat 0)) with 128 in Hx. lia. }
  destruct (Z.ltb_spec 127 b) as [H1|H1].
  - destruct (Hdiv b f2 ltac:(lia) H1) as (Hb' & Hf2').
    assert (Hb1 : 1 <= varint_length_loop f2 (b / 128)).
    { destruct f2; [lia|].
      destruct (encode_loop_some (S f2) (b/128) Hb' Hf2') as (l & _ & Hl & Hl' & _). rewrite <- Hl. lia. }
    destruct (Z.ltb_spec 127 a) as [H2|H2].
    + destruct (Hdiv a f1 ltac:(lia) H2) as (Ha' & Hf1').
      pose proof (IH f2 (a / 128) (b / 128) ltac:(split; [lia|apply Z.div_le_mono; lia]) ltac:(lia) Hf2' ltac:(lia) Hf1') as H.
      destruct (varint_length_loop f1 (a / 128)) eqn:E1, (varint_length_loop f2 (b / 128)) eqn:E2; lia.
    + destruct (varint_length_loop f2 (b / 128)) eqn:E2; lia.
  - replace (127 <? a) with false by lia. lia.
Qed.
Lemma varint_length_mono w1 w2 a b : 1 <= w1 -> 1 <= w2 -> 0 <= a <= b -> a < 2 ^ w1 -> b < 2 ^ w2 ->
  varint_length w1 a <= varint_length w2 b.
Proof.
  intros Hw1 Hw2 Hab Ha Hb. unfold varint_length.
  pose proof (fuel_enough w1 a Hw1 ltac:(lia)). pose proof (fuel_enough w2 b Hw2 ltac:(lia)).
  apply length_loop_mono; try lia; apply fuel_pos; assumption.
Qed.
Lemma encode_len_le w x G : 1 <= w -> 0 <= x < 2 ^ w -> varint_length w x <= G -> Z.of_nat (length (varint_encode w x)) <= G.
Proof. intros Hw Hx HG. destruct (varint_encode_facts w x Hw Hx) as (-> & _). exact HG. Qed.
Lemma encode_len_max w x : 1 <= w -> 0 <= x < 2 ^ w -> Z.of_nat (length (varint_encode w x)) <= varint_max_length w.
Proof. intros Hw Hx. destruct (varint_encode_facts w x Hw Hx) as (-> & ? & _). lia. Qed.
Lemma zigzag_u_spec w n : 2 <= w -> 0 <= n < 2 ^ (w - 1) -> zigzag_encode_u w n = 2 * n.
Proof.
  intros Hw Hn. unfold zigzag_encode_u. pose proof (pow2_half w ltac:(lia)).
  rewrite Z.shiftr_div_pow2, Z.div_small, Z.shiftl_mul_pow2 by lia. rewrite Z.lxor_0_l.
  change (2 ^ 1) with 2. rewrite (wrap_u_small w (n * 2)) by lia. rewrite wrap_u_small; lia.
Qed.
Lemma marked_length_mono w1 w2 a b : 1 <= w1 -> 1 <= w2 -> 0 <= a <= b -> a < 2 ^ w1 -> b < 2 ^ w2 ->
  marked_varint_length w1 a <= marked_varint_length w2 b.
Proof.
  intros Hw1 Hw2 Hab Ha Hb. unfold marked_varint_length. rewrite !shiftr_6. cbv zeta.
  assert (Hq : 0 <= a / 64 <= b / 64) by (split; [apply Z.div_pos; lia|apply Z.div_le_mono; lia]).
  assert (a / 64 <= a) by (apply Z.div_le_upper_bound; lia). assert (b / 64 <= b) by (apply Z.div_le_upper_bound; lia).
  destruct (Z.ltb_spec 0 (a / 64)); destruct (Z.ltb_spec 0 (b / 64)); try lia.
  - pose proof (varint_length_mono w1 w2 (a/64) (b/64) Hw1 Hw2 Hq ltac:(lia) ltac:(lia)). lia.
  - pose proof (varint_encode_facts w2 (b/64) Hw2 ltac:(lia)) as (_ & ? & _). lia.
Qed.
Lemma marked_length_max w a : (w = 32 \/ w = 64) -> 0 <= a < 2 ^ w -> 1 <= marked_varint_length w a <= varint_max_length w + 1.
Proof.
  intros Hw Ha. unfold marked_varint_length. rewrite shiftr_6. cbv zeta.
  assert (a / 64 <= a) by (apply Z.div_le_upper_bound; lia).
  assert (0 <= a / 64) by (apply Z.div_pos; lia).
  destruct (Z.ltb_spec 0 (a/64)).
  - destruct (varint_encode_facts w (a/64) ltac:(lia) ltac:(lia)) as (_ & ? & _). lia.
  - destruct Hw; subst w; vm_compute; split; discriminate.
Qed.

Section Size.
Variable c : cconf.
Hypothesis Hc : conf_ok c.

Lemma wn0 : 0 <= c_wn c. Proof. pose proof (wn_pos c Hc); lia. Qed.

(** [ews]: bytes needed at most for one edge weight. *)
Definition ews : Z := if c_ew c then varint_max_length (c_we c) else 0.
Lemma ews_nonneg : 0 <= ews.
Proof. unfold ews, varint_max_length. pose proof (we_pos c Hc). destruct (c_ew c); [|lia]. pose proof (Z.div_pos (c_we c) 7 ltac:(lia) ltac:(lia)). lia. Qed.
Lemma edge_weight_size w st : Z.of_nat (length (fst (encode_edge_weight c w st))) <= ews.
Proof.
  unfold encode_edge_weight, ews. pose proof (we_pos c Hc). destruct (c_ew c); cbn [fst length]; [|lia].
  unfold signed_varint_encode. apply encode_len_max; [lia|]. apply zigzag_encode_range; [lia|].
  pose proof (wrap_s_range (c_we c) (w - fst st) ltac:(lia)). lia.
Qed.
Lemma enc_weights_size l : forall st, Z.of_nat (length (enc_weights c l st)) <= ews * Z.of_nat (length l).
Proof.
  induction l as [|x l IH]; intros st; [cbn; lia|]. rewrite enc_weights_cons, app_length. cbn [length].
  pose proof (edge_weight_size (snd x) st). specialize (IH (snd (encode_edge_weight c (snd x) st))). lia.
Qed.

(** ** Gaps *)
Definition gap_le (G : Z) (x y : nbr) : Prop :=
  varint_length (c_wn c) (wrap_u (c_wn c) (fst y - fst x - 1)) <= G.

Lemma gap_loop_size G l : Forall (nbr_ok c) l -> ForallOrdPairs (gap_le G) l ->
  forall x st, Forall (gap_le G x) l ->
  Z.of_nat (length (fst (encode_gap_loop c (fst x) l st))) <= (G + ews) * Z.of_nat (length l).
Proof.
  intros Hl. induction Hl as [|y l Hy Hl IH]; intros Hp x st Hx; [cbn; lia|].
  inversion Hp as [|? ? Hp1 Hp2]; subst. inversion Hx as [|? ? Hx1 Hx2]; subst. destruct y as [v w].
  cbn [encode_gap_loop]. destruct Hy as (Hv & _). cbn [fst] in Hv. unfold kInvalidNodeID.
  replace (v =? 2 ^ c_wn c - 1) with false by lia.
  pose proof (edge_weight_size w st) as Hw. destruct (encode_edge_weight c w st) as [b st']. cbn [fst] in Hw.
  specialize (IH Hp2 (v, w) st' Hp1). cbn [fst] in IH.
  destruct (encode_gap_loop c v l st') as [b' st'']. cbn [fst length] in *. rewrite !app_length.
  pose proof (wn_pos c Hc).
  pose proof (encode_len_le (c_wn c) (wrap_u (c_wn c) (v - fst x - 1)) G ltac:(lia) (wrap_u_range _ _ wn0) Hx1). lia.
Qed.

Lemma gaps_size G node degree l st : Forall (nbr_ok c) l -> ForallOrdPairs (gap_le G) l ->
  (forall x, In x l -> varint_length 64 (zigzag_encode 64 (wrap_s 64 (fst x - node))) <= G) ->
  Z.of_nat (length (fst (encode_gaps c node degree l st))) <= (G + ews) * Z.of_nat (length l).
Proof.
  intros Hl Hp Hf. unfold encode_gaps. destruct l as [|[v w] l].
  { destruct (degree =? 0); cbn; lia. }
  pose proof ews_nonneg as He.
  assert (HG : 1 <= G).
  { specialize (Hf (v, w) (or_introl eq_refl)). cbn [fst] in Hf.
    pose proof (varint_encode_facts 64 (zigzag_encode 64 (wrap_s 64 (v - node))) ltac:(lia)) as H.
    destruct H as (_ & H & _); [apply zigzag_encode_range; [lia|apply wrap_s_range; lia]|]. lia. }
  destruct (degree =? 0); [cbn [fst length]; lia|].
  inversion Hl as [|? ? Hx Hl']; subst. inversion Hp as [|? ? Hp1 Hp2]; subst.
  cbn [skip_invalid]. destruct Hx as (Hv & _). cbn [fst] in Hv. unfold kInvalidNodeID. replace (v =? 2 ^ c_wn c - 1) with false by lia.
  pose proof (edge_weight_size w st) as Hw. destruct (encode_edge_weight c w st) as [b st']. cbn [fst] in Hw.
  pose proof (gap_loop_size G l Hl' Hp2 (v, w) st' Hp1) as Hg. cbn [fst] in Hg.
  destruct (encode_gap_loop c v l st') as [b' st'']. cbn [fst length] in *. rewrite !app_length.
  pose proof (encode_len_le 64 (zigzag_encode 64 (wrap_s 64 (v - node))) G ltac:(lia)) as Hs.
  unfold signed_varint_encode. specialize (Hf (v, w) (or_introl eq_refl)). cbn [fst] in Hf.
  specialize (Hs ltac:(apply zigzag_encode_range; [lia|apply wrap_s_range; lia]) Hf). lia.
Qed.

(** ** Intervals *)
Fixpoint iv_cost (prev_right : Z) (ivs : list (Z * Z * Z * nat)) : Z :=
  match ivs with
  | [] => 0
  | (lft, rgt, len, _) :: ivs' =>
      varint_length (c_wn c) (wrap_u (c_wn c) (lft - prev_right)) + varint_length (c_wn c) (wrap_u (c_wn c) (len - 3)) +
      iv_cost (wrap_u (c_wn c) (rgt + 2)) ivs'
  end.
Lemma interval_list_size nb ivs : Forall (nbr_ok c) nb -> forall base prev_right cur st remaining,
  ivs_ok nb base ivs -> length cur = length nb -> skipn base cur = skipn base nb ->
  let '(bytes, _, _, _) := encode_interval_list c ivs prev_right cur st remaining in
  Z.of_nat (length bytes) <= iv_cost prev_right ivs + ews * ivs_total ivs.
Proof.
  intros Hnb. pose proof (wn_pos c Hc) as Hwn.
  induction ivs as [|[[[lft rgt] len] idx] ivs IH]; intros base pr cur st remaining Hok Hlen Hsk.
  - cbn. lia.
  - cbn [ivs_ok] in Hok. destruct Hok as (Hb & Hl3 & Hbd & _ & _ & _ & Hok).
    cbn [encode_interval_list]. rewrite (interval_body_spec c) by lia.
    specialize (IH (idx + Z.to_nat len)%nat (wrap_u (c_wn c) (rgt + 2)) (mark_range c cur idx (Z.to_nat len))
      (wst_after c (slice cur idx (Z.to_nat len)) st) (remaining - len) Hok).
    pose proof (enc_weights_size (slice cur idx (Z.to_nat len)) st) as Hw. rewrite slice_length in Hw by lia.
    destruct (encode_interval_list c ivs _ _ _ _) as [[[b st'] nb'] rem'].
    rewrite !app_length. cbn [iv_cost ivs_total map zsum fst snd]. unfold ivs_total in IH.
    pose proof (encode_len_le (c_wn c) (wrap_u (c_wn c) (lft - pr)) _ ltac:(lia) (wrap_u_range _ _ wn0) (Z.le_refl _)) as H1.
    pose proof (encode_len_le (c_wn c) (wrap_u (c_wn c) (len - kIntervalLengthThreshold)) _ ltac:(lia) (wrap_u_range _ _ wn0) (Z.le_refl _)) as H2.
    change kIntervalLengthThreshold with 3 in *.
    assert (Hi : Z.of_nat (length b) <= iv_cost (wrap_u (c_wn c) (rgt + 2)) ivs + ews * zsum (map (fun iv => snd (fst iv)) ivs)).
    { apply IH; [rewrite mark_range_length; lia|].
      rewrite mark_range_skipn by lia. eapply skipn_same; [exact Hsk|lia]. }
    lia.
Qed.

(** The array after the intervals have been marked: the remaining entries are unchanged. *)
Definition marks (x y : nbr) : Prop := y = x \/ fst y = kInvalidNodeID c.
Lemma marks_mark_range nb cur pos len : (pos + len <= length cur)%nat -> Forall2 marks nb cur -> Forall2 marks nb (mark_range c cur pos len).
Proof.
  intros Hl H. rewrite (slice_split cur pos len) in H.
  apply Forall2_app_inv_r in H. destruct H as (a & bc & Ha & Hbc & ->).
  apply Forall2_app_inv_r in Hbc. destruct Hbc as (b & d & Hb & Hd & ->).
  unfold mark_range. apply Forall2_app; [exact Ha|]. apply Forall2_app; [|exact Hd].
  clear -Hb. induction Hb; constructor; auto. right. reflexivity.
Qed.
Lemma marks_all nb ivs : forall base cur, ivs_ok nb base ivs -> length cur = length nb -> Forall2 marks nb cur ->
  Forall2 marks nb (mark_all c cur ivs).
Proof.
  induction ivs as [|[[[lft rgt] len] idx] ivs IH]; intros base cur Hok Hlen Hm; [exact Hm|].
  cbn [ivs_ok] in Hok. destruct Hok as (Hb & Hl3 & Hbd & _ & _ & _ & Hok).
  cbn [mark_all fold_left fst snd]. eapply IH; [exact Hok| |].
  - rewrite (mark_range_length c) by lia; lia.
  - apply marks_mark_range; [lia|exact Hm].
Qed.
Lemma marks_live_in nb cur x : Forall2 marks nb cur -> In x (live c cur) -> In x nb.
Proof.
  induction 1 as [|a b nb cur Hab H IH]; [intros []|]. unfold live in *. cbn [filter].
  destruct (fst b =? kInvalidNodeID c) eqn:E; cbn [negb]; intros Hx; [right; auto|].
  destruct Hx as [->|Hx]; [|right; auto]. left. destruct Hab as [->|Hb]; [reflexivity|lia].
Qed.
Lemma marks_live_pairs R nb cur : Forall2 marks nb cur -> ForallOrdPairs R nb -> ForallOrdPairs R (live c cur).
Proof.
  induction 1 as [|a b nb cur Hab H IH]; intros Hp; [constructor|]. inversion Hp as [|? ? Hp1 Hp2]; subst.
  pose proof (fun x => marks_live_in nb cur x H) as Hin.
  unfold live in *. cbn [filter]. destruct (fst b =? kInvalidNodeID c) eqn:E; cbn [negb]; [auto|].
  constructor; [|auto]. destruct Hab as [->|Hb]; [|lia].
  apply Forall_forall. rewrite Forall_forall in Hp1. auto.
Qed.
Lemma marks_refl nb : Forall2 marks nb nb.
Proof. induction nb; constructor; auto. left; reflexivity. Qed.

Lemma ivs_total_ge nb base ivs : ivs_ok nb base ivs -> 3 * Z.of_nat (length ivs) <= ivs_total ivs.
Proof.
  revert base. induction ivs as [|[[[? ?] len] idx] ivs IH]; intros base Hok; [unfold ivs_total; cbn [map zsum length]; lia|].
  cbn [ivs_ok] in Hok. destruct Hok as (_ & Hl & _ & _ & _ & _ & Hok). specialize (IH _ Hok).
  unfold ivs_total in *. cbn [map zsum length fst snd]. lia.
Qed.

Lemma add_edges_size G node nb tot : Forall (nbr_ok c) nb -> Z.of_nat (length nb) < 2 ^ c_wn c ->
  ForallOrdPairs (gap_le G) nb ->
  (forall x, In x nb -> varint_length 64 (zigzag_encode 64 (wrap_s 64 (fst x - node))) <= G) ->
  iv_cost 0 (parse_intervals (c_wn c) nb) <= 2 * G * Z.of_nat (length (parse_intervals (c_wn c) nb)) ->
  (forall k, 0 <= k < Z.of_nat (length nb) -> varint_length (c_wn c) k <= G) ->
  Z.of_nat (length (fst (add_edges c node (num_ivs c nb) nb tot))) <= (G + ews) * Z.of_nat (length nb).
Proof.
  intros Hnb Hsize Hp Hf Hiv HG. pose proof (wn_pos c Hc) as Hwn. pose proof ews_nonneg as He.
  unfold add_edges, num_ivs, count_intervals. destruct (c_iv c).
  2:{ pose proof (gaps_size G node (Z.of_nat (length nb)) nb (0, tot) Hnb Hp Hf) as Hg.
      destruct (encode_gaps _ _ _ _ _). exact Hg. }
  set (ivs := parse_intervals (c_wn c) nb) in *.
  pose proof (parse_intervals_sound c Hc nb Hnb : ivs_ok nb 0 ivs) as Hok.
  unfold encode_intervals. fold ivs.
  destruct (Z.ltb_spec 0 (Z.of_nat (length ivs))) as [Hpos|Hzero].
  - pose proof (interval_list_state c nb ivs Hnb 0 0 nb (0, tot) (Z.of_nat (length nb)) Hok eq_refl eq_refl) as Hst.
    pose proof (interval_list_size nb ivs Hnb 0 0 nb (0, tot) (Z.of_nat (length nb)) Hok eq_refl eq_refl) as Hsz.
    destruct (encode_interval_list c ivs 0 nb (0, tot) (Z.of_nat (length nb))) as [[[b st] nb'] rem].
    destruct Hst as (-> & -> & ->).
    pose proof (marks_all nb ivs 0 nb Hok eq_refl (marks_refl nb)) as Hm.
    rewrite encode_gaps_live.
    pose proof (gaps_size G node (Z.of_nat (length nb) - ivs_total ivs) (live c (mark_all c nb ivs)) (wst_after c (iv_slices nb ivs) (0, tot))) as Hg.
    assert (Hlok : Forall (nbr_ok c) (live c (mark_all c nb ivs))).
    { apply Forall_forall. intros x Hx. rewrite Forall_forall in Hnb. apply Hnb. eapply marks_live_in; [exact Hm|exact Hx]. }
    specialize (Hg Hlok (marks_live_pairs _ _ _ Hm Hp)).
    specialize (Hg ltac:(intros x Hx; apply Hf; eapply marks_live_in; [exact Hm|exact Hx])).
    destruct (encode_gaps c node _ (live c (mark_all c nb ivs)) _) as [b' st']. cbn [fst length] in *.
    rewrite !app_length.
    pose proof (decode_order_perm' c Hc nb Hnb) as Hperm. apply Permutation_length in Hperm.
    unfold decode_order, ivs_of in Hperm.
    assert (Hcount : Z.of_nat (length nb) = ivs_total ivs + Z.of_nat (length (live c (mark_all c nb ivs)))).
    { rewrite <- (iv_slices_length nb 0 ivs Hok). 
      pose proof (interval_list_perm c nb ivs Hnb 0 nb Hok eq_refl eq_refl) as (Hq & _).
      apply Permutation_length in Hq. rewrite app_length in Hq. rewrite (live_all c nb Hnb) in Hq. lia. }
    pose proof (ivs_total_ge nb 0 ivs Hok) as H3.
    pose proof (HG (Z.of_nat (length ivs) - 1) ltac:(lia)) as Hcnt.
    pose proof (encode_len_le (c_wn c) (Z.of_nat (length ivs) - 1) G ltac:(lia) ltac:(lia) Hcnt) as Hcl.
    assert (HG1 : 1 <= G). { pose proof (varint_encode_facts (c_wn c) (Z.of_nat (length ivs) - 1) ltac:(lia) ltac:(lia)) as (_ & ? & _). lia. }
    clear -Hcl Hsz Hg Hiv Hcount H3 HG1 He Hpos. 
    set (L := Z.of_nat (length (live c (mark_all c nb ivs)))) in *. set (k := Z.of_nat (length ivs)) in *. set (t := ivs_total ivs) in *.
    rewrite Hcount. 
    apply Z.le_trans with (G + (2 * G * k + ews * t) + (G + ews) * L); [lia|].
    assert (G * (2 * k + 1) <= G * t) by (apply Z.mul_le_mono_nonneg_l; lia). lia.
  - assert (Hnil : ivs = []) by (destruct ivs; [reflexivity|cbn [length] in Hzero; lia]).
    pose proof (gaps_size G node (Z.of_nat (length nb)) nb (0, tot) Hnb Hp Hf) as Hg.
    destruct (encode_gaps _ _ _ _ _). cbn [fst app] in *. exact Hg.
Qed.

(** ** Simple neighbourhoods *)
Fixpoint ivs_gap (nb : list nbr) (ivs : list (Z * Z * Z * nat)) : Prop :=
  match ivs with
  | [] => True
  | (lft, rgt, len, idx) :: ivs' =>
      ((idx + Z.to_nat len < length nb)%nat -> fst (nth (idx + Z.to_nat len) nb (0, 0)) <> rgt + 1) /\ ivs_gap nb ivs'
  end.
Lemma ivs_gap_app nb a b : ivs_gap nb a -> ivs_gap nb b -> ivs_gap nb (a ++ b).
Proof. induction a as [|[[[? ?] ?] ?] a IH]; [auto|]. cbn [app ivs_gap]. intros (H1 & H2) H3. auto. Qed.
Lemma parse_loop_gap nb : Forall (nbr_ok c) nb -> forall rest i len prev, skipn i nb = rest -> (i <= length nb)%nat -> 1 <= len <= Z.of_nat i ->
  ivs_gap nb (parse_loop (c_wn c) i len prev rest).
Proof.
  intros Hnb. pose proof (wn_pos c Hc) as Hwn.
  induction rest as [|[a w] rest' IH]; intros i len prev Hrest Hi Hlen; [exact I|].
  assert (Hlt : (i < length nb)%nat).
  { apply (f_equal (@length _)) in Hrest. rewrite skipn_length in Hrest. cbn [length] in Hrest. lia. }
  assert (Ha : nth i nb (0, 0) = (a, w)).
  { rewrite <- (Nat.add_0_r i), <- nth_skipn, Hrest. reflexivity. }
  assert (Hr' : skipn (S i) nb = rest').
  { replace (S i) with (i + 1)%nat by lia. rewrite <- skipn_skipn, Hrest. reflexivity. }
  assert (Hav : 0 <= a < 2 ^ c_wn c - 1).
  { change a with (fst (a, w)). rewrite <- Ha. rewrite Forall_forall in Hnb. apply Hnb, nth_In. lia. }
  cbn [parse_loop]. destruct (negb _); [apply IH; try assumption; lia|]. cbv zeta.
  destruct (match rest' with [] => false | (b, _) :: _ => wrap_u (c_wn c) (a + 1) =? b end) eqn:El; [apply IH; try assumption; lia|].
  apply ivs_gap_app; [|apply IH; try assumption; lia].
  destruct (kIntervalLengthThreshold <=? len + 1); [|exact I]. cbn [ivs_gap]. split; [|exact I].
  replace (i - Z.to_nat (len + 1 - 1) + Z.to_nat (len + 1))%nat with (S i) by lia.
  intros Hlt2. destruct rest' as [|[b w'] rest''].
  - apply (f_equal (@length _)) in Hr'. rewrite skipn_length in Hr'. cbn [length] in Hr'. lia.
  - rewrite wrap_u_small in El by lia. rewrite <- (Nat.add_0_r (S i)), <- nth_skipn, Hr'. cbn [nth fst]. lia.
Qed.
Lemma parse_intervals_gap nb : Forall (nbr_ok c) nb -> ivs_gap nb (parse_intervals (c_wn c) nb).
Proof.
  intros Hnb. unfold parse_intervals. destruct (_ <? _); [exact I|]. destruct nb as [|[a w] rest]; [exact I|].
  apply parse_loop_gap; try assumption; cbn [length]; try lia. reflexivity.
Qed.

Lemma sorted_nth (nb : list nbr) : StronglySorted (fun x y : nbr => fst x < fst y) nb ->
  forall i j, (i < j < length nb)%nat -> fst (nth i nb (0, 0)) < fst (nth j nb (0, 0)).
Proof.
  induction 1 as [|x nb Hs IH Hx]; intros i j Hij; [cbn [length] in Hij; lia|].
  destruct j as [|j]; [lia|]. cbn [length] in Hij. destruct i as [|i].
  - cbn [nth]. rewrite Forall_forall in Hx. apply Hx, nth_In. lia.
  - cbn [nth]. apply IH. lia.
Qed.

(** In a simple neighbourhood with nodes below [n], every interval costs at most two node IDs. *)
Lemma iv_cost_simple n G nb : 0 < n < 2 ^ (c_wn c - 1) -> simple_nb c n nb ->
  (forall k, 0 <= k <= n -> varint_length (c_wn c) k <= G) ->
  forall ivs base pr, ivs_ok nb base ivs -> ivs_gap nb ivs -> 0 <= pr ->
  (forall j, (base <= j < length nb)%nat -> pr <= fst (nth j nb (0, 0))) ->
  iv_cost pr ivs <= 2 * G * Z.of_nat (length ivs).
Proof.
  intros Hn (Hs & Hr) HG. pose proof (wn_pos c Hc) as Hwn. pose proof (pow2_half (c_wn c) ltac:(lia)) as Hh.
  rewrite Forall_forall in Hr.
  induction ivs as [|[[[lft rgt] len] idx] ivs IH]; intros base pr Hok Hg Hpr Hb; [cbn; lia|].
  cbn [ivs_ok] in Hok. destruct Hok as (Hbi & Hl3 & Hbd & Hrg & Hl0 & Hj & Hok). cbn [ivs_gap] in Hg. destruct Hg as (Hg & Hgs).
  cbn [iv_cost length].
  assert (Hlft : fst (nth idx nb (0, 0)) = lft) by (specialize (Hj 0%nat ltac:(lia)); rewrite Nat.add_0_r in Hj; rewrite Hj; lia).
  assert (Hrgt : fst (nth (idx + Z.to_nat len - 1) nb (0, 0)) = rgt).
  { specialize (Hj (Z.to_nat len - 1)%nat ltac:(lia)). replace (idx + Z.to_nat len - 1)%nat with (idx + (Z.to_nat len - 1))%nat by lia. rewrite Hj. lia. }
  assert (Hrn : 0 <= rgt < n). { rewrite <- Hrgt. apply Hr, nth_In. lia. }
  pose proof (Hb idx ltac:(lia)) as Hpl. rewrite Hlft in Hpl.
  rewrite (wrap_u_small _ (lft - pr)), (wrap_u_small _ (len - 3)) by lia.
  rewrite (wrap_u_small _ (rgt + 2)) by lia.
  assert (IH' : iv_cost (rgt + 2) ivs <= 2 * G * Z.of_nat (length ivs)).
  { apply (IH (idx + Z.to_nat len)%nat); try assumption; try lia.
    intros j Hjr.
    assert (H1 : rgt + 1 < fst (nth (idx + Z.to_nat len) nb (0, 0))).
    { specialize (Hg ltac:(lia)).
      pose proof (sorted_nth nb Hs (idx + Z.to_nat len - 1) (idx + Z.to_nat len) ltac:(lia)) as H1. rewrite Hrgt in H1. lia. }
    destruct (Nat.eq_dec j (idx + Z.to_nat len)) as [->|Hne]; [lia|].
    pose proof (sorted_nth nb Hs (idx + Z.to_nat len) j ltac:(lia)). lia. }
  pose proof (HG (lft - pr) ltac:(lia)). pose proof (HG (len - 3) ltac:(lia)). lia.
Qed.

Lemma simple_nbr_ok n nb : n < 2 ^ (c_wn c - 1) -> simple_nb c n nb -> Forall (nbr_ok c) nb.
Proof.
  intros Hn (_ & Hr). pose proof (wn_pos c Hc) as Hwn. pose proof (pow2_half (c_wn c) ltac:(lia)).
  eapply Forall_impl; [|exact Hr]. intros x (Hv & Hw). split; lia.
Qed.
Lemma simple_length n nb : 0 <= n -> simple_nb c n nb -> Z.of_nat (length nb) <= n.
Proof.
  intros Hn (Hs & Hr).
  assert (H : forall i, (i < length nb)%nat -> Z.of_nat i <= fst (nth i nb (0, 0))).
  { induction i as [|i IH]; intros Hi.
    - rewrite Forall_forall in Hr. destruct (Hr (nth 0 nb (0,0)) (nth_In _ _ Hi)) as (? & _). lia.
    - pose proof (sorted_nth nb Hs i (S i) ltac:(lia)). specialize (IH ltac:(lia)). lia. }
  destruct (length nb) as [|k] eqn:E; [lia|]. specialize (H k ltac:(lia)).
  rewrite Forall_forall in Hr. destruct (Hr (nth k nb (0,0)) (nth_In nb (0,0) (n := k) ltac:(lia))) as (? & _). lia.
Qed.

Definition nodew (n : Z) : Z := signed_varint_length_u (c_wn c) n.

Lemma simple_add_edges_size n node nb tot : n < 2 ^ (c_wn c - 1) -> 0 <= node < n -> simple_nb c n nb ->
  Z.of_nat (length (fst (add_edges c node (num_ivs c nb) nb tot))) <= (nodew n + ews) * Z.of_nat (length nb).
Proof.
  intros Hn Hnode Hs. pose proof (wn_pos c Hc) as Hwn. pose proof (pow2_half (c_wn c) ltac:(lia)) as Hh.
  pose proof (simple_length n nb ltac:(lia) Hs) as Hlen. pose proof (simple_nbr_ok n nb Hn Hs) as Hok.
  assert (Hw : nodew n = varint_length (c_wn c) (2 * n)).
  { unfold nodew, signed_varint_length_u. rewrite zigzag_u_spec by lia. reflexivity. }
  assert (HG : forall k, 0 <= k <= 2 * n -> varint_length (c_wn c) k <= nodew n).
  { intros k Hk. rewrite Hw. apply varint_length_mono; lia. }
  pose proof Hs as (Hss & Hr).
  apply add_edges_size; try assumption; try lia.
  - clear -Hss Hr HG Hn Hh Hwn. induction Hss as [|x nb Hss IH Hx]; [constructor|].
    inversion Hr as [|? ? Hr1 Hr2]; subst. constructor; [|auto].
    apply Forall_forall. intros y Hy. rewrite Forall_forall in Hx, Hr2. specialize (Hx y Hy). specialize (Hr2 y Hy).
    unfold gap_le. rewrite wrap_u_small by lia. apply HG. lia.
  - intros x Hx. rewrite Forall_forall in Hr. specialize (Hr x Hx).
    assert (H63 : 2 ^ (c_wn c - 1) <= 2 ^ 63) by (apply Z.pow_le_mono_r; lia).
    rewrite wrap_s_small by (change (64 - 1) with 63; lia). rewrite zigzag_encode_spec by (change (64 - 1) with 63; lia).
    rewrite Hw. assert (H64 : 2 ^ (c_wn c) <= 2 ^ 64) by (apply Z.pow_le_mono_r; lia).
    apply varint_length_mono; try lia; destruct (Z.ltb_spec (fst x - node) 0); lia.
  - assert (HG' : forall k, 0 <= k <= n -> varint_length (c_wn c) k <= nodew n) by (intros k Hk; apply HG; lia).
    assert (Hn0 : 0 < n < 2 ^ (c_wn c - 1)) by lia.
    apply (iv_cost_simple n (nodew n) nb Hn0 Hs HG') with (base := 0%nat); try lia.
    + apply parse_intervals_sound; assumption.
    + apply parse_intervals_gap; assumption.
    + intros j Hj. rewrite Forall_forall in Hr. destruct (Hr (nth j nb (0,0)) (nth_In nb (0,0) (n := j) ltac:(lia))) as (? & _). lia.
Qed.

(** ** A bound that holds for every neighbourhood *)
Lemma crude_add_edges_size node nb tot : Forall (nbr_ok c) nb -> Z.of_nat (length nb) < 2 ^ c_wn c ->
  Z.of_nat (length (fst (add_edges c node (num_ivs c nb) nb tot))) <= 20 * Z.of_nat (length nb).
Proof.
  intros Hok Hlen. pose proof (wn_pos c Hc) as Hwn.
  assert (Hmax : varint_max_length (c_wn c) <= 10) by (destruct Hc as ([H|H] & _); rewrite H; vm_compute; discriminate).
  assert (Hews : ews <= 10) by (unfold ews; destruct (c_ew c); [|lia]; destruct Hc as (_ & _ & [H|H]); rewrite H; vm_compute; discriminate).
  assert (HG : forall k, 0 <= k < 2 ^ c_wn c -> varint_length (c_wn c) k <= 10).
  { intros k Hk. pose proof (varint_encode_facts (c_wn c) k ltac:(lia) Hk) as (_ & ? & _). lia. }
  apply Z.le_trans with ((10 + ews) * Z.of_nat (length nb)); [|apply Z.mul_le_mono_nonneg_r; lia].
  apply add_edges_size; try assumption.
  - clear -HG Hwn. induction nb; constructor; [|assumption]. apply Forall_forall. intros y _.
    unfold gap_le. apply HG, wrap_u_range. lia.
  - intros x _. pose proof (varint_encode_facts 64 (zigzag_encode 64 (wrap_s 64 (fst x - node))) ltac:(lia)) as H.
    destruct H as (_ & H & _); [apply zigzag_encode_range; [lia|apply wrap_s_range; lia]|]. exact (proj2 H).
  - generalize (parse_intervals (c_wn c) nb) as ivs. generalize 0 as pr.
    clear -HG Hwn. intros pr ivs. revert pr. induction ivs as [|[[[? ?] ?] ?] ivs IH]; intros pr; [cbn [iv_cost length]; lia|].
    cbn [iv_cost length]. specialize (IH (wrap_u (c_wn c) (z0 + 2))).
    pose proof (HG _ (wrap_u_range (c_wn c) (z - pr) ltac:(lia))). pose proof (HG _ (wrap_u_range (c_wn c) (z1 - 3) ltac:(lia))). lia.
  - intros k Hk. apply HG. lia.
Qed.

(** ** Neighbourhoods, with header and part table *)
Lemma part_loop_size B node nb ps : (forall i tot, In i ps ->
    Z.of_nat (length (fst (add_edges c node (num_ivs c (part_of nb i)) (part_of nb i) tot))) <= B * Z.of_nat (length (part_of nb i))) ->
  forall off tot, let '(table, data, _) := encode_part_loop c node nb ps off tot in
  Z.of_nat (length table) = Z.of_nat (id_bytes c) * Z.of_nat (length ps) /\
  Z.of_nat (length data) <= B * Z.of_nat (length (flat_map (part_of nb) ps)).
Proof.
  induction ps as [|p ps IH]; intros HB off tot; [cbn; lia|].
  cbn [encode_part_loop].
  change (if c_iv c then count_intervals (c_wn c) (part_of nb p) else 0) with (num_ivs c (part_of nb p)).
  pose proof (HB p tot (or_introl eq_refl)) as Hp.
  destruct (add_edges c node (num_ivs c (part_of nb p)) (part_of nb p) tot) as [d1 tot1]. cbn [fst] in Hp.
  specialize (IH (fun i t Hi => HB i t (or_intror Hi)) (off + Z.of_nat (length d1)) tot1).
  destruct (encode_part_loop c node nb ps (off + Z.of_nat (length d1)) tot1) as [[t' d'] tt]. destruct IH as (IH1 & IH2).
  cbn [flat_map]. rewrite !app_length, store_le_length. cbn [length]. lia.
Qed.

Lemma add_sorted_size B H node nb tot :
  (forall i tot, (i < num_parts (length nb))%nat ->
    Z.of_nat (length (fst (add_edges c node (num_ivs c (part_of nb i)) (part_of nb i) tot))) <= B * Z.of_nat (length (part_of nb i))) ->
  (forall tot, Z.of_nat (length (fst (add_edges c node (num_ivs c nb) nb tot))) <= B * Z.of_nat (length nb)) ->
  Z.of_nat (length nb) < 2 ^ c_wn c ->
  (if c_iv c then marked_varint_length (c_wn c) (Z.of_nat (length nb)) else varint_length (c_wn c) (Z.of_nat (length nb))) <= H ->
  Z.of_nat (length (fst (add_sorted c node nb tot))) <=
    H + B * Z.of_nat (length nb) + (if c_hd c then (Z.of_nat (length nb) / 1000 + 1) * Z.of_nat (id_bytes c) else 0).
Proof.
  intros HB1 HB2 Hlen HH. pose proof (wn_pos c Hc) as Hwn.
  assert (Hhead : forall mk, Z.of_nat (length (if c_iv c then marked_varint_encode (c_wn c) (Z.of_nat (length nb)) mk
      else varint_encode (c_wn c) (Z.of_nat (length nb)))) <= H).
  { intros mk. destruct (c_iv c).
    - destruct (marked_length (c_wn c) (Z.of_nat (length nb)) mk ltac:(lia) ltac:(lia)) as (-> & _). exact HH.
    - apply encode_len_le; [lia|lia|exact HH]. }
  assert (Hid : 0 <= Z.of_nat (id_bytes c)) by lia.
  assert (HH0 : 0 <= H).
  { specialize (Hhead false). lia. }
  assert (Htab : 0 <= (if c_hd c then (Z.of_nat (length nb) / 1000 + 1) * Z.of_nat (id_bytes c) else 0)).
  { destruct (c_hd c); [|lia]. pose proof (Z.div_pos (Z.of_nat (length nb)) 1000 ltac:(lia) ltac:(lia)). apply Z.mul_nonneg_nonneg; lia. }
  unfold add_sorted. destruct (Nat.eqb_spec (length nb) 0) as [E0|E0].
  { cbn [fst length]. rewrite E0 in *. lia. }
  cbv zeta. fold (is_split c nb).
  set (ni := if c_iv c && negb (is_split c nb) then count_intervals (c_wn c) nb else 0).
  specialize (Hhead (0 <? ni)).
  destruct (is_split c nb) eqn:Es.
  - pose proof (part_loop_size B node nb (seq 0 (num_parts (length nb))) ltac:(intros i t Hi; apply in_seq in Hi; apply HB1; lia)
      (Z.of_nat (id_bytes c * num_parts (length nb))) tot) as Hp.
    destruct (encode_part_loop c node nb _ _ tot) as [[table data] tot'].
    destruct Hp as (Ht & Hd). cbn [fst]. rewrite !app_length. rewrite parts_concat in Hd. rewrite seq_length in Ht.
    unfold is_split in Es. apply andb_prop in Es. destruct Es as (Ehd & _). rewrite Ehd in *.
    rewrite num_parts_spec in Ht.
    assert (Hnp : Z.of_nat ((length nb + 999) / 1000) <= Z.of_nat (length nb) / 1000 + 1) by dlia.
    assert (Z.of_nat (id_bytes c) * Z.of_nat ((length nb + 999) / 1000) <= (Z.of_nat (length nb) / 1000 + 1) * Z.of_nat (id_bytes c)).
    { rewrite Z.mul_comm. apply Z.mul_le_mono_nonneg_r; lia. }
    lia.
  - assert (Hni : ni = num_ivs c nb). { subst ni. unfold num_ivs. rewrite andb_true_r. destruct (c_iv c); reflexivity. }
    clearbody ni. subst ni. specialize (HB2 tot).
    destruct (add_edges c node (num_ivs c nb) nb tot) as [bytes tot']. cbn [fst] in *. rewrite app_length. lia.
Qed.

Lemma part_incl nb i x : In x (part_of nb i) -> In x nb.
Proof.
  unfold part_of. cbv zeta. match goal with |- In x (firstn ?a (skipn ?b nb)) -> _ => intros Hx;
    rewrite <- (firstn_skipn b nb); apply in_or_app; right; rewrite <- (firstn_skipn a (skipn b nb)); apply in_or_app; left; exact Hx end.
Qed.
Lemma part_len_le nb i : (length (part_of nb i) <= length nb)%nat.
Proof. unfold part_of. cbv zeta. rewrite firstn_length, skipn_length. lia. Qed.
Lemma StronglySorted_app_l {A} (R : A -> A -> Prop) a b : StronglySorted R (a ++ b) -> StronglySorted R a /\ StronglySorted R b.
Proof.
  induction a as [|x a IH]; cbn [app]; intros H; [split; [constructor|exact H]|].
  inversion H as [|? ? H1 H2]; subst. destruct (IH H1) as (Ha & Hb). split; [|exact Hb]. constructor; [exact Ha|].
  rewrite Forall_app in H2. apply H2.
Qed.
Lemma part_simple n nb i : simple_nb c n nb -> simple_nb c n (part_of nb i).
Proof.
  intros (Hs & Hr). split.
  - unfold part_of. cbv zeta. match goal with |- StronglySorted _ (firstn ?a (skipn ?b nb)) =>
      rewrite <- (firstn_skipn b nb) in Hs; apply StronglySorted_app_l in Hs; destruct Hs as (_ & Hs);
      rewrite <- (firstn_skipn a (skipn b nb)) in Hs; apply StronglySorted_app_l in Hs; apply Hs end.
  - apply Forall_forall. rewrite Forall_forall in Hr. intros x Hx. apply Hr. eapply part_incl; exact Hx.
Qed.

Lemma simple_add_sorted_size n H node nb tot : n < 2 ^ (c_wn c - 1) -> 0 <= node < n -> simple_nb c n nb ->
  (if c_iv c then marked_varint_length (c_wn c) (Z.of_nat (length nb)) else varint_length (c_wn c) (Z.of_nat (length nb))) <= H ->
  Z.of_nat (length (fst (add_sorted c node nb tot))) <=
    H + (nodew n + ews) * Z.of_nat (length nb) + (if c_hd c then (Z.of_nat (length nb) / 1000 + 1) * varint_max_length (c_wn c) else 0).
Proof.
  intros Hn Hnode Hs HH. pose proof (wn_pos c Hc) as Hwn. pose proof (pow2_half (c_wn c) ltac:(lia)) as Hh.
  pose proof (simple_length n nb ltac:(lia) Hs) as Hlen.
  pose proof (add_sorted_size (nodew n + ews) H node nb tot
    ltac:(intros i t Hi; apply simple_add_edges_size; [lia|lia|apply part_simple; exact Hs])
    ltac:(intros t; apply simple_add_edges_size; [lia|lia|exact Hs]) ltac:(lia) HH) as Hsz.
  assert (Hid : Z.of_nat (id_bytes c) <= varint_max_length (c_wn c)).
  { unfold id_bytes. destruct Hc as ([H0|H0] & _); rewrite H0; vm_compute; discriminate. }
  destruct (c_hd c); [|lia].
  assert ((Z.of_nat (length nb) / 1000 + 1) * Z.of_nat (id_bytes c) <= (Z.of_nat (length nb) / 1000 + 1) * varint_max_length (c_wn c)).
  { pose proof (Z.div_pos (Z.of_nat (length nb)) 1000 ltac:(lia) ltac:(lia)). apply Z.mul_le_mono_nonneg_l; lia. }
  lia.
Qed.

Lemma crude_add_sorted_size node nb tot : Forall (nbr_ok c) nb -> Z.of_nat (length nb) < 2 ^ c_wn c ->
  Z.of_nat (length (fst (add_sorted c node nb tot))) <= 40 * Z.of_nat (length nb).
Proof.
  intros Hok Hlen. pose proof (wn_pos c Hc) as Hwn.
  destruct (Nat.eq_dec (length nb) 0) as [E0|E0].
  { unfold add_sorted. rewrite E0. cbn [Nat.eqb fst length]. lia. }
  assert (HH : (if c_iv c then marked_varint_length (c_wn c) (Z.of_nat (length nb)) else varint_length (c_wn c) (Z.of_nat (length nb))) <= 11).
  { assert (Hmax : varint_max_length (c_wn c) <= 10) by (destruct Hc as ([H|H] & _); rewrite H; vm_compute; discriminate).
    destruct (c_iv c).
    - pose proof (marked_length_max (c_wn c) (Z.of_nat (length nb)) (proj1 Hc) ltac:(lia)). lia.
    - pose proof (varint_encode_facts (c_wn c) (Z.of_nat (length nb)) ltac:(lia) ltac:(lia)) as (_ & ? & _). lia. }
  pose proof (add_sorted_size 20 11 node nb tot
    ltac:(intros i t Hi; apply crude_add_edges_size; [apply part_ok; exact Hok|pose proof (part_len_le nb i); lia])
    ltac:(intros t; apply crude_add_edges_size; [exact Hok|exact Hlen]) ltac:(lia) HH) as Hsz.
  assert (Hid : Z.of_nat (id_bytes c) <= 8) by (unfold id_bytes; destruct Hc as ([H0|H0] & _); rewrite H0; vm_compute; discriminate).
  assert ((if c_hd c then (Z.of_nat (length nb) / 1000 + 1) * Z.of_nat (id_bytes c) else 0) <= 9 * Z.of_nat (length nb)).
  { destruct (c_hd c); [|lia]. assert (Z.of_nat (length nb) / 1000 <= Z.of_nat (length nb) / 8) by (apply Z.div_le_compat_l; lia).
    assert ((Z.of_nat (length nb) / 1000 + 1) * Z.of_nat (id_bytes c) <= (Z.of_nat (length nb) / 8 + 1) * 8) by (apply Z.mul_le_mono_nonneg; try lia; pose proof (Z.div_pos (Z.of_nat (length nb)) 1000 ltac:(lia) ltac:(lia)); lia).
    dlia. }
  lia.
Qed.

(** ** Whole graphs *)
Variable sort : list nbr -> list nbr.

Lemma build_loop_size (F : Z -> Z) nbs : forall node data tot,
  (forall u tot, (u < length nbs)%nat ->
    Z.of_nat (length (fst (add_sorted c (Z.of_nat (node + u)) (sort (nth u nbs [])) tot))) <= F (Z.of_nat (length (sort (nth u nbs []))))) ->
  let '(_, data', _) := build_loop c sort node nbs data tot in
  Z.of_nat (length data') <= Z.of_nat (length data) + zsum (map (fun nb => F (Z.of_nat (length (sort nb)))) nbs).
Proof.
  induction nbs as [|nb nbs IH]; intros node data tot HF; [cbn; lia|].
  cbn [build_loop]. pose proof (HF 0%nat tot ltac:(cbn [length]; lia)) as H0. rewrite Nat.add_0_r in H0. cbn [nth] in H0.
  destruct (add_sorted c (Z.of_nat node) (sort nb) tot) as [bytes tot1]. cbn [fst] in H0.
  specialize (IH (S node) (data ++ bytes) tot1).
  destruct (build_loop c sort (S node) nbs (data ++ bytes) tot1) as [[offsets data'] tot'].
  rewrite app_length in IH. cbn [map zsum].
  assert (H1 : Z.of_nat (length data') <= Z.of_nat (length data + length bytes) + zsum (map (fun nb => F (Z.of_nat (length (sort nb)))) nbs)).
  { apply IH. intros u t Hu. specialize (HF (S u) t ltac:(cbn [length]; lia)). cbn [nth] in HF.
    replace (node + S u)%nat with (S node + u)%nat in HF by lia. exact HF. }
  lia.
Qed.
End Size.

(** ** Total size of the structure that the sequential builder produces *)
Lemma sum_div1000 l : Forall (fun x => 0 <= x) l -> zsum (map (fun x => x / 1000) l) <= zsum l / 1000.
Proof.
  induction 1 as [|x l Hx Hl IH]; [reflexivity|]. cbn [map zsum].
  assert (H : x / 1000 + zsum l / 1000 <= (x + zsum l) / 1000) by dlia. lia.
Qed.
Lemma zsum_map_le {A} (f g : A -> Z) l : (forall x, In x l -> f x <= g x) -> zsum (map f l) <= zsum (map g l).
Proof.
  induction l as [|x l IH]; intros H; cbn [map zsum]; [lia|].
  pose proof (H x (or_introl eq_refl)). specialize (IH (fun y Hy => H y (or_intror Hy))). lia.
Qed.


Lemma num_edges_ge nbs u : (u < length nbs)%nat -> Z.of_nat (length (nth u nbs [])) <= num_edges_of nbs.
Proof.
  unfold num_edges_of. revert u; induction nbs as [|nb nbs IH]; intros u Hu; cbn [length] in Hu; [lia|].
  assert (0 <= zsum (map (fun nb : list nbr => Z.of_nat (length nb)) nbs)).
  { clear. induction nbs; cbn [map zsum]; lia. }
  cbn [map zsum]. destruct u as [|u]; cbn [nth]; [lia|]. specialize (IH u ltac:(lia)). lia.
Qed.

Lemma zsum_lin3 {A} (a b d : Z) (x y : A -> Z) l :
  zsum (map (fun nb => a + b * x nb + (y nb + 1) * d) l) =
  Z.of_nat (length l) * (a + d) + b * zsum (map x l) + zsum (map y l) * d.
Proof. induction l as [|z l IH]; cbn [map zsum length]; [lia|]. rewrite IH. lia. Qed.

Lemma build_size c sort nbs : conf_ok c -> (forall l, Permutation (sort l) l) ->
  Z.of_nat (length nbs) < 2 ^ (c_wn c - 1) -> num_edges_of nbs < 2 ^ c_wi c ->
  Forall (fun nb => simple_nb c (Z.of_nat (length nbs)) (sort nb)) nbs ->
  Z.of_nat (length (cn_edges (cn_build c sort (num_edges_of nbs) nbs))) <=
    compressed_edge_array_max_size c true (Z.of_nat (length nbs)) (num_edges_of nbs).
Proof.
  intros Hc Hsort Hn Hm Hs. pose proof (wn_pos c Hc) as Hwn. pose proof (pow2_half (c_wn c) ltac:(lia)) as Hh.
  assert (Hwi : 32 <= c_wi c) by (destruct Hc as (_ & [?|?] & _); lia).
  set (n := Z.of_nat (length nbs)) in *. set (m := num_edges_of nbs) in *.
  set (H := if c_iv c then marked_varint_length (c_wi c) m else varint_length (c_wi c) m).
  set (B := nodew c n + ews c). set (T := if c_hd c then varint_max_length (c_wn c) else 0).
  assert (HT : 0 <= T). { subst T. destruct (c_hd c); [|lia]. unfold varint_max_length. pose proof (Z.div_pos (c_wn c) 7 ltac:(lia) ltac:(lia)). lia. }
  assert (Hm0 : 0 <= m). { subst m. unfold num_edges_of. clear. induction nbs; cbn [map zsum]; lia. }
  pose proof (build_loop_size c sort (fun d => H + B * d + (d / 1000 + 1) * T) nbs 0 [] 0) as Hb.
  unfold cn_build. destruct (build_loop c sort 0 nbs [] 0) as [[offsets data] tot]. cbn [cn_edges].
  assert (Hd : Z.of_nat (length data) <= Z.of_nat (length (@nil Z)) + zsum (map (fun nb => H + B * Z.of_nat (length (sort nb)) + (Z.of_nat (length (sort nb)) / 1000 + 1) * T) nbs)).
  { apply Hb. intros u t Hu. cbn [Nat.add].
    assert (Hin : In (nth u nbs []) nbs) by (apply nth_In; exact Hu).
    rewrite Forall_forall in Hs. specialize (Hs _ Hin).
    pose proof (Permutation_length (Hsort (nth u nbs []))) as Hlen.
    pose proof (num_edges_ge nbs u Hu) as Hdm. fold m in Hdm. rewrite <- Hlen in Hdm.
    pose proof (simple_length c n _ ltac:(lia) Hs) as Hdn.
    pose proof (simple_add_sorted_size c Hc n H (Z.of_nat u) (sort (nth u nbs [])) t ltac:(lia) ltac:(lia) Hs) as Hsz.
    apply Z.le_trans with (1 := Hsz ltac:(subst H; destruct (c_iv c); [apply marked_length_mono|apply varint_length_mono]; lia)).
    subst T B. destruct (c_hd c); lia. }
  rewrite (zsum_lin3 H B T (fun nb => Z.of_nat (length (sort nb))) (fun nb => Z.of_nat (length (sort nb)) / 1000)) in Hd.
  assert (Hlens : map (fun nb => Z.of_nat (length (sort nb))) nbs = map (fun nb => Z.of_nat (length nb)) nbs).
  { apply map_ext. intros l. rewrite (Permutation_length (Hsort l)). reflexivity. }
  rewrite Hlens in Hd. fold (num_edges_of nbs) in Hd. fold m in Hd. fold n in Hd.
  assert (Hq : zsum (map (fun nb => Z.of_nat (length (sort nb)) / 1000) nbs) <= m / 1000).
  { subst m. unfold num_edges_of. rewrite <- Hlens.
    pose proof (sum_div1000 (map (fun nb => Z.of_nat (length (sort nb))) nbs)) as Hq. rewrite map_map in Hq. apply Hq.
    apply Forall_forall. intros x Hx. apply in_map_iff in Hx. destruct Hx as (y & <- & _). lia. }
  unfold compressed_edge_array_max_size. fold H. fold n. fold (nodew c n).
  rewrite wrap_u_small by lia.
  change (Z.of_nat kHighDegreePartLength) with 1000.
  cbn [length] in Hd.
  assert (HH : 0 <= H).
  { subst H. destruct (c_iv c).
    - pose proof (marked_length_max (c_wi c) m (proj1 (proj2 Hc)) ltac:(lia)). lia.
    - pose proof (varint_encode_facts (c_wi c) m ltac:(lia) ltac:(lia)) as (_ & ? & _). lia. }
  assert (HqT : zsum (map (fun nb => Z.of_nat (length (sort nb)) / 1000) nbs) * T <= m / 1000 * T) by (apply Z.mul_le_mono_nonneg_r; lia).
  subst B. unfold ews in *. subst T. clearbody n m H.
  destruct (c_hd c), (c_ew c); lia.
Qed.

(** ** Losslessness under conditions on the input and the total size only *)
Lemma build_loop_crude c sort nbs : conf_ok c -> (forall l, Permutation (sort l) l) ->
  graph_ok c nbs -> forall u tot, (u < length nbs)%nat ->
  Z.of_nat (length (fst (add_sorted c (Z.of_nat u) (sort (nth u nbs [])) tot))) <= 40 * Z.of_nat (length (nth u nbs [])).
Proof.
  intros Hc Hsort (Hn & Hok) u tot Hu. rewrite Forall_forall in Hok.
  destruct (Hok (nth u nbs []) (nth_In nbs [] Hu)) as (H1 & H2).
  pose proof (Permutation_length (Hsort (nth u nbs []))) as Hlen. rewrite <- Hlen.
  apply crude_add_sorted_size; [exact Hc| |rewrite Hlen; exact H2].
  apply Forall_forall. intros x Hx. rewrite Forall_forall in H1. apply H1. eapply Permutation_in; [apply Hsort|exact Hx].
Qed.

Lemma fits_of c sort m nbs : conf_ok c -> (forall l, Permutation (sort l) l) -> graph_ok c nbs ->
  Z.of_nat (length (cn_edges (cn_build c sort m nbs))) < 2 ^ c_wi c ->
  Forall (fun nb => 40 * Z.of_nat (length nb) < 2 ^ (c_wn c - 1)) nbs ->
  fits c sort m nbs.
Proof.
  intros Hc Hsort Hok Hsz Hdeg. split; [exact Hsz|]. intros u Hu.
  unfold cn_build in *. pose proof (build_loop_spec c Hc sort Hsort nbs 0 [] 0) as Hb.
  destruct (build_loop c sort 0 nbs [] 0) as [[offsets data] tot]. cbn [cn_nodes cn_edges] in *.
  destruct Hb as (Hl & _ & Hb). destruct (Hb Hsz u Hu) as (pre & post & totu & _ & Ho & Hnx). cbn [Nat.add] in *.
  pose proof (build_loop_crude c sort nbs Hc Hsort Hok u totu Hu) as Hcr.
  rewrite Forall_forall in Hdeg. specialize (Hdeg _ (nth_In nbs [] Hu)).
  assert (H1 : nth u (offsets ++ [wrap_u (c_wi c) (Z.of_nat (length data))]) 0 = Z.of_nat (length pre)) by (rewrite app_nth1 by lia; exact Ho).
  assert (H2 : nth (u + 1) (offsets ++ [wrap_u (c_wi c) (Z.of_nat (length data))]) 0 =
     Z.of_nat (length pre + length (fst (add_sorted c (Z.of_nat u) (sort (nth u nbs [])) totu)))).
  { rewrite <- Hnx. destruct (Nat.eqb_spec (u + 1) (length nbs)) as [E|E].
    - rewrite app_nth2 by lia. replace (u + 1 - length offsets)%nat with 0%nat by lia. cbn [nth]. apply wrap_u_small. lia.
    - apply app_nth1. lia. }
  rewrite H1, H2. lia.
Qed.

(** ** Total edge weight *)
Lemma wsum_app a b : wsum (a ++ b) = wsum a + wsum b.
Proof. unfold wsum. rewrite map_app, zsum_app. reflexivity. Qed.
Lemma wsum_perm a b : Permutation a b -> wsum a = wsum b.
Proof. intros H. unfold wsum. apply zsum_perm. apply Permutation_map. exact H. Qed.
Lemma wsum_nonneg c l : Forall (nbr_ok c) l -> 0 <= wsum l.
Proof. induction 1 as [|x l (_ & Hx) Hl IH]; unfold wsum in *; cbn [map zsum]; lia. Qed.

Lemma wst_after_total c l : conf_ok c -> c_ew c = true -> Forall (nbr_ok c) l -> forall st, 0 <= snd st ->
  snd st + wsum l < 2 ^ (c_we c - 1) -> snd (wst_after c l st) = snd st + wsum l.
Proof.
  intros Hc Hew Hl. pose proof (we_pos c Hc). induction Hl as [|x l Hx Hl IH]; intros st H0 H1; [unfold wsum; cbn; lia|].
  change (wst_after c (x :: l) st) with (wst_after c l (snd (encode_edge_weight c (snd x) st))).
  unfold wsum in *. cbn [map zsum] in *. unfold encode_edge_weight. rewrite Hew. cbn [snd].
  destruct Hx as (_ & Hx). pose proof (wsum_nonneg c l Hl) as Hn. unfold wsum in Hn.
  rewrite wrap_s_small by lia. rewrite IH; cbn [snd]; lia.
Qed.

Lemma encode_gaps_state c node l st : Forall (nbr_ok c) l -> snd (encode_gaps c node (Z.of_nat (length l)) l st) = wst_after c l st.
Proof.
  intros Hl. unfold encode_gaps. destruct l as [|[v w] l]; [reflexivity|].
  destruct (Z.eqb_spec (Z.of_nat (length ((v, w) :: l))) 0) as [E|E]; [cbn [length] in E; lia|].
  inversion Hl as [|? ? Hx Hl']; subst. cbn [skip_invalid]. destruct Hx as (Hv & _). cbn [fst] in Hv.
  unfold kInvalidNodeID. replace (v =? 2 ^ c_wn c - 1) with false by lia.
  cbn [wst_after fold_left snd]. destruct (encode_edge_weight c w st) as [b st'] eqn:E2. cbn [snd].
  pose proof (gap_loop_state c v l st' Hl') as Hg. destruct (encode_gap_loop c v l st') as [b' st'']. exact Hg.
Qed.

Lemma add_edges_total c node nb tot : conf_ok c -> c_ew c = true -> Forall (nbr_ok c) nb -> 0 <= tot -> tot + wsum nb < 2 ^ (c_we c - 1) ->
  snd (add_edges c node (num_ivs c nb) nb tot) = tot + wsum nb.
Proof.
  intros Hc Hew Hnb H0 H1. unfold add_edges, num_ivs, count_intervals. destruct (c_iv c) eqn:Eiv.
  2:{ pose proof (encode_gaps_state c node nb (0, tot) Hnb) as Hg.
      destruct (encode_gaps c node _ nb (0, tot)) as [b st]. cbn [snd] in *. rewrite Hg.
      apply (wst_after_total c nb Hc Hew Hnb (0, tot)); cbn [snd]; lia. }
  set (ivs := parse_intervals (c_wn c) nb) in *.
  pose proof (parse_intervals_sound c Hc nb Hnb : ivs_ok nb 0 ivs) as Hok.
  unfold encode_intervals. fold ivs.
  destruct (Z.ltb_spec 0 (Z.of_nat (length ivs))) as [Hpos|Hzero].
  - pose proof (interval_list_state c nb ivs Hnb 0 0 nb (0, tot) (Z.of_nat (length nb)) Hok eq_refl eq_refl) as Hst.
    destruct (encode_interval_list c ivs 0 nb (0, tot) (Z.of_nat (length nb))) as [[[b st] nb'] rem].
    destruct Hst as (-> & -> & ->).
    pose proof (interval_list_perm c nb ivs Hnb 0 nb Hok eq_refl eq_refl) as (Hq & _). rewrite (live_all c nb Hnb) in Hq.
    pose proof (Permutation_length Hq) as Hql. rewrite app_length in Hql.
    pose proof (iv_slices_length nb 0 ivs Hok) as Hsl.
    replace (Z.of_nat (length nb) - ivs_total ivs) with (Z.of_nat (length (live c (mark_all c nb ivs)))) by lia.
    rewrite encode_gaps_live.
    pose proof (Permutation_Forall Hq Hnb) as Hall. rewrite Forall_app in Hall. destruct Hall as (Ha1 & Ha2).
    pose proof (encode_gaps_state c node (live c (mark_all c nb ivs)) (wst_after c (iv_slices nb ivs) (0, tot)) Ha2) as Hg.
    destruct (encode_gaps c node _ (live c (mark_all c nb ivs)) _) as [b' st']. cbn [snd] in *. rewrite Hg, <- wst_after_app.
    rewrite (wst_after_total c _ Hc Hew); cbn [snd].
    + rewrite <- (wsum_perm _ _ Hq). reflexivity.
    + rewrite Forall_app; auto.
    + lia.
    + rewrite <- (wsum_perm _ _ Hq). lia.
  - pose proof (encode_gaps_state c node nb (0, tot) Hnb) as Hg.
    destruct (encode_gaps c node _ nb (0, tot)) as [b st]. cbn [snd app] in *. rewrite Hg.
    apply (wst_after_total c nb Hc Hew Hnb (0, tot)); cbn [snd]; lia.
Qed.

Lemma part_loop_total c node nb ps : conf_ok c -> c_ew c = true -> Forall (nbr_ok c) nb -> forall off tot, 0 <= tot ->
  tot + wsum (flat_map (part_of nb) ps) < 2 ^ (c_we c - 1) ->
  snd (encode_part_loop c node nb ps off tot) = tot + wsum (flat_map (part_of nb) ps).
Proof.
  intros Hc Hew Hnb. induction ps as [|p ps IH]; intros off tot H0 H1; [cbn; lia|].
  cbn [encode_part_loop flat_map] in *. rewrite wsum_app in *.
  change (if c_iv c then count_intervals (c_wn c) (part_of nb p) else 0) with (num_ivs c (part_of nb p)).
  pose proof (part_ok c nb p Hnb) as Hp. pose proof (wsum_nonneg c _ Hp) as Hp0.
  assert (Hp1 : 0 <= wsum (flat_map (part_of nb) ps)).
  { apply (wsum_nonneg c). apply Forall_forall. intros x Hx. apply in_flat_map in Hx. destruct Hx as (q & _ & Hx).
    rewrite Forall_forall in Hnb. apply Hnb. eapply part_incl; exact Hx. }
  pose proof (add_edges_total c node (part_of nb p) tot Hc Hew Hp H0 ltac:(lia)) as Ha.
  destruct (add_edges c node (num_ivs c (part_of nb p)) (part_of nb p) tot) as [d1 tot1]. cbn [snd] in Ha. subst tot1.
  specialize (IH (off + Z.of_nat (length d1)) (tot + wsum (part_of nb p)) ltac:(lia) ltac:(lia)).
  destruct (encode_part_loop c node nb ps _ _) as [[t' d'] tt]. cbn [snd] in *. lia.
Qed.

Lemma add_sorted_total c node nb tot : conf_ok c -> c_ew c = true -> Forall (nbr_ok c) nb -> 0 <= tot -> tot + wsum nb < 2 ^ (c_we c - 1) ->
  snd (add_sorted c node nb tot) = tot + wsum nb.
Proof.
  intros Hc Hew Hnb H0 H1. unfold add_sorted. destruct (Nat.eqb_spec (length nb) 0) as [E0|E0].
  { destruct nb; [unfold wsum; cbn; lia|cbn [length] in E0; lia]. }
  cbv zeta. fold (is_split c nb).
  set (ni := if c_iv c && negb (is_split c nb) then count_intervals (c_wn c) nb else 0).
  destruct (is_split c nb) eqn:Es.
  - pose proof (part_loop_total c node nb (seq 0 (num_parts (length nb))) Hc Hew Hnb (Z.of_nat (id_bytes c * num_parts (length nb))) tot H0) as Hp.
    rewrite parts_concat in Hp. specialize (Hp H1).
    destruct (encode_part_loop c node nb _ _ tot) as [[t d] tt]. exact Hp.
  - assert (Hni : ni = num_ivs c nb). { subst ni. unfold num_ivs. rewrite andb_true_r. destruct (c_iv c); reflexivity. }
    clearbody ni. subst ni. pose proof (add_edges_total c node nb tot Hc Hew Hnb H0 H1) as Ha.
    destruct (add_edges c node (num_ivs c nb) nb tot). exact Ha.
Qed.


Lemma build_total c sort nbs : conf_ok c -> (forall l, Permutation (sort l) l) -> c_ew c = true ->
  Forall (Forall (nbr_ok c)) nbs -> forall node data tot, 0 <= tot -> tot + total_weight nbs < 2 ^ (c_we c - 1) ->
  snd (build_loop c sort node nbs data tot) = tot + total_weight nbs.
Proof.
  intros Hc Hsort Hew Hok. induction Hok as [|nb nbs Hnb Hok IH]; intros node data tot H0 H1; [unfold total_weight; cbn; lia|].
  unfold total_weight in *. cbn [build_loop map zsum] in *.
  assert (Hsok : Forall (nbr_ok c) (sort nb)).
  { apply Forall_forall. intros x Hx. rewrite Forall_forall in Hnb. apply Hnb. eapply Permutation_in; [apply Hsort|exact Hx]. }
  assert (Hrest : 0 <= zsum (map wsum nbs)).
  { clear -Hok. induction Hok as [|x l Hx Hl IH]; cbn [map zsum]; [lia|]. pose proof (wsum_nonneg c x Hx). lia. }
  pose proof (wsum_perm _ _ (Hsort nb)) as Hw. pose proof (wsum_nonneg c nb Hnb).
  pose proof (add_sorted_total c (Z.of_nat node) (sort nb) tot Hc Hew Hsok H0 ltac:(lia)) as Ha.
  destruct (add_sorted c (Z.of_nat node) (sort nb) tot) as [bytes tot1]. cbn [snd] in Ha. subst tot1.
  specialize (IH (S node) (data ++ bytes) (tot + wsum (sort nb)) ltac:(lia) ltac:(lia)).
  destruct (build_loop c sort (S node) nbs (data ++ bytes) (tot + wsum (sort nb))) as [[o d] tt]. cbn [snd] in *. lia.
Qed.

(** ** At most [max_num] neighbours *)
Lemma visit_max {St} (cb : St -> Z -> Z -> St * bool) max_num l : forall k s, 1 <= k <= Z.max 1 max_num ->
  snd (fst (visit (fun (cs : Z * St) v w => let abort := max_num <=? fst cs in
              let '(s, stop) := cb (snd cs) v w in ((fst cs + 1, s), abort || stop)) (k, s) l)) =
  fst (visit cb s (firstn (Z.to_nat (Z.max 1 max_num - k + 1)) l)).
Proof.
  induction l as [|[v w] l IH]; intros k s Hk.
  - rewrite firstn_nil. reflexivity.
  - replace (Z.to_nat (Z.max 1 max_num - k + 1)) with (S (Z.to_nat (Z.max 1 max_num - k))) by lia.
    cbn [visit firstn fst snd]. destruct (cb s v w) as [s' stop].
    destruct stop; [rewrite orb_true_r; reflexivity|]. rewrite orb_false_r.
    destruct (Z.leb_spec max_num k).
    + replace (Z.to_nat (Z.max 1 max_num - k)) with 0%nat by lia. reflexivity.
    + rewrite IH by lia. f_equal. f_equal. f_equal. lia.
Qed.
