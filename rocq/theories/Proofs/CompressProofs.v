(* Losslessness of the neighbourhood encoding (Model/CompressModel.v). *)
From Verif Require Import Lib.Prelude Lib.Count Spec.Compress Spec.CompressInput Model.MathModel Model.VarintModel Model.CompressModel
  Proofs.VarintProofs.
Local Open Scope Z_scope.

(** ** Edge weights *)
Definition wst_after (c : cconf) (l : list nbr) (st : wstate) : wstate :=
  fold_left (fun st x => snd (encode_edge_weight c (snd x) st)) l st.
Definition prev_ok (c : cconf) (p : Z) : Prop := 0 <= p < 2 ^ (c_we c - 1).

Lemma encode_edge_weight_prev c w st : 0 <= w < 2 ^ (c_we c - 1) -> prev_ok c (fst st) ->
  prev_ok c (fst (snd (encode_edge_weight c w st))).
Proof. unfold encode_edge_weight, prev_ok. destruct (c_ew c); simpl; auto. Qed.

Lemma wst_after_prev c l st : Forall (nbr_ok c) l -> prev_ok c (fst st) -> prev_ok c (fst (wst_after c l st)).
Proof.
  intros Hl. revert st; induction Hl as [|x l Hx Hl IH]; intros st Hst; [exact Hst|].
  apply IH. apply encode_edge_weight_prev; [apply Hx|exact Hst].
Qed.
Lemma wst_after_app c a b st : wst_after c (a ++ b) st = wst_after c b (wst_after c a st).
Proof. apply fold_left_app. Qed.

Section Conf.
Variable c : cconf.
Hypothesis Hc : conf_ok c.

Lemma wn_pos : 32 <= c_wn c <= 64. Proof. destruct Hc as ([?|?] & _); lia. Qed.
Lemma wn_nonneg : 0 <= c_wn c. Proof. pose proof wn_pos; lia. Qed.
Lemma we_pos : 32 <= c_we c <= 64. Proof. destruct Hc as (_ & _ & [?|?]); lia. Qed.

(** ** Intervals: decoding *)
Definition enc_weights (l : list nbr) (st : wstate) : list Z :=
  (fix go l st := match l with [] => [] | x :: l' =>
     fst (encode_edge_weight c (snd x) st) ++ go l' (snd (encode_edge_weight c (snd x) st)) end) l st.
Lemma enc_weights_cons x l st : enc_weights (x :: l) st =
  fst (encode_edge_weight c (snd x) st) ++ enc_weights l (snd (encode_edge_weight c (snd x) st)).
Proof. reflexivity. Qed.

(** ** Gaps *)
Definition live (nb : list nbr) : list nbr := filter (fun x => negb (fst x =? kInvalidNodeID c)) nb.

Lemma encode_gap_loop_live prev nb st : encode_gap_loop c prev nb st = encode_gap_loop c prev (live nb) st.
Proof.
  revert prev st; induction nb as [|[v w] nb IH]; intros prev st; [reflexivity|].
  unfold live in *. cbn [encode_gap_loop filter fst]. destruct (v =? kInvalidNodeID c) eqn:E; cbn [negb].
  - apply IH.
  - cbn [encode_gap_loop]. rewrite E. destruct (encode_edge_weight c w st) as [b st']. rewrite IH. reflexivity.
Qed.
Lemma skip_invalid_live nb : exists nb', live nb = live nb' /\ skip_invalid c nb = nb' /\
  (live nb' = [] -> nb' = []) /\ (forall x t, nb' = x :: t -> live nb' = x :: live t).
Proof.
  induction nb as [|[v w] nb IH].
  - exists []. repeat split; auto; discriminate.
  - cbn [skip_invalid]. destruct (v =? kInvalidNodeID c) eqn:E.
    + destruct IH as (nb' & H1 & H2 & H3 & H4). exists nb'. split; [|auto].
      unfold live in *. cbn [filter fst]. rewrite E. exact H1.
    + exists ((v, w) :: nb). split; [reflexivity|]. split; [reflexivity|].
      unfold live. cbn [filter fst]. rewrite E. cbn [negb]. split; [discriminate|].
      intros x t [= <- <-]. reflexivity.
Qed.
Lemma encode_gaps_live node degree nb st : encode_gaps c node degree nb st = encode_gaps c node degree (live nb) st.
Proof.
  unfold encode_gaps. destruct (degree =? 0); [reflexivity|].
  destruct (skip_invalid_live nb) as (nb' & H1 & -> & H3 & H4). rewrite H1.
  destruct nb' as [|x t].
  - reflexivity.
  - rewrite (H4 x t eq_refl). specialize (H4 x t eq_refl).
    assert (Hx : fst x =? kInvalidNodeID c = false).
    { destruct (fst x =? kInvalidNodeID c) eqn:E; [|reflexivity]. exfalso.
      assert (Hin : In x (live (x :: t))) by (rewrite H4; left; reflexivity).
      apply filter_In in Hin. rewrite E in Hin. destruct Hin; discriminate. }
    destruct x as [v w]. cbn [skip_invalid fst] in *. rewrite Hx.
    destruct (encode_edge_weight c w st) as [b st']. rewrite encode_gap_loop_live. reflexivity.
Qed.
Lemma live_all nb : Forall (nbr_ok c) nb -> live nb = nb.
Proof.
  induction 1 as [|x l Hx Hl IH]; [reflexivity|]. unfold live in *. cbn [filter]. rewrite IH.
  destruct Hx as (Hv & _). unfold kInvalidNodeID. replace (fst x =? 2 ^ c_wn c - 1) with false by lia. reflexivity.
Qed.
Lemma live_app a b : live (a ++ b) = live a ++ live b.
Proof. apply filter_app. Qed.
Lemma live_ok nb : (forall x, In x nb -> fst x = kInvalidNodeID c \/ nbr_ok c x) -> Forall (nbr_ok c) (live nb).
Proof.
  intros H. apply Forall_forall. intros x Hin. apply filter_In in Hin. destruct Hin as (Hin & Hv).
  destruct (H x Hin) as [E|E]; [|exact E]. rewrite E, Z.eqb_refl in Hv. discriminate.
Qed.

Lemma unwrap_gap v prev : 0 <= v < 2 ^ c_wn c -> wrap_u (c_wn c) (wrap_u (c_wn c) (v - prev - 1) + prev + 1) = v.
Proof.
  intros Hv. unfold wrap_u. pose proof (pow2_pos (c_wn c) wn_nonneg).
  replace ((v - prev - 1) mod 2 ^ c_wn c + prev + 1) with ((v - prev - 1) mod 2 ^ c_wn c + (prev + 1)) by lia.
  rewrite Z.add_mod_idemp_l by lia. replace (v - prev - 1 + (prev + 1)) with v by lia. apply Z.mod_small; lia.
Qed.
Lemma unwrap_sub v prev : 0 <= v < 2 ^ c_wn c -> wrap_u (c_wn c) (wrap_u (c_wn c) (v - prev) + prev) = v.
Proof.
  intros Hv. unfold wrap_u. pose proof (pow2_pos (c_wn c) wn_nonneg).
  rewrite Z.add_mod_idemp_l by lia. replace (v - prev + prev) with v by lia. apply Z.mod_small; lia.
Qed.

Lemma gap_loop_state prev nb st : Forall (nbr_ok c) nb -> snd (encode_gap_loop c prev nb st) = wst_after c nb st.
Proof.
  intros Hl. revert prev st. induction Hl as [|x l Hx Hl IH]; intros prev st; [reflexivity|].
  destruct x as [v w]. cbn [encode_gap_loop wst_after fold_left].
  destruct Hx as (Hv & _). cbn [fst] in Hv. unfold kInvalidNodeID. replace (v =? 2 ^ c_wn c - 1) with false by lia.
  cbn [snd]. destruct (encode_edge_weight c w st) as [b st'] eqn:E. specialize (IH v st').
  destruct (encode_gap_loop c v l st') as [b' st'']. cbn [snd] in *. exact IH.
Qed.

(** ** Soundness of parse_intervals *)
Fixpoint ivs_ok (nb : list nbr) (base : nat) (ivs : list (Z * Z * Z * nat)) : Prop :=
  match ivs with
  | [] => True
  | (lft, rgt, len, idx) :: ivs' =>
      (base <= idx)%nat /\ 3 <= len /\ (idx + Z.to_nat len <= length nb)%nat /\ rgt = lft + len - 1 /\ 0 <= lft /\
      (forall j, (j < Z.to_nat len)%nat -> fst (nth (idx + j) nb (0, 0)) = lft + Z.of_nat j) /\
      ivs_ok nb (idx + Z.to_nat len) ivs'
  end.

Lemma ivs_ok_weaken nb b b' ivs : (b' <= b)%nat -> ivs_ok nb b ivs -> ivs_ok nb b' ivs.
Proof. destruct ivs as [|[[[? ?] ?] ?] ?]; cbn [ivs_ok]; intuition lia. Qed.

Lemma parse_loop_sound nb : Forall (nbr_ok c) nb ->
  forall n i len prev rest, (length rest <= n)%nat ->
  skipn i nb = rest -> (i <= length nb)%nat -> 1 <= len <= Z.of_nat i ->
  (forall j, (j < Z.to_nat len)%nat -> fst (nth (i - Z.to_nat len + j) nb (0, 0)) = prev - (len - 1) + Z.of_nat j) ->
  (1 < len -> match rest with [] => False | x :: _ => fst x = prev + 1 end) ->
  ivs_ok nb (i - Z.to_nat len) (parse_loop (c_wn c) i len prev rest).
Proof.
  intros Hnb. pose proof wn_pos as Hwn.
  induction n as [|n IH]; intros i len prev rest Hn Hrest Hi Hlen Hrun Hnext;
    (destruct rest as [|[a w] rest']; [exact I|]); cbn [length] in Hn; [lia|].
  assert (Hlt : (i < length nb)%nat).
  { apply (f_equal (@length _)) in Hrest. rewrite skipn_length in Hrest. cbn [length] in Hrest. lia. }
  assert (Ha : nth i nb (0, 0) = (a, w)).
  { rewrite <- (Nat.add_0_r i), <- nth_skipn, Hrest. reflexivity. }
  assert (Hr' : skipn (Datatypes.S i) nb = rest').
  { replace (Datatypes.S i) with (i + 1)%nat by lia. rewrite <- skipn_skipn, Hrest. reflexivity. }
  assert (Hprev : 0 <= prev < 2 ^ c_wn c - 1).
  { specialize (Hrun (Z.to_nat (len - 1)) ltac:(lia)).
    replace (prev - (len - 1) + Z.of_nat (Z.to_nat (len - 1))) with prev in Hrun by lia.
    rewrite <- Hrun. rewrite Forall_forall in Hnb. apply Hnb, nth_In. lia. }
  assert (Hav : 0 <= a < 2 ^ c_wn c - 1).
  { change a with (fst (a, w)). rewrite <- Ha. rewrite Forall_forall in Hnb. apply Hnb, nth_In. lia. }
  cbn [parse_loop]. rewrite (wrap_u_small _ (prev + 1)) by lia.
  destruct (Z.eqb_spec (prev + 1) a) as [E|E]; cbn [negb].
  - (* a continues the run *)
    cbv zeta.
    assert (Hrun' : forall j, (j < Z.to_nat (len + 1))%nat ->
      fst (nth (Datatypes.S i - Z.to_nat (len + 1) + j) nb (0, 0)) = a - (len + 1 - 1) + Z.of_nat j).
    { intros j Hj. replace (Datatypes.S i - Z.to_nat (len + 1) + j)%nat with (i - Z.to_nat len + j)%nat by lia.
      destruct (Nat.eq_dec j (Z.to_nat len)) as [Ej|Ej].
      - replace (i - Z.to_nat len + j)%nat with i by lia. rewrite Ha. cbn [fst]. lia.
      - rewrite Hrun by lia. lia. }
    destruct (match rest' with [] => false | (b, _) :: _ => wrap_u (c_wn c) (a + 1) =? b end) eqn:El.
    + destruct rest' as [|[b w'] rest'']; [discriminate|].
      rewrite wrap_u_small in El by lia.
      replace (i - Z.to_nat len)%nat with (Datatypes.S i - Z.to_nat (len + 1))%nat by lia.
      apply IH; try assumption; try lia.
      intros _. cbn [fst]. lia.
    + assert (Hrestok : ivs_ok nb (Datatypes.S i) (parse_loop (c_wn c) (Datatypes.S i) 1 a rest')).
      { destruct rest' as [|[b w'] rest'']; [exact I|]. cbn [parse_loop].
        rewrite El. cbn [negb]. rewrite wrap_u_small in El by lia.
        cbn [length] in Hn.
        replace (Datatypes.S i) with (Datatypes.S (Datatypes.S i) - Z.to_nat 1)%nat at 1 by lia.
        assert (Hlt2 : (Datatypes.S i < length nb)%nat).
        { apply (f_equal (@length _)) in Hr'. rewrite skipn_length in Hr'. cbn [length] in Hr'. lia. }
        apply IH; try lia.
        - replace (Datatypes.S (Datatypes.S i)) with (Datatypes.S i + 1)%nat by lia.
          rewrite <- skipn_skipn, Hr'. reflexivity.
        - intros j Hj. replace (Datatypes.S (Datatypes.S i) - Z.to_nat 1 + j)%nat with (Datatypes.S i + 0)%nat by lia.
          rewrite <- nth_skipn, Hr'. cbn [nth fst]. lia. }
      destruct (kIntervalLengthThreshold <=? len + 1) eqn:Et.
      * cbn [app ivs_ok]. unfold kIntervalLengthThreshold in Et.
        assert (Hl0 : 0 <= a - (len + 1 - 1)).
        { specialize (Hrun' 0%nat ltac:(lia)). rewrite Z.add_0_r in Hrun'. rewrite <- Hrun'.
          rewrite Forall_forall in Hnb. apply Hnb, nth_In. lia. }
        rewrite wrap_u_small by lia.
        split; [lia|]. split; [lia|]. split; [lia|]. split; [lia|]. split; [lia|]. split.
        -- intros j Hj. replace (i - Z.to_nat (len + 1 - 1) + j)%nat with (Datatypes.S i - Z.to_nat (len + 1) + j)%nat by lia.
           apply Hrun'. exact Hj.
        -- apply ivs_ok_weaken with (Datatypes.S i); [lia|exact Hrestok].
      * cbn [app]. apply ivs_ok_weaken with (Datatypes.S i); [lia|exact Hrestok].
  - assert (Hl1 : len = 1).
    { destruct (Z.lt_ge_cases 1 len) as [H1|H1]; [|lia]. specialize (Hnext H1). cbn [fst] in Hnext. lia. }
    subst len. apply ivs_ok_weaken with (Datatypes.S i - Z.to_nat 1)%nat; [lia|].
    apply IH; try assumption; try lia.
    intros j Hj. replace (Datatypes.S i - Z.to_nat 1 + j)%nat with i by lia. rewrite Ha. cbn [fst]. lia.
Qed.

Lemma parse_intervals_sound nb : Forall (nbr_ok c) nb -> ivs_ok nb 0 (parse_intervals (c_wn c) nb).
Proof.
  intros Hnb. unfold parse_intervals. destruct (_ <? _); [exact I|].
  destruct nb as [|[a w] rest]; [exact I|].
  change 0%nat with (1 - Z.to_nat 1)%nat.
  apply (parse_loop_sound _ Hnb (length rest)); cbn [length]; try lia; try reflexivity.
  intros j Hj. assert (j = 0%nat) by lia. subst j. change (a = a - (1 - 1) + Z.of_nat 0). lia.
Qed.

(** ** Intervals: encoding *)
Definition slice (nb : list nbr) (pos len : nat) : list nbr := firstn len (skipn pos nb).
Definition mark (x : nbr) : nbr := (kInvalidNodeID c, snd x).
Definition mark_range (nb : list nbr) (pos len : nat) : list nbr :=
  firstn pos nb ++ map mark (slice nb pos len) ++ skipn (pos + len) nb.

Lemma upd_split {A} pos (x : A) l : (pos < length l)%nat -> upd pos x l = firstn pos l ++ x :: skipn (Datatypes.S pos) l.
Proof.
  revert pos; induction l as [|h t IH]; intros pos Hp; [cbn [length] in Hp; lia|].
  destruct pos; [reflexivity|]. cbn [length] in Hp. unfold upd; fold (@upd A). cbn [firstn skipn app].
  rewrite IH by lia. reflexivity.
Qed.

Lemma interval_body_spec len : forall pos nb st, (pos + len <= length nb)%nat ->
  encode_interval_body c len pos nb st =
  (enc_weights (slice nb pos len) st, wst_after c (slice nb pos len) st, mark_range nb pos len).
Proof.
  induction len as [|len IH]; intros pos nb st Hl.
  - unfold mark_range, slice. cbn [encode_interval_body firstn map app]. rewrite Nat.add_0_r, firstn_skipn. reflexivity.
  - cbn [encode_interval_body]. set (x := nth pos nb (0, 0)).
    assert (Hs : slice nb pos (Datatypes.S len) = x :: slice nb (Datatypes.S pos) len).
    { unfold slice. rewrite (skipn_cons_nth (0,0) pos nb) by lia. reflexivity. }
    rewrite upd_nth_same by lia. cbn [snd]. rewrite Hs. rewrite enc_weights_cons. cbn [wst_after fold_left].
    destruct (encode_edge_weight c (snd x) st) as [b st'] eqn:E. cbn [fst snd].
    rewrite IH by (rewrite upd_length; lia).
    assert (Hup : upd pos (kInvalidNodeID c, snd x) nb = firstn pos nb ++ mark x :: skipn (Datatypes.S pos) nb).
    { apply upd_split. lia. }
    assert (Hsk : forall k, skipn (Datatypes.S pos + k) (upd pos (kInvalidNodeID c, snd x) nb) = skipn (Datatypes.S pos + k) nb).
    { intros k. rewrite Hup. rewrite skipn_app, firstn_length. replace (Nat.min pos (length nb)) with pos by lia.
      rewrite (skipn_all2 (firstn pos nb)) by (rewrite firstn_length; lia).
      replace (Datatypes.S pos + k - pos)%nat with (Datatypes.S k) by lia.
      change ([] ++ skipn (Datatypes.S k) (mark x :: skipn (Datatypes.S pos) nb)) with (skipn k (skipn (Datatypes.S pos) nb)).
      apply skipn_skipn. }
    assert (Hsl : slice (upd pos (kInvalidNodeID c, snd x) nb) (Datatypes.S pos) len = slice nb (Datatypes.S pos) len).
    { unfold slice. f_equal. pose proof (Hsk 0%nat) as H. rewrite !Nat.add_0_r in H. exact H. }
    rewrite Hsl. f_equal.
    unfold mark_range. rewrite Hsl, Hsk, Hs. cbn [map].
    replace (pos + Datatypes.S len)%nat with (Datatypes.S pos + len)%nat by lia.
    rewrite Hup. rewrite firstn_app, firstn_length. replace (Nat.min pos (length nb)) with pos by lia.
    rewrite (firstn_all2 (firstn pos nb)) by (rewrite firstn_length; lia).
    replace (Datatypes.S pos - pos)%nat with 1%nat by lia. cbn [firstn]. rewrite <- app_assoc. reflexivity.
Qed.

Definition iv_slices (nb : list nbr) (ivs : list (Z * Z * Z * nat)) : list nbr :=
  flat_map (fun iv => slice nb (snd iv) (Z.to_nat (snd (fst iv)))) ivs.
Definition mark_all (cur : list nbr) (ivs : list (Z * Z * Z * nat)) : list nbr :=
  fold_left (fun cur iv => mark_range cur (snd iv) (Z.to_nat (snd (fst iv)))) ivs cur.

Lemma mark_range_length nb pos len : (pos + len <= length nb)%nat -> length (mark_range nb pos len) = length nb.
Proof.
  intros. unfold mark_range, slice. rewrite !app_length, map_length, !firstn_length, !skipn_length. lia.
Qed.
Lemma mark_range_skipn nb pos len : (pos + len <= length nb)%nat ->
  skipn (pos + len) (mark_range nb pos len) = skipn (pos + len) nb.
Proof.
  intros. unfold mark_range. rewrite app_assoc, skipn_app.
  assert (Hl : length (firstn pos nb ++ map mark (slice nb pos len)) = (pos + len)%nat).
  { unfold slice. rewrite app_length, map_length, !firstn_length, skipn_length. lia. }
  rewrite skipn_all2 by lia. rewrite Hl, Nat.sub_diag. reflexivity.
Qed.

Lemma live_marked l : live (map mark l) = [].
Proof. induction l as [|x l IH]; [reflexivity|]. unfold live in *. cbn [map filter mark fst]. rewrite Z.eqb_refl. exact IH. Qed.

Lemma slice_split nb pos len : nb = firstn pos nb ++ slice nb pos len ++ skipn (pos + len) nb.
Proof.
  unfold slice. rewrite <- skipn_skipn, firstn_skipn. symmetry. apply firstn_skipn.
Qed.

Lemma live_mark_range nb pos len : (forall x, In x (slice nb pos len) -> nbr_ok c x) ->
  Permutation (live nb) (slice nb pos len ++ live (mark_range nb pos len)).
Proof.
  intros Hs. unfold mark_range. rewrite !live_app, live_marked. cbn [app].
  rewrite (slice_split nb pos len) at 1. rewrite !live_app.
  rewrite (live_all (slice nb pos len)) by (apply Forall_forall; exact Hs).
  rewrite !app_assoc. apply Permutation_app_tail. apply Permutation_app_comm.
Qed.

Lemma slice_same nb cur base pos len : skipn base cur = skipn base nb -> (base <= pos)%nat ->
  slice cur pos len = slice nb pos len.
Proof.
  intros H Hb. unfold slice. f_equal. replace pos with (base + (pos - base))%nat by lia.
  rewrite <- !skipn_skipn, H. reflexivity.
Qed.
Lemma skipn_same {A} (nb cur : list A) base pos : skipn base cur = skipn base nb -> (base <= pos)%nat ->
  skipn pos cur = skipn pos nb.
Proof.
  intros H Hb. replace pos with (base + (pos - base))%nat by lia. rewrite <- !skipn_skipn, H. reflexivity.
Qed.

Lemma slice_ok nb pos len : Forall (nbr_ok c) nb -> Forall (nbr_ok c) (slice nb pos len).
Proof.
  intros H. apply Forall_forall. intros x Hx. rewrite Forall_forall in H. apply H.
  rewrite (slice_split nb pos len). apply in_or_app. right. apply in_or_app. left. exact Hx.
Qed.

Lemma nth_slice nb pos len j : (j < len)%nat -> nth j (slice nb pos len) (0, 0) = nth (pos + j) nb (0, 0).
Proof. intros. unfold slice. rewrite nth_firstn_lt by lia. apply nth_skipn. Qed.
Lemma slice_length nb pos len : (pos + len <= length nb)%nat -> length (slice nb pos len) = len.
Proof. intros. unfold slice. rewrite firstn_length, skipn_length. lia. Qed.

Lemma interval_list_perm nb ivs : Forall (nbr_ok c) nb -> forall base cur,
  ivs_ok nb base ivs -> length cur = length nb -> skipn base cur = skipn base nb ->
  Permutation (live cur) (iv_slices nb ivs ++ live (mark_all cur ivs)) /\ length (mark_all cur ivs) = length nb.
Proof.
  intros Hnb. induction ivs as [|[[[lft rgt] len] idx] ivs IH]; intros base cur Hok Hlen Hsk.
  - cbn. auto.
  - cbn [ivs_ok] in Hok. destruct Hok as (Hb & Hl3 & Hbd & _ & _ & _ & Hok).
    cbn [iv_slices flat_map mark_all fold_left fst snd].
    pose proof (slice_same nb cur base idx (Z.to_nat len) Hsk Hb) as Hss.
    destruct (IH (idx + Z.to_nat len)%nat (mark_range cur idx (Z.to_nat len)) Hok) as (Hp & Hl').
    { rewrite mark_range_length; lia. }
    { rewrite mark_range_skipn by lia. apply skipn_same with base; [exact Hsk|lia]. }
    split; [|exact Hl'].
    rewrite <- app_assoc. rewrite <- Hss.
    eapply perm_trans; [apply live_mark_range|].
    + intros x Hx. rewrite Hss in Hx. pose proof (slice_ok nb idx (Z.to_nat len) Hnb) as H. rewrite Forall_forall in H. auto.
    + apply Permutation_app_head. exact Hp.
Qed.

Definition ivs_total (ivs : list (Z * Z * Z * nat)) : Z := zsum (map (fun iv => snd (fst iv)) ivs).
Lemma iv_slices_length nb base ivs : ivs_ok nb base ivs -> Z.of_nat (length (iv_slices nb ivs)) = ivs_total ivs.
Proof.
  revert base; induction ivs as [|[[[lft rgt] len] idx] ivs IH]; intros base Hok; [reflexivity|].
  cbn [ivs_ok] in Hok. destruct Hok as (Hb & Hl3 & Hbd & _ & _ & _ & Hok).
  cbn [iv_slices flat_map ivs_total map zsum fst snd]. rewrite app_length, slice_length by lia.
  specialize (IH _ Hok). unfold iv_slices, ivs_total in IH. lia.
Qed.

(** Encoding the intervals: final state. *)
Lemma interval_list_state nb ivs : Forall (nbr_ok c) nb -> forall base prev_right cur st remaining,
  ivs_ok nb base ivs -> length cur = length nb -> skipn base cur = skipn base nb ->
  let '(_, st', nb', rem') := encode_interval_list c ivs prev_right cur st remaining in
  st' = wst_after c (iv_slices nb ivs) st /\ nb' = mark_all cur ivs /\ rem' = remaining - ivs_total ivs.
Proof.
  intros Hnb. induction ivs as [|[[[lft rgt] len] idx] ivs IH]; intros base pr cur st remaining Hok Hlen Hsk.
  - cbn. split; [reflexivity|]. split; [reflexivity|]. lia.
  - cbn [ivs_ok] in Hok. destruct Hok as (Hb & Hl3 & Hbd & _ & _ & _ & Hok).
    cbn [encode_interval_list].
    rewrite interval_body_spec by lia.
    pose proof (slice_same nb cur base idx (Z.to_nat len) Hsk Hb) as Hss.
    specialize (IH (idx + Z.to_nat len)%nat (wrap_u (c_wn c) (rgt + 2)) (mark_range cur idx (Z.to_nat len))
      (wst_after c (slice cur idx (Z.to_nat len)) st) (remaining - len) Hok).
    destruct (encode_interval_list c ivs _ _ _ _) as [[[b' st'] nb'] rem'].
    destruct IH as (-> & -> & ->).
    { rewrite mark_range_length; lia. }
    { rewrite mark_range_skipn by lia. apply skipn_same with base; [exact Hsk|lia]. }
    cbn [iv_slices flat_map mark_all fold_left ivs_total map zsum fst snd]. rewrite wst_after_app, Hss.
    split; [reflexivity|]. split; [reflexivity|]. unfold ivs_total. lia.
Qed.

(** ** One (part of a) neighbourhood *)
Definition ivs_of (nb : list nbr) : list (Z * Z * Z * nat) := if c_iv c then parse_intervals (c_wn c) nb else [].
(** The order in which the neighbours are decoded. *)
Definition decode_order (nb : list nbr) : list nbr :=
  iv_slices nb (ivs_of nb) ++ live (mark_all nb (ivs_of nb)).
Definition num_ivs (nb : list nbr) : Z := if c_iv c then count_intervals (c_wn c) nb else 0.

Lemma ivs_of_ok nb : Forall (nbr_ok c) nb -> ivs_ok nb 0 (ivs_of nb).
Proof. intros. unfold ivs_of. destruct (c_iv c); [apply parse_intervals_sound; auto|exact I]. Qed.

Lemma decode_order_perm nb : Forall (nbr_ok c) nb -> Permutation nb (decode_order nb).
Proof.
  intros Hnb. destruct (interval_list_perm nb (ivs_of nb) Hnb 0 nb (ivs_of_ok nb Hnb) eq_refl eq_refl) as (Hp & _).
  rewrite (live_all nb Hnb) in Hp. exact Hp.
Qed.

Lemma decode_order_ok nb : Forall (nbr_ok c) nb -> Forall (nbr_ok c) (decode_order nb).
Proof. intros H. eapply Permutation_Forall; [apply decode_order_perm; exact H|exact H]. Qed.


(** * Decoding what was encoded *)
Section Cb.
Context {S : Type}.
Variable cb : S -> Z -> Z -> S * bool.

(** [f] started on [bytes ++ suffix] visits exactly [l]. *)
Definition dec_ok (f : dstate S -> option (dstate S * bool)) (bytes : list Z) (prev : Z) (l : list nbr) (prev' : Z) : Prop :=
  forall suffix s, exists d p,
    f (bytes ++ suffix, prev, s) = Some ((d, p, fst (visit cb s (map (eff c) l))), snd (visit cb s (map (eff c) l))) /\
    (snd (visit cb s (map (eff c) l)) = false -> d = suffix /\ p = prev').

Lemma invoke_ok x st : nbr_ok c x -> prev_ok c (fst st) ->
  dec_ok (invoke_callback c cb (fst x)) (fst (encode_edge_weight c (snd x) st)) (fst st) [x]
    (fst (snd (encode_edge_weight c (snd x) st))).
Proof.
  intros (Hv & Hw) Hp suffix s. unfold invoke_callback, encode_edge_weight, eff. cbn [map visit].
  pose proof we_pos as Hwe. unfold prev_ok in Hp.
  destruct (c_ew c); cbn [fst snd].
  - rewrite wrap_s_small by lia.
    rewrite signed_roundtrip by lia.
    replace (snd x - fst st + fst st) with (snd x) by lia.
    rewrite wrap_s_small by lia. destruct (cb s (fst x) (snd x)) as [s' stop].
    exists suffix, (snd x). destruct stop; cbn [fst snd]; auto.
  - cbn [app]. destruct (cb s (fst x) 1) as [s' stop]. exists suffix, (fst st). destruct stop; cbn [fst snd]; auto.
Qed.

Lemma visit_app s a b : visit cb s (a ++ b) =
  let '(s', stop) := visit cb s a in if stop then (s', true) else visit cb s' b.
Proof.
  revert s; induction a as [|[v w] a IH]; intros s; cbn [app visit]; [reflexivity|].
  destruct (cb s v w) as [s' [|]]; [reflexivity|]. apply IH.
Qed.

Lemma decode_interval_ok lft j l st : Forall (nbr_ok c) l -> prev_ok c (fst st) ->
  (forall i, (i < length l)%nat -> fst (nth i l (0, 0)) = lft + Z.of_nat (j + i)) ->
  dec_ok (decode_interval c cb lft j (length l)) (enc_weights l st) (fst st) l (fst (wst_after c l st)).
Proof.
  intros Hl. revert j st. induction Hl as [|x l Hx Hl IH]; intros j st Hst Hj suffix s.
  - exists suffix, (fst st). split; [reflexivity|]. auto.
  - cbn [length decode_interval]. pose proof (Hj 0%nat ltac:(cbn [length]; lia)) as H0. cbn [nth] in H0.
    rewrite Nat.add_0_r in H0. rewrite wrap_u_small by (destruct Hx; lia). rewrite <- H0.
    rewrite enc_weights_cons, <- app_assoc.
    destruct (invoke_ok x st Hx Hst (enc_weights l (snd (encode_edge_weight c (snd x) st)) ++ suffix) s) as (d & p & Hi & Hd).
    rewrite Hi. cbn [map visit] in *. destruct (eff c x) as [v w] eqn:Ee.
    destruct (cb s v w) as [s' [|]]; cbn [fst snd] in *.
    + exists d, p. split; [reflexivity|discriminate].
    + destruct (Hd eq_refl) as (-> & ->). cbn [wst_after fold_left].
      apply (IH (Datatypes.S j) (snd (encode_edge_weight c (snd x) st))).
      * apply encode_edge_weight_prev; [apply Hx|exact Hst].
      * intros i Hi'. specialize (Hj (Datatypes.S i) ltac:(cbn [length]; lia)). cbn [nth] in Hj. rewrite Hj. f_equal. f_equal. lia.
Qed.

Lemma gap_loop_ok prev nb st : Forall (nbr_ok c) nb -> prev_ok c (fst st) ->
  dec_ok (decode_gap_loop c cb (length nb) prev) (fst (encode_gap_loop c prev nb st)) (fst st) nb
    (fst (wst_after c nb st)).
Proof.
  intros Hl. revert prev st. induction Hl as [|x l Hx Hl IH]; intros prev st Hst suffix s.
  - exists suffix, (fst st). split; [reflexivity|]. auto.
  - destruct x as [v w]. cbn [encode_gap_loop length decode_gap_loop].
    pose proof Hx as (Hv & Hw). cbn [fst snd] in Hv, Hw. pose proof wn_pos as Hwn.
    unfold kInvalidNodeID. replace (v =? 2 ^ c_wn c - 1) with false by lia.
    pose proof (invoke_ok (v, w) st Hx Hst) as Hi. cbn [fst snd] in Hi.
    pose proof (encode_edge_weight_prev c w st Hw Hst) as Hst'.
    cbn [wst_after fold_left snd].
    destruct (encode_edge_weight c w st) as [b st'] eqn:E. cbn [fst snd] in *.
    specialize (IH v st' Hst').
    destruct (encode_gap_loop c v l st') as [b' st''] eqn:Eg. cbn [fst snd] in *.
    rewrite <- !app_assoc. rewrite varint_roundtrip by (try lia; apply wrap_u_range; lia).
    rewrite unwrap_gap by lia.
    destruct (Hi (b' ++ suffix) s) as (d & p & Hi' & Hd). rewrite Hi'.
    cbn [map visit] in *. destruct (eff c (v, w)) as [v' w'] eqn:Ee.
    destruct (cb s v' w') as [s' [|]]; cbn [fst snd] in *.
    + exists d, p. split; [reflexivity|discriminate].
    + destruct (Hd eq_refl) as (-> & ->). apply IH.
Qed.

(** Encoding then decoding the intervals. *)
Lemma interval_list_ok nb ivs : Forall (nbr_ok c) nb -> Z.of_nat (length nb) < 2 ^ c_wn c ->
  forall base prev_right cur st remaining rem0 suffix s,
  ivs_ok nb base ivs -> length cur = length nb -> skipn base cur = skipn base nb -> prev_ok c (fst st) ->
  ivs_total ivs <= rem0 < 2 ^ c_wn c ->
  let '(bytes, st', _, _) := encode_interval_list c ivs prev_right cur st remaining in
  let r := visit cb s (map (eff c) (iv_slices nb ivs)) in
  exists d p rem', decode_interval_list c cb (length ivs) prev_right rem0 (bytes ++ suffix, fst st, s) =
    Some ((d, p, fst r), rem', snd r) /\
    (snd r = false -> d = suffix /\ p = fst st' /\ rem' = rem0 - ivs_total ivs).
Proof.
  intros Hnb Hsize. pose proof wn_pos as Hwn.
  induction ivs as [|[[[lft rgt] len] idx] ivs IH]; intros base pr cur st remaining rem0 suffix s Hok Hlen Hsk Hst Htot.
  - cbn [encode_interval_list]. cbn. exists suffix, (fst st), rem0. split; [reflexivity|].
    intros _. split; [reflexivity|]. split; [reflexivity|]. lia.
  - pose proof Hok as Hok0. cbn [ivs_ok] in Hok. destruct Hok as (Hb & Hl3 & Hbd & Hr & Hl0 & Hj & Hok).
    cbn [encode_interval_list].
    rewrite interval_body_spec by lia.
    pose proof (slice_same nb cur base idx (Z.to_nat len) Hsk Hb) as Hss.
    rewrite Hss.
    assert (Htail : 0 <= ivs_total ivs) by (rewrite <- (iv_slices_length nb _ ivs Hok); lia).
    unfold ivs_total in Htot. cbn [map zsum fst snd] in Htot. fold (ivs_total ivs) in Htot.
    specialize (IH (idx + Z.to_nat len)%nat (wrap_u (c_wn c) (rgt + 2)) (mark_range cur idx (Z.to_nat len))
      (wst_after c (slice nb idx (Z.to_nat len)) st) (remaining - len) (rem0 - len)).
    pose proof (slice_ok nb idx (Z.to_nat len) Hnb) as Hsok.
    pose proof (slice_length nb idx (Z.to_nat len) ltac:(lia)) as Hsl.
    assert (Hlftr : 0 <= lft < 2 ^ c_wn c).
    { specialize (Hj 0%nat ltac:(lia)). rewrite Z.add_0_r in Hj. rewrite <- Hj.
      rewrite Forall_forall in Hnb. destruct (Hnb (nth (idx + 0) nb (0,0))) as (Hq & _); [apply nth_In; lia|]. lia. }
    assert (Hprev' : prev_ok c (fst (wst_after c (slice nb idx (Z.to_nat len)) st))) by (apply wst_after_prev; assumption).
    destruct (encode_interval_list c ivs _ _ _ _) as [[[b' st'] nb'] rem'].
    cbv zeta. cbn [length decode_interval_list].
    rewrite <- !app_assoc.
    rewrite varint_roundtrip by (try lia; apply wrap_u_range; lia).
    rewrite varint_roundtrip by (try lia; apply wrap_u_range; lia).
    rewrite unwrap_sub by lia. rewrite unwrap_sub by lia.
    cbn [iv_slices flat_map fst snd]. rewrite map_app, visit_app.
    destruct (decode_interval_ok lft 0 (slice nb idx (Z.to_nat len)) st Hsok Hst) with (suffix := b' ++ suffix) (s := s) as (d & p & Hd & Hcont).
    { intros i Hi. rewrite Hsl in Hi. rewrite nth_slice by lia. rewrite Hj by lia. reflexivity. }
    rewrite Hsl in Hd. rewrite Hd.
    destruct (visit cb s (map (eff c) (slice nb idx (Z.to_nat len)))) as [s1 [|]]; cbn [fst snd] in *.
    + exists d, p, rem0. split; [reflexivity|discriminate].
    + destruct (Hcont eq_refl) as (-> & ->).
      replace (lft + (len - 1) + 2) with (rgt + 2) by lia.
      rewrite (wrap_u_small _ (rem0 - len)) by lia.
      destruct (IH suffix s1) as (d' & p' & rem'' & Hd' & Hc'); try assumption; try lia.
      { rewrite mark_range_length; lia. }
      { rewrite mark_range_skipn by lia. apply skipn_same with base; [exact Hsk|lia]. }
      exists d', p', rem''. split; [exact Hd'|]. intros Hs. destruct (Hc' Hs) as (-> & -> & ->).
      split; [reflexivity|]. split; [reflexivity|]. unfold ivs_total. cbn [map zsum fst snd]. lia.
Qed.

Lemma map_eff_visit_rest node degree nb st s suffix : Forall (nbr_ok c) nb -> nb <> [] -> prev_ok c (fst st) ->
  Z.of_nat (length nb) < 2 ^ c_wn c -> 0 <= node < 2 ^ c_wn c -> degree <> 0 ->
  match signed_varint_decode 64 (fst (encode_gaps c node degree nb st) ++ suffix) with
  | None => None
  | Some (first_gap, data) =>
      let first := wrap_u (c_wn c) (first_gap + node) in
      match invoke_callback c cb first (data, fst st, s) with
      | None => None
      | Some ((_, _, s), true) => Some (s, true)
      | Some (st, false) =>
          match decode_gap_loop c cb (Z.to_nat (wrap_u (c_wn c) (Z.of_nat (length nb) - 1))) first st with
          | None => None
          | Some ((_, _, s), stop) => Some (s, stop)
          end
      end
  end = Some (visit cb s (map (eff c) nb)).
Proof.
  intros Hnb Hne Hst Hsize Hnode Hdeg. pose proof wn_pos as Hwn.
  destruct nb as [|[v w] nb]; [congruence|]. apply Forall_cons_iff in Hnb. destruct Hnb as (Hx & Hnb).
  pose proof Hx as (Hv & Hw). cbn [fst snd] in Hv, Hw.
  unfold encode_gaps. destruct (Z.eqb_spec degree 0); [contradiction|]. cbn [skip_invalid]. unfold kInvalidNodeID. replace (v =? 2 ^ c_wn c - 1) with false by lia.
  pose proof (invoke_ok (v, w) st Hx Hst) as Hi. cbn [fst snd] in Hi.
  pose proof (encode_edge_weight_prev c w st Hw Hst) as Hst'.
  destruct (encode_edge_weight c w st) as [b st'] eqn:E. cbn [fst snd] in *.
  pose proof (gap_loop_ok v nb st' Hnb Hst') as Hg.
  destruct (encode_gap_loop c v nb st') as [b' st''] eqn:Eg. cbn [fst snd] in *.
  rewrite <- !app_assoc.
  rewrite signed_roundtrip by (try lia; apply wrap_s_range; lia).
  cbv zeta.
  assert (Hfirst : wrap_u (c_wn c) (wrap_s 64 (v - node) + node) = v).
  { unfold wrap_s, wrap_u. change (2 ^ 64) with 18446744073709551616. change (2 ^ (64 - 1)) with 9223372036854775808.
    set (m := (v - node + 9223372036854775808)).
    assert (Hm : m mod 18446744073709551616 = m - 18446744073709551616 * (m / 18446744073709551616)) by (rewrite Z.mod_eq; lia).
    destruct Hc as ([H32|H64] & _).
    - rewrite H32 in *. change (2 ^ 32) with 4294967296 in *.
      assert (Hdiv : m / 18446744073709551616 = 0) by (apply Z.div_small; subst m; lia).
      rewrite Hm, Hdiv. subst m. rewrite Z.mod_small; lia.
    - rewrite H64 in *. change (2 ^ 64) with 18446744073709551616 in *. rewrite Hm.
      replace (m - 18446744073709551616 * (m / 18446744073709551616) - 9223372036854775808 + node)
        with (v + (- (m / 18446744073709551616)) * 18446744073709551616) by (subst m; lia).
      rewrite Z.mod_add by lia. apply Z.mod_small. lia. }
  rewrite Hfirst.
  destruct (Hi (b' ++ suffix) s) as (d & p & Hi' & Hd). rewrite Hi'.
  cbn [map visit] in *. destruct (eff c (v, w)) as [v' w'] eqn:Ee.
  destruct (cb s v' w') as [s' [|]]; cbn [fst snd] in *.
  - reflexivity.
  - destruct (Hd eq_refl) as (-> & ->). cbn [length] in Hsize |- *.
    rewrite wrap_u_small by lia. replace (Z.to_nat (Z.of_nat (Datatypes.S (length nb)) - 1)) with (length nb) by lia.
    destruct (Hg suffix s') as (d & p & -> & _). destruct (visit cb s' (map (eff c) nb)); reflexivity.
Qed.

Lemma add_edges_ok node nb tot suffix s : Forall (nbr_ok c) nb -> nb <> [] ->
  Z.of_nat (length nb) < 2 ^ c_wn c -> 0 <= node < 2 ^ c_wn c ->
  decode_edges c cb (fst (add_edges c node (num_ivs nb) nb tot) ++ suffix) node (Z.of_nat (length nb))
    (0 <? num_ivs nb) s = Some (visit cb s (map (eff c) (decode_order nb))).
Proof.
  intros Hnb Hne Hsize Hnode. pose proof wn_pos as Hwn.
  pose proof (ivs_of_ok nb Hnb) as Hok.
  pose proof (interval_list_perm nb (ivs_of nb) Hnb 0 nb Hok eq_refl eq_refl) as (Hperm & Hlen).
  rewrite (live_all nb Hnb) in Hperm.
  assert (Hp0 : prev_ok c (fst (0, tot))).
  { unfold prev_ok. cbn [fst]. pose proof (pow2_pos (c_we c - 1) ltac:(pose proof we_pos; lia)). lia. }
  assert (Hlive : Forall (nbr_ok c) (live (mark_all nb (ivs_of nb)))).
  { pose proof (decode_order_ok nb Hnb) as H. unfold decode_order in H. apply Forall_app in H. apply H. }
  pose proof (iv_slices_length nb 0 (ivs_of nb) Hok) as Hsl.
  assert (Hcount : Z.of_nat (length nb) = ivs_total (ivs_of nb) + Z.of_nat (length (live (mark_all nb (ivs_of nb))))).
  { rewrite <- Hsl. apply Permutation_length in Hperm. rewrite app_length in Hperm. lia. }
  unfold add_edges, decode_edges, num_ivs in *. unfold decode_order, ivs_of, count_intervals in *.
  assert (Hnlen : (0 < length nb)%nat) by (destruct nb; cbn [length]; [congruence|lia]).
  destruct (c_iv c) eqn:Eiv; cbn [andb].
  - set (ivs := parse_intervals (c_wn c) nb) in *.
    unfold encode_intervals. fold ivs.
    destruct (Z.ltb_spec 0 (Z.of_nat (length ivs))) as [Hpos|Hzero]; cbn [andb].
    + pose proof (interval_list_state nb ivs Hnb 0 0 nb (0, tot) (Z.of_nat (length nb)) Hok eq_refl eq_refl) as Hstate.
      pose proof (fun suffix => interval_list_ok nb ivs Hnb Hsize 0 0 nb (0, tot) (Z.of_nat (length nb)) (Z.of_nat (length nb)) suffix s
                    Hok eq_refl eq_refl Hp0 ltac:(lia)) as Hdec.
      destruct (encode_interval_list c ivs 0 nb (0, tot) (Z.of_nat (length nb))) as [[[bytes st'] nb'] rem'].
      destruct Hstate as (-> & -> & ->).
      replace (Z.of_nat (length nb) - ivs_total ivs) with (Z.of_nat (length (live (mark_all nb ivs)))) by lia.
      pose proof (encode_gaps_live node (Z.of_nat (length (live (mark_all nb ivs)))) (mark_all nb ivs) (wst_after c (iv_slices nb ivs) (0, tot))) as Hgl.
      destruct (encode_gaps c node (Z.of_nat (length (live (mark_all nb ivs)))) (mark_all nb ivs) (wst_after c (iv_slices nb ivs) (0, tot))) as [bg stg] eqn:Eg.
      cbn [fst snd] in *. rewrite <- !app_assoc.
      assert (Hcnt : (length ivs <= length nb)%nat).
      { assert (Hle : Z.of_nat (length ivs) <= ivs_total ivs).
        { clear -Hok. revert Hok. generalize 0%nat. induction ivs as [|[[[? ?] len] idx] ivs IH]; intros base Hok; [cbn; lia|].
          cbn [ivs_ok] in Hok. destruct Hok as (_ & Hl & _ & _ & _ & _ & Hok). specialize (IH _ Hok).
          unfold ivs_total in *. cbn [map zsum length fst snd]. lia. }
        lia. }
      rewrite varint_roundtrip by lia.
      replace (Z.of_nat (length ivs) - 1 + 1) with (Z.of_nat (length ivs)) by lia.
      rewrite wrap_u_small by lia. destruct (Z.eqb_spec (Z.of_nat (length ivs)) 0); [lia|].
      rewrite Nat2Z.id. destruct (Hdec (bg ++ suffix)) as (d & p & rem'' & Hd & Hcont). rewrite Hd.
      rewrite map_app, visit_app.
      destruct (visit cb s (map (eff c) (iv_slices nb ivs))) as [s1 [|]]; cbn [fst snd] in *; [reflexivity|].
      destruct (Hcont eq_refl) as (-> & -> & ->).
      replace (Z.of_nat (length nb) - ivs_total ivs) with (Z.of_nat (length (live (mark_all nb ivs)))) by lia.
      destruct (Z.eqb_spec (Z.of_nat (length (live (mark_all nb ivs)))) 0) as [E0|E0].
      * destruct (live (mark_all nb ivs)); [reflexivity|cbn [length] in E0; lia].
      * replace bg with (fst (encode_gaps c node (Z.of_nat (length (live (mark_all nb ivs)))) (live (mark_all nb ivs)) (wst_after c (iv_slices nb ivs) (0, tot)))) by (rewrite <- Hgl; reflexivity).
        apply map_eff_visit_rest; try assumption; try lia.
        -- intros Hnil. rewrite Hnil in E0. cbn [length] in E0. lia.
        -- apply wst_after_prev; [|exact Hp0]. pose proof (decode_order_ok nb Hnb) as H. unfold decode_order, ivs_of in H. rewrite Eiv in H. fold ivs in H.
           apply Forall_app in H. apply H.
    + assert (Hnil : ivs = []) by (destruct ivs; [reflexivity|cbn [length] in Hzero; lia]).
      rewrite Hnil in *. cbn [iv_slices flat_map mark_all fold_left app]. rewrite (live_all nb Hnb).
      pose proof (fun suffix => map_eff_visit_rest node (Z.of_nat (length nb)) nb (0, tot) s suffix Hnb Hne Hp0 Hsize Hnode ltac:(lia)) as Hr.
      destruct (encode_gaps c node (Z.of_nat (length nb)) nb (0, tot)) as [bg stg]. cbn [fst snd app] in *. apply Hr.
  - cbn [iv_slices flat_map mark_all fold_left app]. rewrite (live_all nb Hnb).
    pose proof (fun suffix => map_eff_visit_rest node (Z.of_nat (length nb)) nb (0, tot) s suffix Hnb Hne Hp0 Hsize Hnode ltac:(lia)) as Hr.
    destruct (encode_gaps c node (Z.of_nat (length nb)) nb (0, tot)) as [bg stg]. cbn [fst snd app] in *. apply Hr.
Qed.

End Cb.
End Conf.

