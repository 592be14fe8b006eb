(* Proofs about StreamVByte: bytes of values, registers, encoder memory. *)
From Verif Require Import Lib.Prelude Lib.Count Model.MathModel Model.VarintModel Model.StreamVByteModel Proofs.MathProofs.
Local Open Scope Z_scope.

(* ------------------------------------------------------------------------------------------- bytes of a value *)
Lemma bwidth_char v b : 0 <= v -> (1 <= b)%nat -> v < 256 ^ Z.of_nat b -> (b = 1%nat \/ 256 ^ Z.of_nat (b - 1) <= v) -> bwidth v = b.
Proof.
  intros H0 Hb Hu Hl. unfold bwidth. destruct (byte_width_spec (Z.to_N v)) as [A B].
  set (k := byte_width (Z.to_N v)) in *. assert (Ev : Z.of_N (Z.to_N v) = v) by (apply Z2N.id; exact H0).
  assert (Pw : forall x : N, Z.of_N (256 ^ x) = 256 ^ Z.of_N x) by (intros; rewrite N2Z.inj_pow; reflexivity).
  assert (A' : v < 256 ^ Z.of_N k). { rewrite <- Pw, <- Ev. apply N2Z.inj_lt. exact A. }
  assert (B' : forall x : N, (1 <= x)%N -> v < 256 ^ Z.of_N x -> (k <= x)%N).
  { intros x Hx Hv. apply B; [exact Hx|]. apply N2Z.inj_lt. rewrite Pw, Ev. exact Hv. }
  pose proof (B' (N.of_nat b) ltac:(lia)) as B1. rewrite nat_N_Z in B1. specialize (B1 Hu).
  assert (K1 : (1 <= k)%N).
  { unfold k, byte_width. destruct (Z.to_N v =? 0)%N eqn:E; [lia|]. apply N.eqb_neq in E. unfold div_ceil.
    assert (0 < N.size (Z.to_N v))%N by (destruct (Z.to_N v); [congruence|cbn; lia]).
    pose proof (N.div_mod (N.size (Z.to_N v)) 8). destruct (N.size (Z.to_N v) mod 8 =? 0)%N eqn:E2; [apply N.eqb_eq in E2|apply N.eqb_neq in E2]; lia. }
  destruct Hl as [->|Hl]; [lia|]. destruct (N.lt_ge_cases k (N.of_nat b)) as [L|G]; [|lia]. exfalso.
  assert (256 ^ Z.of_N k <= 256 ^ Z.of_nat (b - 1)) by (apply Z.pow_le_mono_r; lia). lia.
Qed.
Lemma bwidth_small v : 0 <= v < 256 -> bwidth v = 1%nat.
Proof. intros H. apply bwidth_char; try lia. Qed.
Lemma bwidth_step v : 256 <= v -> bwidth v = S (bwidth (v / 256)).
Proof.
  intros H. assert (H1 : 1 <= v / 256) by (apply Z.div_le_lower_bound; lia).
  unfold bwidth. destruct (byte_width_spec (Z.to_N (v / 256))) as [A B]. set (k := byte_width (Z.to_N (v / 256))) in *.
  assert (Pw : forall x : N, Z.of_N (256 ^ x) = 256 ^ Z.of_N x) by (intros; rewrite N2Z.inj_pow; reflexivity).
  assert (A' : v / 256 < 256 ^ Z.of_N k). { rewrite <- Pw. apply N2Z.inj_lt in A. rewrite Z2N.id in A by lia. exact A. }
  assert (K1 : (1 <= k)%N). { destruct (N.eq_dec k 0) as [E|]; [|lia]. rewrite E in A'. cbn in A'. lia. }
  pose proof (Z.div_mod v 256 ltac:(lia)) as D. pose proof (Z.mod_pos_bound v 256 ltac:(lia)) as M.
  apply (bwidth_char v (S (N.to_nat k))); [lia|lia| |right].
  - replace (Z.of_nat (S (N.to_nat k))) with (Z.succ (Z.of_N k)) by lia. rewrite Z.pow_succ_r by lia. lia.
  - replace (Z.of_nat (S (N.to_nat k) - 1)) with (Z.of_N k) by lia. destruct (Z.le_gt_cases (256 ^ Z.of_N k) v) as [|L]; [assumption|]. exfalso.
    destruct (N.eq_dec k 1) as [E|Ne]; [rewrite E in L; cbn in L; lia|].
    assert (V : v / 256 < 256 ^ Z.of_N (k - 1)).
    { apply Z.div_lt_upper_bound; [lia|]. rewrite <- Z.pow_succ_r by lia. replace (Z.succ (Z.of_N (k - 1))) with (Z.of_N k) by lia. exact L. }
    specialize (B (k - 1)%N ltac:(lia)). rewrite <- Pw in V. rewrite <- (Z2N.id (v / 256)) in V by lia. apply N2Z.inj_lt in V. specialize (B V). lia.
Qed.
Lemma bwidth_pos v : 0 <= v -> (1 <= bwidth v)%nat.
Proof. intros H. destruct (Z.lt_ge_cases v 256); [rewrite bwidth_small; lia|rewrite bwidth_step; lia]. Qed.

Lemma value_loop_ok : forall fuel v, (1 <= fuel)%nat -> 0 <= v < 256 ^ Z.of_nat fuel ->
  exists bs, value_loop fuel v = (bs, 0) /\ length bs = bwidth v /\ le_bytes bs = v /\ Forall (fun b => 0 <= b < 256) bs /\ (bwidth v <= fuel)%nat.
Proof.
  induction fuel as [|f IH]; intros v Hf Hv; [lia|]. cbn [value_loop]. rewrite Z.shiftr_div_pow2 by lia. change (2 ^ 8) with 256.
  pose proof (Z.div_mod v 256 ltac:(lia)) as D. pose proof (Z.mod_pos_bound v 256 ltac:(lia)) as M.
  destruct (Z.ltb_spec 0 (v / 256)) as [Hp|Hp].
  - assert (H256 : 256 <= v) by lia. destruct f as [|f].
    + change (256 ^ Z.of_nat 1) with 256 in Hv. lia.
    + destruct (IH (v / 256) ltac:(lia)) as (bs & E & L & V & F & U).
      { split; [lia|]. apply Z.div_lt_upper_bound; [lia|]. rewrite <- Z.pow_succ_r by lia. replace (Z.succ (Z.of_nat (S f))) with (Z.of_nat (S (S f))) by lia. lia. }
      rewrite E. eexists. split; [reflexivity|]. rewrite bwidth_step by exact H256. cbn [length le_bytes fold_right]. change (fold_right (fun b a => b + 256 * a) 0 bs) with (le_bytes bs).
      split; [lia|]. split; [lia|]. split; [constructor; [exact M|exact F]|lia].
  - assert (V0 : v / 256 = 0) by (pose proof (Z.div_pos v 256); lia). rewrite V0. exists [v mod 256]. split; [reflexivity|].
    rewrite bwidth_small by lia. cbn [length le_bytes fold_right]. split; [reflexivity|]. split; [lia|]. split; [constructor; [exact M|constructor]|lia].
Qed.

Definition width_ok (W : nat) : Prop := W = 4%nat \/ W = 8%nat.
Lemma value_bytes_ok W v : width_ok W -> 0 <= v < 256 ^ Z.of_nat W ->
  length (value_bytes W v) = bwidth v /\ le_bytes (value_bytes W v) = v /\ (1 <= bwidth v <= W)%nat.
Proof.
  intros HW Hv. unfold value_bytes. destruct (value_loop_ok W v ltac:(destruct HW; lia) Hv) as (bs & E & L & V & _ & U). rewrite E.
  assert (Z0 : (if Nat.eqb W 8 then repeat 0 (required_byte_width W 0 - bwidth 0) else []) = []) by (destruct HW as [-> | ->]; reflexivity).
  rewrite Z0, app_nil_r. pose proof (bwidth_pos v ltac:(lia)). repeat split; auto.
Qed.

(* -------------------------------------------------------------------------------------------------- registers *)
Lemma le_bytes_pad bs k : le_bytes (bs ++ repeat 0 k) = le_bytes bs.
Proof.
  unfold le_bytes. rewrite fold_right_app. f_equal. induction k; cbn [repeat fold_right]; [reflexivity|]. rewrite IHk. reflexivity.
Qed.
Lemma rows_length W lens b : Forall (fun l => l <= W)%nat lens -> length (shuffle_rows W b lens) = (W * length lens)%nat.
Proof.
  revert b. induction lens as [|l t IH]; intros b H; cbn [shuffle_rows length]; [lia|]. inversion H; subst.
  rewrite !app_length, seq_length, repeat_length, IH by assumption. lia.
Qed.
Lemma rows_slice W : forall lens b i, Forall (fun l => l <= W)%nat lens -> (i < length lens)%nat ->
  firstn W (skipn (i * W) (shuffle_rows W b lens)) = seq (b + fold_right Nat.add 0 (firstn i lens))%nat (nth i lens 0%nat) ++ repeat 255%nat (W - nth i lens 0%nat).
Proof.
  induction lens as [|l t IH]; intros b i H Hi; cbn [length] in Hi; [lia|]. inversion H as [|? ? Hl Ht]; subst. cbn [shuffle_rows].
  assert (Lr : length (seq b l ++ repeat 255%nat (W - l)) = W) by (rewrite app_length, seq_length, repeat_length; lia).
  destruct i as [|i].
  - cbn [Nat.mul skipn firstn fold_right nth]. rewrite firstn_app, Lr, Nat.sub_diag, firstn_O, app_nil_r, firstn_all2 by lia. rewrite Nat.add_0_r. reflexivity.
  - replace (S i * W)%nat with (W + i * W)%nat by lia. rewrite skipn_app, Lr, skipn_all2 by lia. replace (W + i * W - W)%nat with (i * W)%nat by lia.
    cbn [app]. rewrite IH by (auto; lia). cbn [firstn fold_right nth]. f_equal. f_equal. lia.
Qed.
Lemma map_seq_slice data off l : (off + l <= length data)%nat -> (off + l <= 16)%nat -> length data = 16%nat ->
  map (fun m => if Nat.leb 128 m then 0 else nth (m mod 16) data 0) (seq off l) = firstn l (skipn off data).
Proof.
  intros H1 H2 H3. apply (list_ext 0); [rewrite map_length, seq_length, firstn_length, skipn_length; lia|].
  intros i Hi. rewrite map_length, seq_length in Hi.
  rewrite (nth_indep _ 0 ((fun m => if Nat.leb 128 m then 0 else nth (m mod 16) data 0) 0%nat)) by (rewrite map_length, seq_length; lia).
  rewrite (map_nth (fun m => if Nat.leb 128 m then 0 else nth (m mod 16) data 0)), seq_nth by lia.
  destruct (Nat.leb_spec 128 (off + i)); [lia|]. rewrite Nat.mod_small by lia. rewrite nth_firstn_lt by lia. rewrite nth_skipn. reflexivity.
Qed.
Lemma sum_len (bss : list (list Z)) : fold_right Nat.add 0%nat (map (@length Z) bss) = length (concat bss).
Proof. induction bss; cbn; [reflexivity|]. rewrite app_length. lia. Qed.

(** The register decoded from the bytes of [bss] (a full register or its first values). *)
Lemma reg_ok W bss lens rest : width_ok W -> length lens = lanes_per_reg W -> Forall (fun l => l <= W)%nat lens ->
  firstn (length bss) lens = map (@length Z) bss -> (length bss <= length lens)%nat -> (16 <= length (concat bss ++ rest))%nat ->
  firstn (length bss) (lanes W (shuffle_epi8 (firstn 16 (concat bss ++ rest)) (shuffle_rows W 0 lens))) = map le_bytes bss.
Proof.
  intros HW Hk Hle Hp Hr Hlen. set (data := firstn 16 (concat bss ++ rest)). assert (Ld : length data = 16%nat) by (unfold data; rewrite firstn_length; lia).
  assert (Ek : (W * lanes_per_reg W)%nat = 16%nat) by (destruct HW as [-> | ->]; reflexivity).
  assert (Lt : forall i, (i < length bss)%nat -> nth i lens 0%nat = length (nth i bss [])).
  { intros i Hi. assert (E : nth i (firstn (length bss) lens) 0%nat = nth i lens 0%nat) by (apply nth_firstn_lt; lia).
    rewrite <- E, Hp. exact (map_nth (@length Z) bss [] i). }
  assert (Lf : forall i, (i <= length bss)%nat -> fold_right Nat.add 0%nat (firstn i lens) = length (concat (firstn i bss))).
  { intros i Hi. rewrite <- sum_len. f_equal. rewrite <- firstn_map, <- Hp, firstn_firstn, Nat.min_l by lia. reflexivity. }
  apply (list_ext 0).
  { rewrite firstn_length, map_length. unfold lanes. rewrite map_length, seq_length. lia. }
  intros i Hi. rewrite firstn_length in Hi. unfold lanes in Hi. rewrite map_length, seq_length in Hi.
  assert (Hib : (i < length bss)%nat) by lia. rewrite nth_firstn_lt by lia. unfold lanes. rewrite nth_map_seq by lia.
  unfold shuffle_epi8. rewrite skipn_map, firstn_map, rows_slice by (auto; lia). cbn [Nat.add]. rewrite map_app.
  assert (Bound : (fold_right Nat.add 0 (firstn i lens) + nth i lens 0 <= 16)%nat).
  { assert (G : forall l : list nat, Forall (fun x => x <= W)%nat l -> (fold_right Nat.add 0 l <= W * length l)%nat).
    { clear. induction l as [|x l IH]; intros H; cbn; [lia|]. inversion H; subst. specialize (IH H3). lia. }
    assert (Fi : Forall (fun x => x <= W)%nat (firstn i lens)). { rewrite Forall_forall in *. intros x Hx. apply Hle. rewrite <- (firstn_skipn i lens). apply in_or_app. auto. }
    specialize (G _ Fi). rewrite firstn_length, Nat.min_l in G by lia.
    assert (nth i lens 0 <= W)%nat by (rewrite Forall_forall in Hle; apply Hle, nth_In; lia). nia. }
  rewrite map_seq_slice by lia.
  assert (Zr : map (fun m => if Nat.leb 128 m then 0 else nth (m mod 16) data 0) (repeat 255%nat (W - nth i lens 0%nat)) = repeat 0 (W - nth i lens 0%nat)).
  { generalize (W - nth i lens 0)%nat as q. induction q; cbn [repeat map]; [reflexivity|]. rewrite IHq. reflexivity. }
  rewrite Zr, le_bytes_pad. etransitivity; [|symmetry; exact (map_nth le_bytes bss [] i)]. f_equal.
  rewrite Lf, Lt in Bound |- * by lia. unfold data. rewrite skipn_firstn_comm, firstn_firstn, Nat.min_l by lia.
  assert (Es : skipn (length (concat (firstn i bss))) (concat bss ++ rest) = nth i bss [] ++ concat (skipn (S i) bss) ++ rest).
  { rewrite <- (firstn_skipn i bss) at 2. rewrite concat_app, <- app_assoc, skipn_app, skipn_all, Nat.sub_diag. cbn [app skipn].
    assert (Ei : skipn i bss = nth i bss [] :: skipn (S i) bss).
    { clear - Hib. revert i Hib. induction bss as [|x l IH]; intros [|i] H; cbn in *; try lia; auto. rewrite IH by lia. destruct l; reflexivity. }
    rewrite Ei. cbn [concat]. now rewrite <- app_assoc. }
  rewrite Es. rewrite firstn_app, Nat.sub_diag, firstn_O, app_nil_r, firstn_all. reflexivity.
Qed.
Lemma load_ok pre bss rest : (16 <= length (concat bss ++ rest))%nat -> load16 (pre ++ concat bss ++ rest) (length pre) = Some (firstn 16 (concat bss ++ rest)).
Proof.
  intros H. unfold load16. rewrite app_length in *. destruct (Nat.leb_spec (length pre + 16) (length pre + length (concat bss ++ rest))); [|rewrite app_length in *; lia].
  rewrite skipn_app, skipn_all, Nat.sub_diag. reflexivity.
Qed.

(* ---------------------------------------------------------------------------------------------- control bytes *)
Lemma ctl_headers a b c d : 0 <= a <= 3 -> 0 <= b <= 3 -> 0 <= c <= 3 -> 0 <= d <= 3 ->
  let ctl := Z.lor (Z.lor (Z.lor (Z.shiftl d 6) (Z.shiftl c 4)) (Z.shiftl b 2)) a in
  header ctl 0 = a /\ header ctl 1 = b /\ header ctl 2 = c /\ header ctl 3 = d /\
  header (Z.land ctl 15) 0 = a /\ header (Z.land ctl 15) 1 = b /\ header (Z.shiftr ctl 4) 0 = c /\ header (Z.shiftr ctl 4) 1 = d.
Proof.
  intros Ha Hb Hc Hd.
  assert (X : forall x, 0 <= x <= 3 -> x = 0 \/ x = 1 \/ x = 2 \/ x = 3) by (intros; lia).
  destruct (X a Ha) as [->|[->|[->| ->]]], (X b Hb) as [->|[->|[->| ->]]], (X c Hc) as [->|[->|[->| ->]]], (X d Hd) as [->|[->|[->| ->]]]; vm_compute; repeat split.
Qed.
Lemma required_range W v : width_ok W -> 0 <= v < 256 ^ Z.of_nat W -> (bwidth v <= required_byte_width W v <= W)%nat /\
  0 <= encoded_byte_width W v <= 3 /\ actual_length W (encoded_byte_width W v) = required_byte_width W v.
Proof.
  intros HW Hv. destruct (value_bytes_ok W v HW Hv) as (_ & _ & B). unfold encoded_byte_width, actual_length, required_byte_width.
  destruct HW as [-> | ->]; cbn [Nat.eqb].
  - split; [lia|]. split; [lia|]. replace (Z.of_nat (bwidth v) - 1 + 1) with (Z.of_nat (bwidth v)) by lia. apply Nat2Z.id.
  - destruct (bwidth v) as [|[|[|[|[|[|[|[|[|k]]]]]]]]]; try lia; cbn; repeat split; lia.
Qed.

(* ------------------------------------------------------------------------------------------------------ memory *)
Lemma skipn_skipn' {A} m n (l : list A) : skipn m (skipn n l) = skipn (n + m) l.
Proof. revert l. induction n; intros l; [reflexivity|]. destruct l; cbn [skipn Nat.add]; [now rewrite skipn_nil|apply IHn]. Qed.
Lemma upd_mid {A} (a : list A) x t y : upd (length a) y (a ++ x :: t) = a ++ y :: t.
Proof. induction a as [|b a IH]; [reflexivity|]. change (b :: upd (length a) y (a ++ x :: t) = b :: a ++ y :: t). now rewrite IH. Qed.
Lemma put_all_ok : forall bs pre t, (length bs <= length t)%nat -> put_all (length pre) bs (pre ++ t) = Some (pre ++ bs ++ skipn (length bs) t).
Proof.
  induction bs as [|b bs IH]; intros pre t H; cbn [put_all length skipn]; [reflexivity|]. destruct t as [|x t]; [cbn in H; lia|].
  unfold put. rewrite app_length. cbn [length] in *. destruct (Nat.ltb_spec (length pre) (length pre + S (length t))); [|lia].
  rewrite upd_mid. specialize (IH (pre ++ [b]) t ltac:(lia)). rewrite app_length in IH. cbn [length] in IH.
  replace (length pre + 1)%nat with (S (length pre)) in IH by lia. rewrite <- app_assoc in IH. cbn [app] in IH. rewrite IH. now rewrite <- app_assoc.
Qed.

Section Memory.
Variables (W : nat) (base : nat) (mem0 : list Z).
(** The control bytes [ctls] and the data [dats] are written; the rest of the memory is untouched. *)
Definition written (s : enc) (ctls dats : list Z) : Prop :=
  e_ctl s = length ctls /\ e_dat s = (base + length dats)%nat /\
  exists mid, (length ctls + length mid)%nat = base /\ e_mem s = ctls ++ mid ++ dats ++ skipn (base + length dats) mem0.
Lemma flush_ok s ctls dats : written s ctls dats -> (length ctls < base)%nat ->
  (base + length dats + length (concat (map (value_bytes W) (e_buf s))) <= length mem0)%nat ->
  exists s', unchecked_flush W s = Some s' /\ written s' (ctls ++ [control_byte W (e_buf s)]) (dats ++ concat (map (value_bytes W) (e_buf s))) /\
    e_buf s' = [] /\ e_p1 s' = e_p1 s /\ e_p2 s' = e_p2 s /\ e_p3 s' = e_p3 s /\ e_p4 s' = e_p4 s /\ e_pmax s' = e_pmax s.
Proof.
  intros (E1 & E2 & mid & Lm & Em) Hc Hd. unfold unchecked_flush. set (data := concat (map (value_bytes W) (e_buf s))) in *. set (cb := control_byte W (e_buf s)).
  destruct mid as [|x mid]; [cbn in Lm; lia|]. rewrite E1, Em. unfold put.
  assert (Q : Nat.ltb (length ctls) (length (ctls ++ (x :: mid) ++ dats ++ skipn (base + length dats) mem0)) = true) by (apply Nat.ltb_lt; rewrite !app_length; cbn [length]; lia).
  rewrite Q. cbn [app]. rewrite upd_mid. rewrite E2.
  assert (Lp : (base + length dats)%nat = length (ctls ++ cb :: mid ++ dats)) by (rewrite app_length; cbn [length] in *; rewrite app_length; lia).
  assert (Eq : ctls ++ cb :: mid ++ dats ++ skipn (base + length dats) mem0 = (ctls ++ cb :: mid ++ dats) ++ skipn (base + length dats) mem0).
  { now rewrite <- app_assoc, <- app_comm_cons, <- app_assoc. }
  pose proof (put_all_ok data (ctls ++ cb :: mid ++ dats) (skipn (base + length dats) mem0) ltac:(rewrite skipn_length; lia)) as P. rewrite <- Lp, <- Eq in P. rewrite P.
  eexists. split; [reflexivity|]. split; [|cbn; repeat split]. split; [cbn [e_ctl]; rewrite app_length; cbn; lia|]. split; [cbn [e_dat]; rewrite app_length; lia|].
  exists mid. cbn [e_mem]. split; [rewrite app_length; cbn [length] in *; lia|].
  rewrite <- !app_assoc. cbn [app]. rewrite <- app_assoc. do 3 f_equal. f_equal. f_equal. rewrite skipn_skipn'. f_equal. rewrite app_length. lia.
Qed.
End Memory.
