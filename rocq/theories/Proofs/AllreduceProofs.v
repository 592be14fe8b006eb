(* The doubling all-reduce adds up the buffers of all ranks, if their number is a power of two. *)
From Verif Require Import Lib.Prelude Model.AllreduceModel Spec.AllreduceSpec.

Definition zsum (l : list Z) : Z := fold_right Z.add 0%Z l.
Lemma zsum_app a b : zsum (a ++ b) = (zsum a + zsum b)%Z.
Proof. unfold zsum. induction a as [|x a IH]; cbn [app fold_right]; lia. Qed.
Lemma add_length : forall l b, length (add_entries b l) = length b.
Proof. unfold add_entries. induction l as [|e l IH]; intros b; [reflexivity|]. cbn [fold_left]. rewrite IH. apply upd_length. Qed.
(** Adding the entries from position [k] on. *)
Lemma add_from : forall c k b i, k + length c <= length b ->
  nth i (add_entries b (filter (fun e => negb (snd e =? 0)%Z) (combine (seq k (length c)) c))) 0%Z = (nth i b 0 + if (k <=? i)%nat && (i <? k + length c)%nat then nth (i - k) c 0 else 0)%Z.
Proof.
  unfold add_entries. induction c as [|x c IH]; intros k b i Hl; cbn [length seq combine filter] in *.
  - cbn [fold_left]. destruct (Nat.leb_spec k i), (Nat.ltb_spec i (k + 0)); cbn [andb]; lia.
  - assert (Q : forall b', length b' = length b -> nth i (fold_left (fun b0 e => upd (fst e) (nth (fst e) b0 0 + snd e)%Z b0) (filter (fun e => negb (snd e =? 0)%Z) (combine (seq (S k) (length c)) c)) b') 0%Z =
      (nth i b' 0 + if (S k <=? i)%nat && (i <? S k + length c)%nat then nth (i - S k) c 0 else 0)%Z) by (intros b' E; apply IH; lia).
    cbn [snd]. destruct (Z.eqb_spec x 0) as [->|N]; cbn [negb fold_left fst snd]; (rewrite Q by (try rewrite upd_length; reflexivity)).
    + destruct (Nat.eq_dec i k) as [->|Ne].
      * rewrite Nat.sub_diag. destruct (Nat.leb_spec (S k) k); [lia|]. cbn [andb nth]. destruct (Nat.leb_spec k k), (Nat.ltb_spec k (k + S (length c))); cbn [andb]; lia.
      * destruct (Nat.leb_spec (S k) i), (Nat.leb_spec k i), (Nat.ltb_spec i (S k + length c)), (Nat.ltb_spec i (k + S (length c))); cbn [andb]; try lia. replace (i - k) with (S (i - S k)) by lia. reflexivity.
    + destruct (Nat.eq_dec i k) as [->|Ne].
      * rewrite upd_nth_same by lia. rewrite Nat.sub_diag. destruct (Nat.leb_spec (S k) k); [lia|]. cbn [andb nth]. destruct (Nat.leb_spec k k), (Nat.ltb_spec k (k + S (length c))); cbn [andb]; lia.
      * rewrite upd_nth_other by congruence. destruct (Nat.leb_spec (S k) i), (Nat.leb_spec k i), (Nat.ltb_spec i (S k + length c)), (Nat.ltb_spec i (k + S (length c))); cbn [andb]; try lia. replace (i - k) with (S (i - S k)) by lia. reflexivity.
Qed.
Lemma combine_firstn_seq {X} : forall (c : list X) n k, combine (seq k n) c = combine (seq k (length (firstn n c))) (firstn n c).
Proof. induction c as [|x c IH]; intros [|n] k; try reflexivity. cbn [firstn length seq combine]. f_equal. apply IH. Qed.
Lemma nth_firstn_lt {X} (x : X) : forall n l i, i < n -> nth i (firstn n l) x = nth i l x.
Proof. induction n as [|n IH]; intros l i H; [lia|]. destruct l as [|y l]; [destruct i; reflexivity|]. destruct i as [|i]; [reflexivity|]. cbn [firstn nth]. apply IH. lia. Qed.
Lemma exchange_add size b c i : size <= length b -> size <= length c ->
  nth i (add_entries b (nonzeros size c)) 0%Z = (nth i b 0 + if (i <? size)%nat then nth i c 0 else 0)%Z.
Proof.
  intros Hb Hc. assert (L : length (firstn size c) = size) by (apply firstn_length_le; exact Hc). unfold nonzeros. rewrite combine_firstn_seq, add_from by lia. rewrite L. cbn [Nat.leb andb]. rewrite Nat.sub_0_r. change (0 + size) with size.
  destruct (Nat.ltb_spec i size); [rewrite nth_firstn_lt by assumption; reflexivity|reflexivity].
Qed.

Lemma pow_pos k : 0 < 2 ^ k.
Proof. apply Nat.neq_0_lt_0, Nat.pow_nonzero. lia. Qed.

Section Rounds.
Variables (m size : nat) (bufs : list (list Z)).
Notation P := (2 ^ m).
Hypothesis HP : length bufs = P.
Hypothesis HL : forall b, In b bufs -> size <= length b.
Definition val (q i : nat) : Z := nth i (nth q bufs []) 0%Z.
Definition part (it r i : nat) : Z := zsum (map (fun q => val q i) (seq (r / 2 ^ it * 2 ^ it) (2 ^ it))).
Definition rinv (it : nat) (b : list (list Z)) : Prop := length b = P /\ forall r, r < P -> length (nth r b []) = length (nth r bufs []) /\
  forall i, nth i (nth r b []) 0%Z = if i <? size then part it r i else val r i.
(** Where the partner is, and in which halves of the group of the next round the two are. *)
Lemma partner_spec it r : it < m -> r < P -> partner it r < P /\
  ((r / 2 ^ it = 2 * (r / 2 ^ S it) /\ partner it r / 2 ^ it = 2 * (r / 2 ^ S it) + 1) \/ (r / 2 ^ it = 2 * (r / 2 ^ S it) + 1 /\ partner it r / 2 ^ it = 2 * (r / 2 ^ S it))).
Proof.
  intros Hi Hr. pose proof (pow_pos it) as Hp. set (p := 2 ^ it) in *. assert (E2 : 2 ^ S it = 2 * p) by reflexivity. rewrite E2.
  set (B := r / (2 * p)). set (x := r mod (2 * p)). assert (Er : r = 2 * p * B + x) by (apply Nat.div_mod; lia). assert (Hx : x < 2 * p) by (apply Nat.mod_upper_bound; lia).
  assert (EP : exists k, P = 2 * p * k) by (exists (2 ^ (m - S it)); replace m with (S it + (m - S it)) at 1 by lia; rewrite Nat.pow_add_r, E2; reflexivity). destruct EP as [k EP].
  assert (HB : B < k) by (rewrite EP in Hr; nia). unfold partner. fold p. fold x. destruct (Nat.ltb_spec x p) as [L|L].
  - split; [rewrite EP; nia|]. left. split; symmetry; [apply (Nat.div_unique r p (2 * B) x); lia|apply (Nat.div_unique (r + p) p (2 * B + 1) x); lia].
  - split; [rewrite EP; nia|]. right. split; symmetry; [apply (Nat.div_unique r p (2 * B + 1) (x - p)); lia|apply (Nat.div_unique (r - p) p (2 * B) (x - p)); lia].
Qed.
Lemma part_next it r i : it < m -> r < P -> part (S it) r i = (part it r i + part it (partner it r) i)%Z.
Proof.
  intros Hi Hr. destruct (partner_spec it r Hi Hr) as [_ H]. unfold part.
  assert (E : seq (r / 2 ^ S it * 2 ^ S it) (2 ^ S it) = seq (2 * (r / 2 ^ S it) * 2 ^ it) (2 ^ it) ++ seq ((2 * (r / 2 ^ S it) + 1) * 2 ^ it) (2 ^ it)).
  { change (2 ^ S it) with (2 * 2 ^ it) at 2 3. replace (2 * 2 ^ it) with (2 ^ it + 2 ^ it) at 2 by lia. rewrite seq_app. f_equal; f_equal; lia. }
  rewrite E, map_app, zsum_app. destruct H as [[-> ->]|[-> ->]]; lia.
Qed.
Lemma round_inv it b : it < m -> rinv it b -> exists b', exchange_round P size it b = Some b' /\ rinv (S it) b'.
Proof.
  intros Hi [L H]. unfold exchange_round. assert (F : forallb (fun r => partner it r <? P) (seq 0 P) = true).
  { apply forallb_forall. intros r Hr. apply in_seq in Hr. apply Nat.ltb_lt, partner_spec; lia. }
  rewrite F. eexists. split; [reflexivity|]. split; [rewrite map_length, seq_length; reflexivity|]. intros r Hr. rewrite nth_map_seq by exact Hr. cbn [Nat.add]. rewrite add_length. destruct (H r Hr) as [L1 V1]. split; [exact L1|].
  destruct (partner_spec it r Hi Hr) as [Hq _]. destruct (H _ Hq) as [L2 V2]. assert (B : forall q, q < P -> size <= length (nth q bufs [])) by (intros q Hq'; apply HL, nth_In; lia).
  intros i. rewrite exchange_add by (first [rewrite L1|rewrite L2]; apply B; assumption). rewrite V1, V2. destruct (i <? size); [rewrite part_next by assumption; reflexivity|lia].
Qed.
Lemma loop_inv : forall k it fuel b, it + k = m -> k <= fuel -> rinv it b -> exists b', doubling_from fuel P size it b = Some b' /\ rinv m b'.
Proof.
  induction k as [|k IH]; intros it fuel b Hk Hf I.
  - replace it with m in * by lia. exists b. split; [|exact I]. pose proof (pow_pos m). destruct fuel; cbn [doubling_from]; destruct (Nat.ltb_spec (2 * P) (P + 1)); try lia; reflexivity.
  - destruct fuel as [|fuel]; [lia|]. cbn [doubling_from]. assert (2 * 2 ^ it <= P) by (change (2 * 2 ^ it) with (2 ^ S it); apply Nat.pow_le_mono_r; lia).
    destruct (Nat.ltb_spec (2 * 2 ^ it) (P + 1)); [|lia]. destruct (round_inv it b ltac:(lia) I) as (b' & E & I'). rewrite E. exact (IH (S it) fuel b' ltac:(lia) ltac:(lia) I').
Qed.
Theorem doubling_correct : exists after, doubling_allreduce P size bufs = Some after /\ reduced P size bufs after.
Proof.
  assert (I : rinv 0 bufs).
  { split; [exact HP|]. intros r Hr. split; [reflexivity|]. intros i. unfold part, val. cbn [Nat.pow]. rewrite Nat.div_1_r, Nat.mul_1_r. cbn [seq map zsum fold_right]. destruct (i <? size); lia. }
  assert (Hm : m <= P) by (pose proof (Nat.pow_gt_lin_r 2 m); lia). destruct (loop_inv m 0 P bufs (Nat.add_0_l m) Hm I) as (b' & E & L & V). exists b'. split; [exact E|]. split; [exact L|].
  intros r Hr. destruct (V r Hr) as [V1 V2]. split; [exact V1|]. intros i. rewrite V2. destruct (i <? size); [|reflexivity]. unfold part. rewrite Nat.div_small by exact Hr. cbn [Nat.mul]. unfold zsum, val. f_equal. rewrite <- HP.
  apply (nth_ext _ _ 0%Z 0%Z); [rewrite !map_length, seq_length; reflexivity|]. intros q Hq. rewrite map_length, seq_length in Hq. rewrite nth_map_seq by exact Hq. cbn [Nat.add].
  rewrite (nth_indep (map (fun b => nth i b 0%Z) bufs) 0%Z (nth i [] 0%Z)) by (rewrite map_length; exact Hq). rewrite (map_nth (fun b => nth i b 0%Z)). reflexivity.
Qed.
End Rounds.
Definition r_bufs : list (list Z) := [[1; 0; -3; 9]; [0; 0; 5; 9]; [4; 0; 0; 9]; [7; 2; -2; 9]]%Z.

(** A round in which every partner exists: the number of ranks is a multiple of the size of the groups. *)
Lemma round_multiple P size it b b' : exchange_round P size it b = Some b' -> P mod (2 * 2 ^ it) = 0.
Proof.
  unfold exchange_round. destruct (forallb _ (seq 0 P)) eqn:F; [intros _|discriminate]. rewrite forallb_forall in F. pose proof (pow_pos it) as Hp. set (p := 2 ^ it) in *.
  set (k := P / (2 * p)). set (x := P mod (2 * p)). assert (E : P = 2 * p * k + x) by (apply Nat.div_mod; lia). assert (Hx : x < 2 * p) by (apply Nat.mod_upper_bound; lia).
  assert (Q : forall y, y < x -> y < p -> p + y < x).
  { intros y H1 H2. specialize (F (2 * p * k + y)). apply Nat.ltb_lt in F; [|apply in_seq; lia]. unfold partner in F. fold p in F.
    assert (M : (2 * p * k + y) mod (2 * p) = y) by (symmetry; apply (Nat.mod_unique _ (2 * p) k y); lia). rewrite M in F. destruct (Nat.ltb_spec y p); lia. }
  destruct (Nat.eq_dec x 0) as [Z|Z]; [exact Z|exfalso]. pose proof (Q 0 ltac:(lia) Hp) as Q0. specialize (Q (x - p)). lia.
Qed.
Lemma loop_power P size : forall fuel it b b', doubling_from fuel P size it b = Some b' -> 2 ^ it <= P -> P mod 2 ^ it = 0 -> exists m, P = 2 ^ m.
Proof.
  induction fuel as [|fuel IH]; intros it b b' H HP HM; cbn [doubling_from] in H; destruct (Nat.ltb_spec (2 * 2 ^ it) (P + 1)) as [L|L]; try discriminate.
  - exists it. pose proof (pow_pos it). apply Nat.mod_divides in HM; [|lia]. destruct HM as [c ->]. assert (c = 1) by nia. subst c. lia.
  - destruct (exchange_round P size it b) as [b1|] eqn:E; [|discriminate]. apply (IH (S it) b1 b' H); [change (2 ^ S it) with (2 * 2 ^ it); lia|]. change (2 ^ S it) with (2 * 2 ^ it). exact (round_multiple _ _ _ _ _ E).
  - exists it. pose proof (pow_pos it). apply Nat.mod_divides in HM; [|lia]. destruct HM as [c ->]. assert (c = 1) by nia. subst c. lia.
Qed.
Theorem only_powers P size bufs after : 0 < P -> doubling_allreduce P size bufs = Some after -> exists m, P = 2 ^ m.
Proof. intros HP H. apply (loop_power P size P 0 bufs after H); [cbn; lia|apply Nat.mod_1_r]. Qed.
Lemma r_lengths b : In b r_bufs -> 3 <= length b.
Proof. intros H. cbn in H. repeat (destruct H as [<-|H]; [cbn; lia|]). destruct H. Qed.
