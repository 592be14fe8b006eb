(* Widths, table sizes and layout of the compact hashing gain cache. *)
From Verif Require Import Lib.Prelude Spec.Graph Spec.Gain Spec.CountMap Model.MathModel Model.CompactHashModel Model.GainModel
  Proofs.MathProofs Proofs.AlignedProofs Proofs.GraphFacts Proofs.GainBase Proofs.GainSys Proofs.DenseGain.

(** What the cache needs: weighted degrees leave the lock bit free, table sizes fit an int. *)
Definition cg_fits (g : graph) (k : nat) : Prop :=
  1 <= k /\ (N.of_nat k <= 2 ^ 30)%N /\ forall u, u < gn g -> (weighted_degree g u < 2 ^ 31)%Z.

Section C.
Variables (g : graph) (k np : nat) (junk : N).
Hypothesis (Hpos : positive_edges g) (Hfit : cg_fits g k) (Hnp : 0 < np).
Notation kb := (cg_kb k junk).
Notation hash := (cg_hash g k junk).
Notation width := (cg_width g k junk).
Notation wd u := (cg_degree g u).
Notation deg u := (length (gadj g u)).
Notation slots := (cg_slots g junk).
Notation offs := (cg_offsets g k np junk).
Notation size := (cg_size g k np junk).
Notation bits := (cg_bits g k junk).

Lemma wd_eq u : u < gn g -> Z.of_N (wd u) = weighted_degree g u.
Proof.
  intros Hu. unfold cg_degree, weighted_degree.
  assert (G : forall l s, (forall v w, In (v, w) l -> 0 < w)%Z ->
    Z.of_N (fold_left (fun s e => (s + Z.to_N (snd e))%N) l s) = (Z.of_N s + zsum (map (@snd nat Z) l))%Z).
  { induction l as [|[v w] l IH]; intros s H; cbn [fold_left map zsum snd]; [lia|].
    rewrite IH by (intros; eapply H; right; eauto). pose proof (H v w (or_introl eq_refl)). lia. }
  rewrite G by (intros; eapply Hpos; eauto). lia.
Qed.
Lemma deg_le u : u < gn g -> (Z.of_nat (deg u) <= weighted_degree g u)%Z.
Proof.
  intros Hu. unfold weighted_degree. assert (G : forall l, (forall v w, In (v, w) l -> 0 < w)%Z ->
    (Z.of_nat (length l) <= zsum (map (@snd nat Z) l))%Z).
  { induction l as [|[v w] l IH]; intros H; cbn [length map zsum snd]; [lia|].
    pose proof (H v w (or_introl eq_refl)). pose proof (IH ltac:(intros; eapply H; right; eauto)). lia. }
  apply G. intros; eapply Hpos; eauto.
Qed.
Lemma wd_lt u : u < gn g -> (wd u < 2 ^ 31)%N.
Proof. intros Hu. pose proof (wd_eq u Hu). destruct Hfit as (_ & _ & Hx). specialize (Hx u Hu). change (2 ^ 31)%Z with (Z.of_N (2 ^ 31)) in Hx. lia. Qed.
Lemma slots_spec u : u < gn g -> 0 < deg u ->
  exists s, N.to_nat (slots u) = 2 ^ s /\ deg u <= 2 ^ s.
Proof.
  intros Hu Hd. unfold cg_slots. pose proof (deg_le u Hu). destruct Hfit as (_ & _ & H2). specialize (H2 u Hu).
  change (2 ^ 31)%Z with (Z.of_N (2 ^ 31)) in H2.
  rewrite ceil2_32_some by lia. exists (N.to_nat (N.log2_up (N.of_nat (deg u)))).
  pose proof (log2_up_covers (N.of_nat (deg u)) ltac:(lia)) as Hc.
  assert (E : N.to_nat (2 ^ N.log2_up (N.of_nat (deg u))) = 2 ^ N.to_nat (N.log2_up (N.of_nat (deg u)))).
  { apply Nat2N.inj. rewrite N2Nat.id, Nat2N.inj_pow, N2Nat.id. reflexivity. }
  split; [exact E|]. rewrite <- E. lia.
Qed.
Lemma kb_spec : kb = N.log2_up (N.of_nat k) /\ (N.of_nat k <= 2 ^ kb)%N /\ (kb <= 30)%N.
Proof.
  unfold cg_kb. destruct Hfit as (H1 & H2 & _). rewrite ceil_log2_some by lia. split; [reflexivity|].
  split; [apply log2_up_covers; lia|apply log2_up_le_pow; lia].
Qed.
Lemma kb_pos : 2 <= k -> (0 < kb)%N.
Proof. intros H. rewrite (proj1 kb_spec). apply N.log2_up_pos. lia. Qed.
Lemma width_0 u : u < gn g -> deg u = 0 -> width u = 0.
Proof.
  intros Hu Hd. unfold cg_width, cg_width_of.
  assert (E : wd u = 0%N). { unfold cg_degree. destruct (gadj g u); [reflexivity|cbn in Hd; lia]. }
  rewrite E. reflexivity.
Qed.
Lemma width_spec u : u < gn g -> 0 < deg u ->
  1 <= width u /\ divs (width u) 8 /\ (Z.of_N (N.log2 (wd u) + 1 + (if hash u then kb else 0)) <= bits u <= 64)%Z.
Proof.
  intros Hu Hd. pose proof (deg_le u Hu). pose proof (wd_eq u Hu). pose proof (wd_lt u Hu) as Hlt.
  assert (Hwd : (0 < wd u)%N) by lia.
  unfold cg_bits, cg_width, cg_width_of. destruct (N.eqb_spec (wd u) 0); [lia|].
  rewrite floor_log2_some by lia.
  set (bt := (N.log2 (wd u) + 1 + (if hash u then kb else 0))%N).
  assert (Hl : (N.log2 (wd u) < 31)%N) by (apply N.log2_lt_pow2; auto).
  assert (Hbt : (1 <= bt <= 61)%N). { unfold bt. pose proof kb_spec as (_ & _ & Hk). destruct (hash u); lia. }
  set (by_ := ((bt + 7) / 8)%N).
  assert (Hby : (1 <= by_ <= 8 /\ bt <= 8 * by_)%N).
  { unfold by_. pose proof (N.div_mod (bt + 7) 8 ltac:(lia)). pose proof (N.mod_lt (bt + 7) 8 ltac:(lia)). lia. }
  rewrite ceil2_32_some by lia.
  pose proof (log2_up_covers by_ ltac:(lia)) as Hc. pose proof (log2_up_le_pow by_ 3 ltac:(lia) ltac:(lia)) as Hu3.
  assert (Hcase : (N.log2_up by_ = 0 \/ N.log2_up by_ = 1 \/ N.log2_up by_ = 2 \/ N.log2_up by_ = 3)%N) by lia.
  destruct Hcase as [E|[E|[E|E]]]; rewrite E in *; (split; [cbn; lia|]; split; [right; reflexivity|]);
    [change (N.to_nat (2 ^ 0)) with 1; change (2 ^ 0)%N with 1%N in Hc
    |change (N.to_nat (2 ^ 1)) with 2; change (2 ^ 1)%N with 2%N in Hc
    |change (N.to_nat (2 ^ 2)) with 4; change (2 ^ 2)%N with 4%N in Hc
    |change (N.to_nat (2 ^ 3)) with 8; change (2 ^ 3)%N with 8%N in Hc]; lia.
Qed.
Lemma width_divs u : u < gn g -> divs (width u) 8.
Proof.
  intros Hu. destruct (Nat.eq_dec (deg u) 0) as [E|E]; [rewrite width_0 by auto; left; auto|].
  apply width_spec; auto; lia.
Qed.
(** Every weighted degree fits the value part of a cell. *)
Lemma wd_fits u : u < gn g -> 0 < deg u ->
  (weighted_degree g u < 2 ^ (bits u - Z.of_N (if hash u then kb else 0)))%Z.
Proof.
  intros Hu Hd. destruct (width_spec u Hu Hd) as (_ & _ & Hb). rewrite <- wd_eq by auto.
  assert (Hwd : (0 < wd u)%N). { pose proof (deg_le u Hu). pose proof (wd_eq u Hu). lia. }
  pose proof (N.log2_spec (wd u) Hwd) as [_ H2].
  assert (Z.of_N (wd u) < 2 ^ Z.of_N (N.succ (N.log2 (wd u))))%Z.
  { change 2%Z with (Z.of_N 2). rewrite <- N2Z.inj_pow. lia. }
  eapply Z.lt_le_trans; [eassumption|]. apply Z.pow_le_mono_r; lia.
Qed.

(** The layout: aligned, disjoint, in order, inside the allocated words. *)
Lemma offs_spec : 2 <= gn g ->
  length offs = S (gn g) /\ nth 0 offs 0 = 0 /\
  (forall u, u < gn g -> divs (width u) (nth u offs 0)) /\
  (forall u, u < gn g -> nth u offs 0 + cg_bytes g k junk u <= nth (S u) offs 0 <= nth u offs 0 + cg_bytes g k junk u + 14) /\
  nth (gn g) offs 0 = cg_total g k np junk /\ (N.of_nat (cg_total g k np junk) <= 8 * cg_words g k np junk)%N.
Proof.
  intros Hn. set (n := gn g) in *.
  assert (Hal : forall i, divs ((fun i => if i <? n then width i else 1) i) 8).
  { intros i. cbn beta. destruct (Nat.ltb_spec i n); [apply width_divs; auto|right; reflexivity]. }
  pose proof (aligned_prefix_sum_ok (fun i => if i <? n then width i else 1) (cg_bytes g k junk) Hal (n - 1) np Hnp) as HA.
  assert (EP : aligned_prefix_sum (fun i => if i <? n then width i else 1) (cg_bytes g k junk) (n - 1) np
             = aligned_prefix_sum width (cg_bytes g k junk) (n - 1) np).
  { assert (Er : forall c p, 0 < p <= n - 1 -> c < p -> chunk_rel (fun i => if i <? n then width i else 1) (cg_bytes g k junk) (n - 1) p c
                       = chunk_rel width (cg_bytes g k junk) (n - 1) p c).
    { intros c p Hp Hc. unfold chunk_rel. rewrite (chunk_eq (n - 1) p Hp c Hc).
      set (f := N.to_nat (lr_from _ _ (N.of_nat c))). set (t := N.to_nat _).
      assert (Ht : t <= n - 1).
      { unfold t. pose proof (fr_p (n - 1) p Hp) as Ef. pose proof (lr_from_mono (N.of_nat (n - 1)) (N.of_nat p) (N.of_nat (S c)) (N.of_nat p) ltac:(lia)). lia. }
      assert (Hg : forall len f cur, f + len <= n - 1 -> aps_seq (fun i => if i <? n then width i else 1) (cg_bytes g k junk) f len cur
              = aps_seq width (cg_bytes g k junk) f len cur).
      { induction len as [|len IH]; intros f0 cur Hf; cbn [aps_seq]; [reflexivity|].
        destruct (Nat.ltb_spec (S f0) n); [|lia]. rewrite IH by lia. reflexivity. }
      destruct (Nat.lt_ge_cases t f); [replace (t - f) with 0 by lia; reflexivity|]. apply Hg. lia. }
    unfold aligned_prefix_sum. cbv zeta. f_equal. set (p := Nat.min np (n - 1)). assert (Hp : 0 < p <= n - 1) by (unfold p; lia).
    assert (Eb : forall c, c < p -> chunk_base (fun i => if i <? n then width i else 1) (cg_bytes g k junk) (n - 1) p c
                       = chunk_base width (cg_bytes g k junk) (n - 1) p c).
    { induction c as [|c IH]; intros Hc; cbn [chunk_base]; [reflexivity|]. rewrite IH, Er by (auto; lia). reflexivity. }
    rewrite !flat_map_concat_map. f_equal. apply map_ext_in. intros c Hc. apply in_seq in Hc.
    rewrite Er, Eb by (auto; lia). reflexivity. }
  cbv zeta in HA. unfold aligned_total in HA. rewrite EP in HA. destruct HA as (HL & H0 & HD & HS & HT).
  destruct (Nat.eqb_spec (n - 1) 0); [lia|]. clear HT.
  unfold cg_offsets, cg_words, cg_total, aligned_total. fold n. destruct (Nat.eqb_spec n 0); [lia|]. destruct (Nat.eqb_spec (n - 1) 0); [lia|].
  set (P := aligned_prefix_sum width (cg_bytes g k junk) (n - 1) np) in *.
  assert (Efix : align_up (nth (n - 1) P 0) (width (n - 1)) = nth (n - 1) P 0).
  { apply align_up_fix. specialize (HD (n - 1) (le_n _)). destruct (Nat.ltb_spec (n - 1) n); [|lia]. exact HD. }
  rewrite Efix, upd_same.
  assert (E1 : forall u, u < n -> nth u (P ++ [nth (n - 1) P 0 + cg_bytes g k junk (n - 1)]) 0 = nth u P 0).
  { intros u Hu. apply app_nth1. lia. }
  assert (E2 : nth n (P ++ [nth (n - 1) P 0 + cg_bytes g k junk (n - 1)]) 0 = nth (n - 1) P 0 + cg_bytes g k junk (n - 1)).
  { rewrite app_nth2 by lia. replace (n - length P) with 0 by lia. reflexivity. }
  split; [rewrite app_length; cbn [length]; lia|]. split; [rewrite E1 by lia; auto|]. split; [|split; [|split]].
  - intros u Hu. rewrite E1 by auto. specialize (HD u ltac:(lia)). destruct (Nat.ltb_spec u n); [|lia]. exact HD.
  - intros u Hu. rewrite (E1 u Hu). destruct (Nat.eq_dec u (n - 1)) as [->|Hne].
    + replace (S (n - 1)) with n by lia. rewrite E2. lia.
    + rewrite E1 by lia. apply HS. lia.
  - exact E2.
  - unfold div_ceil. pose proof (N.div_mod (N.of_nat (nth (n - 1) P 0 + cg_bytes g k junk (n - 1))) 8 ltac:(lia)).
    pose proof (N.mod_lt (N.of_nat (nth (n - 1) P 0 + cg_bytes g k junk (n - 1))) 8 ltac:(lia)).
    destruct (N.eqb_spec (N.of_nat (nth (n - 1) P 0 + cg_bytes g k junk (n - 1)) mod 8) 0); lia.
Qed.

(** The hash table of a node has a power of two of cells, at least one per neighbour. *)
Lemma size_spec u : 2 <= gn g -> u < gn g -> 0 < deg u -> hash u = true ->
  exists b, size u = 2 ^ b /\ deg u <= 2 ^ b /\ nth u offs 0 + width u * size u <= nth (S u) offs 0.
Proof.
  intros Hn Hu Hd Hh. destruct (offs_spec Hn) as (_ & _ & _ & HS & _). specialize (HS u Hu).
  destruct (width_spec u Hu Hd) as (Hw & _ & _). destruct (slots_spec u Hu Hd) as (s & Es & Hs).
  unfold cg_bytes in HS. rewrite Hh, Es in HS.
  assert (Hk : (slots u < 2 ^ 30)%N). { unfold cg_hash in Hh. apply N.ltb_lt in Hh. destruct Hfit as (_ & H & _). lia. }
  unfold cg_size. destruct (Nat.eqb_spec (width u) 0); [lia|].
  set (d := nth (S u) offs 0 - nth u offs 0) in *.
  assert (Hd1 : 2 ^ s <= d / width u) by (apply Nat.div_le_lower_bound; lia).
  assert (Hd2 : d / width u <= 2 ^ s + 14).
  { transitivity ((width u * 2 ^ s + 14) / width u); [apply Nat.div_le_mono; lia|].
    rewrite Nat.mul_comm, Nat.div_add_l by lia. pose proof (Nat.div_le_upper_bound 14 (width u) 14 ltac:(lia)). nia. }
  set (q := N.of_nat (d / width u)).
  assert (Hq : (0 < q < 2 ^ 31)%N).
  { unfold q. pose proof (Nat.pow_nonzero 2 s ltac:(lia)). change (2 ^ 30)%N with 1073741824%N in Hk. change (2 ^ 31)%N with 2147483648%N. lia. }
  assert (Hlog : (N.log2 q < 31)%N) by (apply N.log2_lt_pow2; lia).
  unfold floor2. rewrite floor_log2_some by lia. unfold int_one_shl. destruct (N.ltb_spec (N.log2 q) 31); [|lia].
  rewrite N.mod_small by (apply N.pow_lt_mono_r; lia).
  assert (E : N.to_nat (2 ^ N.log2 q) = 2 ^ N.to_nat (N.log2 q)).
  { apply Nat2N.inj. rewrite N2Nat.id, Nat2N.inj_pow, N2Nat.id. reflexivity. }
  exists (N.to_nat (N.log2 q)). split; [exact E|].
  assert (Hs2 : s <= N.to_nat (N.log2 q)).
  { assert (N.of_nat s <= N.log2 q)%N; [|lia]. rewrite <- (N.log2_pow2 (N.of_nat s)) by lia. apply N.log2_le_mono.
    unfold q. change 2%N with (N.of_nat 2). rewrite <- Nat2N.inj_pow. lia. }
  split.
  - pose proof (Nat.pow_le_mono_r 2 s (N.to_nat (N.log2 q)) ltac:(lia) Hs2). lia.
  - rewrite E. pose proof (N.log2_spec q ltac:(lia)) as [Hq1 _].
    assert (2 ^ N.to_nat (N.log2 q) <= d / width u) by (rewrite <- E; unfold q in *; lia).
    assert (width u * (d / width u) <= d) by (apply Nat.mul_div_le; lia).
    assert (width u * 2 ^ N.to_nat (N.log2 q) <= width u * (d / width u)) by (apply Nat.mul_le_mono_l; auto).
    assert (nth u offs 0 <= nth (S u) offs 0) by lia. unfold d in *. lia.
Qed.
End C.
