From Verif Require Import Lib.Prelude Model.MathModel Model.PartUtilsModel Spec.BlockTree Proofs.MathProofs.
Local Open Scope N_scope.

(** ** Tree facts *)
Lemma tree_level_length l v : length (tree_level l v) = (2 ^ l)%nat.
Proof. revert v; induction l; intros v; simpl; auto. rewrite app_length, !IHl. lia. Qed.

Lemma nsum_app a b : nsum (a ++ b) = nsum a + nsum b.
Proof. induction a; simpl; lia. Qed.

Lemma half_sum v : (v + 1) / 2 + v / 2 = v.
Proof. dlia. Qed.

Lemma tree_level_sum l v : nsum (tree_level l v) = v.
Proof. revert v; induction l; intros v; simpl; [lia|]. rewrite nsum_app, !IHl. apply half_sum. Qed.

Lemma tree_level_split l v :
  tree_level (S l) v = flat_map (fun x => [(x + 1) / 2; x / 2]) (tree_level l v).
Proof.
  revert v; induction l; intros v; [reflexivity|].
  change (tree_level (S (S l)) v) with (tree_level (S l) ((v + 1) / 2) ++ tree_level (S l) (v / 2)).
  rewrite (IHl ((v + 1) / 2)), (IHl (v / 2)).
  change (tree_level (S l) v) with (tree_level l ((v + 1) / 2) ++ tree_level l (v / 2)).
  rewrite flat_map_app. reflexivity.
Qed.

Lemma flat_map_pair_nth {A} (f g : A -> A) (l : list A) i d :
  (i < length l)%nat ->
  nth (2 * i) (flat_map (fun x => [f x; g x]) l) d = f (nth i l d) /\
  nth (2 * i + 1) (flat_map (fun x => [f x; g x]) l) d = g (nth i l d).
Proof.
  revert i; induction l as [|a l IH]; intros i Hi; simpl in Hi; [lia|].
  destruct i as [|i].
  - simpl. auto.
  - replace (2 * S i)%nat with (S (S (2 * i))) by lia.
    replace (S (S (2 * i)) + 1)%nat with (S (S (2 * i + 1))) by lia.
    simpl. apply IH. lia.
Qed.

Lemma tree_level_children l v i :
  (i < 2 ^ l)%nat ->
  nth (2 * i) (tree_level (S l) v) 0 = (nth i (tree_level l v) 0 + 1) / 2 /\
  nth (2 * i + 1) (tree_level (S l) v) 0 = nth i (tree_level l v) 0 / 2.
Proof.
  intros H. rewrite tree_level_split.
  apply (flat_map_pair_nth (fun x => (x + 1) / 2) (fun x => x / 2)).
  rewrite tree_level_length; auto.
Qed.

(** ** Bit reversal *)
(** [brev l b]: the [l] low bits of [b] in reverse order. *)
Fixpoint brev (l : nat) (b : N) : N :=
  match l with
  | O => 0
  | S l' => (if N.odd b then 2 ^ N.of_nat l' else 0) + brev l' (b / 2)
  end.

Lemma brev_lt l b : brev l b < 2 ^ N.of_nat l.
Proof.
  revert b; induction l; intros b; [reflexivity|].
  cbn [brev]. specialize (IHl (b / 2)).
  rewrite Nat2N.inj_succ, N.pow_succ_r'. destruct (N.odd b); lia.
Qed.

(** label of node [b] on level [l] *)
Lemma tree_label l : forall k b, b < 2 ^ N.of_nat l ->
  nth (N.to_nat b) (tree_level l k) 0
  = k / 2 ^ N.of_nat l + (if brev l b <? k mod 2 ^ N.of_nat l then 1 else 0).
Proof.
  induction l as [|l IH]; intros k b Hb.
  - simpl in *. assert (b = 0) by lia. subst. simpl.
    rewrite N.div_1_r, N.mod_1_r. simpl. lia.
  - rewrite Nat2N.inj_succ, N.pow_succ_r' in *.
    set (P := 2 ^ N.of_nat l) in *.
    assert (0 < P) as HP by (apply N.neq_0_lt_0, N.pow_nonzero; lia).
    set (b' := b / 2) in *.
    assert (b' < P) as Hb' by (apply N.div_lt_upper_bound; lia).
    assert (N.to_nat b' < 2 ^ l)%nat as Hbn.
    { unfold P in Hb'. replace (2 ^ l)%nat with (N.to_nat (2 ^ N.of_nat l)); [lia|].
      rewrite N2Nat.inj_pow. rewrite Nat2N.id. reflexivity. }
    pose proof (tree_level_children l k (N.to_nat b') Hbn) as [CL CR].
    rewrite (IH k b' Hb') in CL, CR.
    pose proof (brev_lt l b') as Hrev. fold P in Hrev.
    cbn [brev]. fold b'. fold P.
    (* arithmetic on k *)
    pose proof (N.div_mod k P ltac:(lia)) as D. pose proof (N.mod_lt k P ltac:(lia)) as M.
    set (q := k / P) in *. set (r := k mod P) in *.
    assert (k / (2 * P) = q / 2) as EQ.
    { unfold q. rewrite N.div_div by lia. f_equal. lia. }
    pose proof (N.div2_odd q) as Dq. rewrite N.div2_div in Dq.
    set (h := q / 2) in *.
    assert (k mod (2 * P) = r + (if N.odd q then P else 0)) as ER.
    { symmetry. apply N.mod_unique with (q := h).
      - destruct (N.odd q); lia.
      - rewrite D. rewrite Dq at 1. destruct (N.odd q); cbn [N.b2n]; lia. }
    rewrite EQ, ER.
    pose proof (N.div2_odd b) as Db. rewrite N.div2_div in Db. fold b' in Db.
    replace (N.to_nat b) with (if N.odd b then (2 * N.to_nat b' + 1)%nat else (2 * N.to_nat b')%nat)
      by (rewrite Db at 2; destruct (N.odd b); cbn [N.b2n]; lia).
    set (rv := brev l b') in *. clearbody rv q r h.
    destruct (N.odd b).
    + rewrite CR. destruct (N.odd q); cbn [N.b2n] in Dq.
      * replace (P + rv <? r + P) with (rv <? r) by (destruct (N.ltb_spec rv r), (N.ltb_spec (P + rv) (r + P)); auto; lia).
        clear - Dq; destruct (rv <? r); dlia.
      * replace (P + rv <? r + 0) with false by (symmetry; apply N.ltb_ge; lia).
        clear - Dq; destruct (rv <? r); dlia.
    + rewrite CL. destruct (N.odd q); cbn [N.b2n] in Dq.
      * replace (0 + rv <? r + P) with true by (symmetry; apply N.ltb_lt; lia).
        clear - Dq; destruct (rv <? r); dlia.
      * replace (0 + rv <? r + 0) with (rv <? r) by (rewrite N.add_0_l, N.add_0_r; auto).
        clear - Dq; destruct (rv <? r); dlia.
Qed.

(** Test bits of the reversal. *)
Lemma brev_testbit l : forall b i,
  N.testbit (brev l b) i = (i <? N.of_nat l) && N.testbit b (N.of_nat l - 1 - i).
Proof.
  induction l as [|l IH]; intros b i.
  - simpl. destruct i; auto.
  - cbn [brev]. pose proof (brev_lt l (b / 2)) as HL.
    rewrite Nat2N.inj_succ.
    assert (forall x, x < 2 ^ N.of_nat l -> forall j, N.of_nat l <= j -> N.testbit x j = false) as Hhi.
    { intros x Hx j Hj. rewrite <- (N.mod_small x (2 ^ N.of_nat l)) by auto.
      apply N.mod_pow2_bits_high; auto. }
    assert (N.testbit ((if N.odd b then 2 ^ N.of_nat l else 0) + brev l (b / 2)) i
            = if i =? N.of_nat l then N.odd b else N.testbit (brev l (b / 2)) i) as E.
    { destruct (N.odd b) eqn:Eo.
      - replace (2 ^ N.of_nat l + brev l (b / 2)) with (N.lor (2 ^ N.of_nat l) (brev l (b / 2))).
        + rewrite N.lor_spec, N.pow2_bits_eqb. rewrite N.eqb_sym.
          destruct (N.eqb_spec i (N.of_nat l)); auto.
        + rewrite <- N.lxor_lor, <- N.add_nocarry_lxor; auto.
          * apply N.bits_inj_0. intros j. rewrite N.land_spec, N.pow2_bits_eqb.
            destruct (N.eqb_spec (N.of_nat l) j); auto. subst. rewrite Hhi; auto. lia.
          * apply N.bits_inj_0. intros j. rewrite N.land_spec, N.pow2_bits_eqb.
            destruct (N.eqb_spec (N.of_nat l) j); auto. subst. rewrite Hhi; auto. lia.
      - rewrite N.add_0_l. destruct (N.eqb_spec i (N.of_nat l)); auto. subst. apply Hhi; auto. lia. }
    rewrite E. destruct (N.eqb_spec i (N.of_nat l)) as [->|Hne].
    + destruct (N.ltb_spec (N.of_nat l) (N.succ (N.of_nat l))); [|lia]. simpl.
      replace (N.succ (N.of_nat l) - 1 - N.of_nat l) with 0 by lia. rewrite N.bit0_odd. auto.
    + rewrite IH. destruct (N.ltb_spec i (N.of_nat l)) as [Hi|Hi].
      * destruct (N.ltb_spec i (N.succ (N.of_nat l))); [|lia]. simpl.
        rewrite <- N.div2_div, N.div2_spec, N.shiftr_spec'. f_equal. lia.
      * destruct (N.ltb_spec i (N.succ (N.of_nat l))); [lia|]. auto.
Qed.

Lemma lut_testbit x i : x < 16 -> N.testbit (lut x) i = (i <? 4) && N.testbit x (3 - i).
Proof.
  intros Hx.
  assert (lut x = brev 4 x) as ->.
  { assert (forallb (fun x => lut x =? brev 4 x) (map N.of_nat (seq 0 16)) = true) as F by reflexivity.
    rewrite forallb_forall in F. apply N.eqb_eq. apply F. apply in_map_iff. exists (N.to_nat x).
    split; [lia|]. apply in_seq. lia. }
  rewrite brev_testbit. replace (N.of_nat 4) with 4 by reflexivity. f_equal.
Qed.

Lemma nibble_testbit b m s i : (* m = 0xF << s *)
  m = N.shiftl 15 s ->
  N.testbit (N.shiftr (N.land b m) s) i = (i <? 4) && N.testbit b (i + s).
Proof.
  intros ->. rewrite N.shiftr_spec', N.land_spec.
  rewrite N.shiftl_spec_high' by lia. replace (i + s - s) with i by lia.
  change 15 with (N.ones 4). rewrite andb_comm. f_equal.
  destruct (N.ltb_spec i 4); [apply N.ones_spec_low | apply N.ones_spec_high]; auto.
Qed.

Lemma lt16_of_bits x : (forall i, 4 <= i -> N.testbit x i = false) -> x < 16.
Proof.
  intros H. destruct (N.lt_ge_cases x 16); auto. exfalso.
  assert (N.testbit x (N.log2 x) = true) by (apply N.bit_log2; lia).
  rewrite H in H1; [discriminate|]. change 4 with (N.log2 16). apply N.log2_le_mono; auto.
Qed.

Lemma nibble_lt16 b m s : m = N.shiftl 15 s -> N.shiftr (N.land b m) s < 16.
Proof.
  intros Hm. apply lt16_of_bits. intros i Hi. rewrite nibble_testbit by auto.
  destruct (N.ltb_spec i 4); [lia|auto].
Qed.

Lemma rev_term b m s t i : m = N.shiftl 15 s ->
  N.testbit (N.shiftl (lut (N.shiftr (N.land b m) s)) t) i
  = (t <=? i) && (i <? t + 4) && N.testbit b (3 + s + t - i).
Proof.
  intros Hm. destruct (N.leb_spec t i) as [H|H]; simpl.
  - rewrite N.shiftl_spec_high' by auto. rewrite lut_testbit by (apply nibble_lt16; auto).
    rewrite nibble_testbit by auto.
    destruct (N.ltb_spec (i - t) 4), (N.ltb_spec i (t + 4)); simpl; auto; try lia.
    destruct (N.ltb_spec (3 - (i - t)) 4); simpl; [|lia]. f_equal. lia.
  - rewrite N.shiftl_spec_low; auto.
Qed.

Lemma reverse32_testbit b i : N.testbit (reverse32 b) i = (i <? 32) && N.testbit b (31 - i).
Proof.
  unfold reverse32. rewrite !N.lor_spec.
  assert (forall x, lut x = N.shiftl (lut x) 0) as S0 by (intros; rewrite N.shiftl_0_r; auto).
  assert (N.testbit (lut (N.shiftr (N.land b 0xF0000000) 28)) i
    = (0 <=? i) && (i <? 0 + 4) && N.testbit b (3 + 28 + 0 - i)) as T0.
  { rewrite S0. apply rev_term. reflexivity. }
  assert (N.testbit (N.shiftl (lut (N.land b 0x0000000F)) 28) i
    = (28 <=? i) && (i <? 28 + 4) && N.testbit b (3 + 0 + 28 - i)) as T7.
  { rewrite <- (N.shiftr_0_r (N.land b 0x0000000F)). apply rev_term. reflexivity. }
  rewrite T0, T7.
  rewrite !rev_term by reflexivity. clear.
  destruct (N.ltb_spec i 32) as [Hi|Hi].
  - assert (In i (map N.of_nat (seq 0 32))) as HIn.
    { apply in_map_iff. exists (N.to_nat i). split; [lia|]. apply in_seq. lia. }
    cbn [seq map In] in HIn.
    repeat (destruct HIn as [<-|HIn];
            [lazy -[N.testbit orb]; rewrite ?orb_false_r, ?orb_false_l; reflexivity|]).
    contradiction.
  - assert (forall t, t <= 28 -> (i <? t + 4) = false) as F by (intros t Ht; apply N.ltb_ge; lia).
    rewrite !F by lia. rewrite !andb_false_r. reflexivity.
Qed.

Lemma reversed_is_brev l b : (0 < l)%nat -> (l <= 32)%nat ->
  N.shiftr (reverse32 b) (32 - N.of_nat l) = brev l b.
Proof.
  intros H1 H2. apply N.bits_inj. intros i.
  rewrite N.shiftr_spec', reverse32_testbit, brev_testbit.
  destruct (N.ltb_spec (i + (32 - N.of_nat l)) 32), (N.ltb_spec i (N.of_nat l)); simpl; auto; try lia.
  f_equal. lia.
Qed.

(** ** compute_final_k *)
Lemma final_k_pow2 ub l k b :
  2 ^ N.of_nat l <= k -> k < 2 ^ 31 -> b < 2 ^ N.of_nat l ->
  compute_final_k ub b (2 ^ N.of_nat l) k = Some (nth (N.to_nat b) (tree_level l k) 0).
Proof.
  intros Hk Hk31 Hb. rewrite tree_label by auto.
  assert (0 < 2 ^ N.of_nat l) as HP by (apply N.neq_0_lt_0, N.pow_nonzero; lia).
  assert (N.of_nat l < 31) as Hl.
  { apply N.pow_lt_mono_r_iff with (a := 2); lia. }
  unfold compute_final_k. destruct (N.eqb_spec (2 ^ N.of_nat l) k) as [E|E].
  - rewrite <- E. rewrite N.div_same, N.mod_same by lia.
    destruct (N.ltb_spec (brev l b) 0); [lia|]. f_equal.
  - rewrite floor_log2_some; [|lia|apply N.pow_lt_mono_r; lia].
    rewrite N.log2_pow2 by lia.
    rewrite N.shiftr_div_pow2. rewrite <- N.pred_sub, <- N.ones_equiv, N.land_ones.
    f_equal. f_equal.
    destruct (N.eqb_spec (N.of_nat l) 0) as [E0|E0].
    + rewrite E0. rewrite N.mod_1_r. destruct (N.ltb_spec ub 0), (N.ltb_spec (brev l b) 0); auto; lia.
    + rewrite reversed_is_brev by lia. auto.
Qed.

Lemma final_k_top ub k b : compute_final_k ub b k k = Some 1.
Proof. unfold compute_final_k. rewrite N.eqb_refl. auto. Qed.

Lemma final_k_balanced ub l k b :
  2 ^ N.of_nat l <= k -> k < 2 ^ 31 -> b < 2 ^ N.of_nat l ->
  exists v, compute_final_k ub b (2 ^ N.of_nat l) k = Some v /\ 1 <= v /\
    k / 2 ^ N.of_nat l <= v <= k / 2 ^ N.of_nat l + 1.
Proof.
  intros Hk Hk31 Hb. rewrite final_k_pow2 by auto. eexists; split; [reflexivity|].
  rewrite tree_label by auto.
  assert (1 <= k / 2 ^ N.of_nat l).
  { apply N.div_le_lower_bound; [apply N.pow_nonzero; lia|lia]. }
  destruct (_ <? _); lia.
Qed.

(** ** compute_first_sub_block *)
(** sum of the first [b] labels of a level *)
Definition prefix_labels (l : nat) (k b : N) : N := nsum (firstn (N.to_nat b) (tree_level l k)).

Lemma prefix_left l k b : b < 2 ^ N.of_nat l -> prefix_labels (S l) k b = prefix_labels l ((k+1)/2) b.
Proof.
  intros H. unfold prefix_labels. cbn [tree_level]. rewrite firstn_app.
  rewrite tree_level_length.
  replace (N.to_nat b - 2 ^ l)%nat with 0%nat. { simpl. rewrite app_nil_r; auto. }
  replace (2 ^ l)%nat with (N.to_nat (2 ^ N.of_nat l)); [lia|].
  rewrite N2Nat.inj_pow, Nat2N.id; auto.
Qed.

Lemma prefix_right l k b : 2 ^ N.of_nat l <= b ->
  prefix_labels (S l) k b = (k+1)/2 + prefix_labels l (k/2) (b - 2 ^ N.of_nat l).
Proof.
  intros H. unfold prefix_labels. cbn [tree_level]. rewrite firstn_app, nsum_app.
  assert ((2 ^ l)%nat = N.to_nat (2 ^ N.of_nat l)) as E by (rewrite N2Nat.inj_pow, Nat2N.id; auto).
  rewrite firstn_all2 by (rewrite tree_level_length; lia).
  rewrite tree_level_sum, tree_level_length. do 3 f_equal. lia.
Qed.

Lemma land_pow2_bit b e : (N.land b (2 ^ e) =? 0) = negb (N.testbit b e).
Proof.
  destruct (N.testbit b e) eqn:E; simpl.
  - apply N.eqb_neq. intros Z0. assert (N.testbit (N.land b (2^e)) e = false) by (rewrite Z0; apply N.bits_0).
    rewrite N.land_spec, E, N.pow2_bits_true in H. discriminate.
  - apply N.eqb_eq. apply N.bits_inj_0. intros i. rewrite N.land_spec, N.pow2_bits_eqb.
    destruct (N.eqb_spec e i); subst; [rewrite E|]; auto. apply andb_false_r.
Qed.

Lemma mod_pow2_succ b l :
  b mod 2 ^ N.succ l = (if N.testbit b l then 2 ^ l else 0) + b mod 2 ^ l.
Proof.
  pose proof (N.pow_nonzero 2 l ltac:(lia)) as HP.
  symmetry. apply N.mod_unique with (q := b / 2 ^ l / 2).
  - rewrite N.pow_succ_r'. pose proof (N.mod_lt b (2 ^ l) HP). destruct (N.testbit b l); lia.
  - pose proof (N.div_mod b (2 ^ l) HP) as D.
    assert (N.b2n (N.testbit b l) = (b / 2 ^ l) mod 2) as T by apply N.testbit_spec'.
    pose proof (N.div_mod (b / 2 ^ l) 2 ltac:(lia)) as D2. rewrite <- T in D2.
    rewrite N.pow_succ_r'. set (q := b / 2 ^ l) in *. set (P := 2 ^ l) in *.
    rewrite D at 1. rewrite D2 at 1. destruct (N.testbit b l); cbn [N.b2n]; lia.
Qed.

(** the loop with mask 2^(l-1) and l+1 remaining rounds *)
Lemma loop_levels l : forall fuel b j v ans,
  (S l <= fuel)%nat -> N.of_nat l + j < 31 ->
  first_sub_block_loop fuel b (2 ^ (N.of_nat l + j)) (2 ^ j) v
     (match l with O => 0 | S l' => 2 ^ N.of_nat l' end) ans
  = Some (ans + prefix_labels l v (b mod 2 ^ N.of_nat l)).
Proof.
  assert (forall j, j < 31 -> (2 ^ j * 2) mod 2 ^ 32 = 2 ^ (j + 1)) as W.
  { intros j Hj. rewrite N.add_1_r, N.pow_succ_r', N.mul_comm. apply N.mod_small.
    rewrite <- N.pow_succ_r'. apply N.pow_lt_mono_r; lia. }
  induction l as [|l IH]; intros fuel b j v ans Hf Hj.
  - destruct fuel as [|fuel]; [lia|]. cbn [first_sub_block_loop].
    replace (N.of_nat 0 + j) with j in * by lia. rewrite N.leb_refl.
    unfold split_integral. rewrite N.land_0_r, N.eqb_refl. cbn [negb]. rewrite W by auto.
    destruct fuel; cbn [first_sub_block_loop];
      (destruct (N.leb_spec (2 ^ (j + 1)) (2 ^ j)) as [C|C];
       [apply N.pow_le_mono_r_iff in C; lia|]);
      unfold prefix_labels; change (2 ^ N.of_nat 0) with 1; rewrite N.mod_1_r;
      change (N.to_nat 0) with 0%nat; cbn [firstn nsum]; f_equal; lia.
  - destruct fuel as [|fuel]; [lia|]. cbn [first_sub_block_loop].
    destruct (N.leb_spec (2 ^ j) (2 ^ (N.of_nat (S l) + j))) as [C|C];
      [|exfalso; apply N.pow_lt_mono_r_iff in C; lia].
    unfold split_integral. rewrite W by lia. rewrite land_pow2_bit, negb_involutive.
    replace (N.shiftr (2 ^ N.of_nat l) 1) with (match l with O => 0 | S l' => 2 ^ N.of_nat l' end).
    2:{ destruct l; [reflexivity|]. rewrite Nat2N.inj_succ, N.pow_succ_r', N.shiftr_div_pow2.
        change (2 ^ 1) with 2. rewrite N.mul_comm, N.div_mul; lia. }
    replace (N.of_nat (S l) + j) with (N.of_nat l + (j + 1)) by lia.
    rewrite Nat2N.inj_succ, mod_pow2_succ.
    pose proof (N.mod_lt b (2 ^ N.of_nat l) (N.pow_nonzero 2 _ ltac:(lia))) as M.
    destruct (N.testbit b (N.of_nat l)).
    + rewrite IH by lia. rewrite prefix_right by lia. f_equal.
      replace (2 ^ N.of_nat l + b mod 2 ^ N.of_nat l - 2 ^ N.of_nat l) with (b mod 2 ^ N.of_nat l) by lia. lia.
    + rewrite IH by lia. rewrite N.add_0_l, prefix_left by lia. reflexivity.
Qed.

Lemma first_sub_block_pow2 l k b : N.of_nat l < 31 -> b < 2 ^ N.of_nat l ->
  compute_first_sub_block b (2 ^ N.of_nat l) k = Some (prefix_labels l k b).
Proof.
  intros Hl Hb. unfold compute_first_sub_block.
  destruct (N.eqb_spec (2 ^ N.of_nat l) 1) as [E|E].
  - assert (b = 0) by lia. subst. unfold prefix_labels. reflexivity.
  - assert (0 < 2 ^ N.of_nat l) as HP by (apply N.neq_0_lt_0, N.pow_nonzero; lia).
    rewrite ceil_log2_some; [|lia|apply N.pow_lt_mono_r; lia].
    rewrite N.log2_up_pow2 by lia.
    destruct l as [|l]; [exfalso; apply E; reflexivity|].
    replace (N.of_nat (S l) - 1) with (N.of_nat l) by lia.
    pose proof (loop_levels (S l) 40 b 0 k 0 ltac:(lia) ltac:(lia)) as H.
    rewrite N.add_0_r in H. change (2 ^ 0) with 1 in H. rewrite H.
    rewrite N.mod_small by auto. reflexivity.
Qed.

Lemma prefix_labels_succ l k b : b < 2 ^ N.of_nat l ->
  prefix_labels l k (b + 1) = prefix_labels l k b + nth (N.to_nat b) (tree_level l k) 0.
Proof.
  intros Hb. unfold prefix_labels.
  assert (N.to_nat b < length (tree_level l k))%nat as HL.
  { rewrite tree_level_length. replace (2 ^ l)%nat with (N.to_nat (2 ^ N.of_nat l)); [lia|].
    rewrite N2Nat.inj_pow, Nat2N.id; auto. }
  replace (N.to_nat (b + 1)) with (S (N.to_nat b)) by lia.
  revert HL. generalize (tree_level l k) (N.to_nat b). clear.
  intros L n; revert L; induction n as [|n IH]; intros [|a L] H; simpl in *; try lia.
  rewrite IH by lia. lia.
Qed.

Lemma sub_blocks_tile ub l k :
  2 ^ N.of_nat l <= k -> k < 2 ^ 31 ->
  compute_first_sub_block 0 (2 ^ N.of_nat l) k = Some 0 /\
  (forall b, b < 2 ^ N.of_nat l ->
     exists lo hi fk, compute_first_sub_block b (2 ^ N.of_nat l) k = Some lo /\
       compute_first_invalid_sub_block ub b (2 ^ N.of_nat l) k = Some hi /\
       compute_final_k ub b (2 ^ N.of_nat l) k = Some fk /\
       hi = lo + fk /\ 1 <= fk /\
       (b + 1 < 2 ^ N.of_nat l -> compute_first_sub_block (b + 1) (2 ^ N.of_nat l) k = Some hi) /\
       (b + 1 = 2 ^ N.of_nat l -> hi = k)).
Proof.
  intros Hk Hk31.
  assert (N.of_nat l < 31) as Hl by (apply N.pow_lt_mono_r_iff with (a := 2); lia).
  assert (0 < 2 ^ N.of_nat l) as HP by (apply N.neq_0_lt_0, N.pow_nonzero; lia).
  split; [apply first_sub_block_pow2; auto|].
  intros b Hb. pose proof (final_k_balanced ub l k b Hk Hk31 Hb) as (v & Ev & Hv & _).
  pose proof (final_k_pow2 ub l k b Hk Hk31 Hb) as E2. rewrite E2 in Ev. injection Ev as Ev.
  pose proof (prefix_labels_succ l k b Hb) as PS. rewrite Ev in PS.
  exists (prefix_labels l k b), (prefix_labels l k (b + 1)), v.
  repeat split.
  - apply first_sub_block_pow2; auto.
  - unfold compute_first_invalid_sub_block. rewrite first_sub_block_pow2, E2 by auto. f_equal. lia.
  - rewrite E2; f_equal; auto.
  - auto.
  - auto.
  - intros Hb1. apply first_sub_block_pow2; auto.
  - intros Hb1. unfold prefix_labels. rewrite firstn_all2; [apply tree_level_sum|].
    rewrite tree_level_length, Hb1, N2Nat.inj_pow, Nat2N.id. simpl; lia.
Qed.

(** ** compute_k_for_n *)
Lemma k_for_n_spec n c k :
  2 <= k -> k < 2 ^ 31 -> 1 <= c -> n / c <= 2 ^ 31 ->
  exists k', compute_k_for_n n c k = Some k' /\ 2 <= k' <= k /\ (k' = k \/ exists e, k' = 2 ^ e) /\ (k' = k \/ n / c <= k').
Proof.
  intros H2 Hk Hc Hn. unfold compute_k_for_n.
  destruct (N.ltb_spec n (2 * c)) as [Hs|Hs].
  - exists 2. split; auto. split; [lia|]. split; [right; exists 1; reflexivity|]. right.
    apply N.lt_le_incl, N.div_lt_upper_bound; lia.
  - destruct (N.eqb_spec c 0); [lia|].
    assert (2 <= n / c) as Hq by (apply N.div_le_lower_bound; lia).
    rewrite ceil_log2_some; [|lia|eapply N.le_lt_trans; [exact Hn|reflexivity]].
    pose proof (log2_up_le_pow (n / c) 31 ltac:(lia) Hn) as HL.
    rewrite int_one_shl_32 by lia.
    unfold clamp. destruct (N.ltb_spec k 2); [lia|].
    destruct (N.ltb_spec (2 ^ N.log2_up (n / c)) 2) as [A|A].
    + exists 2. split; auto. split; [lia|]. split; [right; exists 1; reflexivity|]. right.
      assert (HU := N.log2_up_spec (n / c) ltac:(lia)). lia.
    + destruct (N.ltb_spec k (2 ^ N.log2_up (n / c))) as [B|B].
      * exists k. split; auto. split; [lia|]. split; left; auto.
      * eexists. split; [reflexivity|]. split; [lia|]. split; [right; eauto|]. right.
        assert (HU := N.log2_up_spec (n / c) ltac:(lia)). lia.
Qed.

Lemma first_sub_block_toplevel_witness :
  exists b k, b < k /\ compute_first_sub_block b k k <> Some b.
Proof. exists 4, 5. vm_compute. split; [reflexivity|discriminate]. Qed.

Lemma final_k_sum ub l k :
  2 ^ N.of_nat l <= k -> k < 2 ^ 31 ->
  exists fs, map (fun b => compute_final_k ub (N.of_nat b) (2 ^ N.of_nat l) k) (seq 0 (2 ^ l)) = map Some fs
    /\ nsum fs = k.
Proof.
  intros Hk Hk31. exists (tree_level l k). split; [|apply tree_level_sum].
  rewrite <- (map_nth_seq 0 (tree_level l k)) at 1. rewrite map_map, tree_level_length.
  apply map_ext_in. intros b Hb. apply in_seq in Hb.
  rewrite final_k_pow2; auto. - rewrite Nat2N.id; auto.
  - replace (2 ^ N.of_nat l) with (N.of_nat (2 ^ l)); [lia|].
    rewrite Nat2N.inj_pow. reflexivity.
Qed.

Lemma final_k_children ub l k b :
  2 ^ (N.of_nat l + 1) <= k -> k < 2 ^ 31 -> b < 2 ^ N.of_nat l ->
  exists v, compute_final_k ub b (2 ^ N.of_nat l) k = Some v /\
    compute_final_k ub (2 * b) (2 ^ (N.of_nat l + 1)) k = Some (fst (split_integral v)) /\
    compute_final_k ub (2 * b + 1) (2 ^ (N.of_nat l + 1)) k = Some (snd (split_integral v)).
Proof.
  intros Hk Hk31 Hb.
  assert (2 ^ N.of_nat l <= k) as Hk0.
  { rewrite N.add_1_r, N.pow_succ_r' in Hk. lia. }
  replace (N.of_nat l + 1) with (N.of_nat (S l)) in * by lia.
  assert (2 * b + 1 < 2 ^ N.of_nat (S l)) as Hb2.
  { rewrite Nat2N.inj_succ, N.pow_succ_r'. lia. }
  rewrite !final_k_pow2 by (auto; lia).
  exists (nth (N.to_nat b) (tree_level l k) 0). split; [reflexivity|].
  assert (N.to_nat b < 2 ^ l)%nat as Hbn.
  { replace (2 ^ l)%nat with (N.to_nat (2 ^ N.of_nat l)); [lia|]. rewrite N2Nat.inj_pow, Nat2N.id; auto. }
  pose proof (tree_level_children l k (N.to_nat b) Hbn) as [CL CR].
  unfold split_integral; cbn [fst snd]. rewrite <- CL, <- CR.
  split; do 2 f_equal; lia.
Qed.
