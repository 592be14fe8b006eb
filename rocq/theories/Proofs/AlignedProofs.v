(* The aligned prefix sum places the elements disjointly, in order and aligned, for every number of processors. *)
From Verif Require Import Lib.Prelude Model.MathModel Model.GainModel Proofs.MathProofs.

Definition divs (a x : nat) : Prop := a = 0 \/ x mod a = 0.

Lemma align_up_ge x a : x <= align_up x a.
Proof. unfold align_up. destruct (Nat.eqb_spec a 0); lia. Qed.
Lemma align_up_lt x a : divs a 8 -> align_up x a <= x + 7.
Proof.
  intros H. unfold align_up. destruct (Nat.eqb_spec a 0) as [E|E]; [lia|].
  pose proof (Nat.mod_upper_bound (a - x mod a) a E).
  assert (a <= 8); [|lia]. destruct H as [H|H]; [lia|]. apply Nat.mod_divides in H; [|auto]. destruct H as [c Hc].
  destruct c; [lia|]. rewrite Hc, Nat.mul_succ_r. lia.
Qed.
Lemma align_up_mod x a : divs a (align_up x a).
Proof.
  unfold align_up, divs. destruct (Nat.eqb_spec a 0) as [E|E]; [auto|right].
  pose proof (Nat.mod_upper_bound x a E) as Hb. pose proof (Nat.div_mod x a E) as Hd.
  destruct (Nat.eq_dec (x mod a) 0) as [Z|Z].
  - rewrite Z, Nat.sub_0_r, Nat.mod_same, Nat.add_0_r by auto. exact Z.
  - rewrite (Nat.mod_small (a - x mod a)) by lia.
    replace (x + (a - x mod a)) with ((x / a + 1) * a) by lia. apply Nat.mod_mul. auto.
Qed.
Lemma align_up_fix x a : divs a x -> align_up x a = x.
Proof.
  unfold align_up, divs. destruct (Nat.eqb_spec a 0) as [E|E]; [auto|]. intros [H|H]; [contradiction|].
  rewrite H, Nat.sub_0_r, Nat.mod_same by auto. lia.
Qed.
Lemma divs_add a x y : divs a x -> divs a y -> divs a (x + y).
Proof.
  unfold divs. intros [H|H] [I|I]; auto. destruct (Nat.eq_dec a 0); [auto|right].
  rewrite Nat.add_mod, H, I by auto. apply Nat.mod_0_l; auto.
Qed.
Lemma divs_trans a b x : b <> 0 -> divs a b -> divs b x -> divs a x.
Proof.
  unfold divs. intros Hb [H|H] [I|I]; auto; try (subst; contradiction).
  destruct (Nat.eq_dec a 0) as [|Ha]; [auto|right].
  apply Nat.mod_divides in H; [|auto]. apply Nat.mod_divides in I; [|auto].
  destruct H as [c ->]. destruct I as [d ->]. rewrite <- Nat.mul_assoc, Nat.mul_comm. apply Nat.mod_mul; auto.
Qed.

Lemma last_default {A} (l : list A) : forall x d d', last (x :: l) d = last (x :: l) d'.
Proof. induction l as [|y l IH]; intros; [reflexivity|]. exact (IH y d d'). Qed.

Section Chunks.
Variables (n p : nat).
Hypothesis Hp : 0 < p <= n.
Notation fr c := (N.to_nat (lr_from (N.of_nat n) (N.of_nat p) (N.of_nat c))).
Lemma chunk_eq c : c < p -> chunk n p c = (fr c, fr (S c)).
Proof.
  intros Hc. unfold chunk. rewrite lr_unfold by lia. cbn [fst snd]. rewrite Nat2N.inj_succ, N.add_1_r. reflexivity.
Qed.
Lemma fr_0 : fr 0 = 0.
Proof. cbn [N.of_nat]. rewrite lr_from_0. reflexivity. Qed.
Lemma fr_p : fr p = n.
Proof. rewrite lr_from_size by lia. lia. Qed.
Lemma fr_S c : fr c < fr (S c).
Proof.
  assert (0 < N.of_nat n / N.of_nat p)%N by (apply N.div_str_pos; lia).
  rewrite Nat2N.inj_succ, <- N.add_1_r.
  destruct (lr_from_step (N.of_nat n) (N.of_nat p) (N.of_nat c)) as [E|E]; rewrite E; lia.
Qed.
End Chunks.

Section A.
Variables al va : nat -> nat.
Hypothesis Hal : forall i, divs (al i) 8.

Fixpoint laid (from x : nat) (l : list nat) : Prop :=
  match l with
  | [] => True
  | y :: t => x + va from <= y <= x + va from + 14 /\ divs (al (S from)) y /\ laid (S from) y t
  end.
Lemma laid_app l1 : forall from x l2,
  laid from x l1 -> laid (from + length l1) (last l1 x) l2 -> laid from x (l1 ++ l2).
Proof.
  induction l1 as [|y l1 IH]; intros from x l2 H1 H2; cbn [app laid length last] in *.
  - rewrite Nat.add_0_r in H2. auto.
  - destruct H1 as (Ha & Hb & Hc). split; [auto|]. split; [auto|]. apply IH; auto.
    replace (S from + length l1) with (from + S (length l1)) by lia.
    destruct l1 as [|z l1]; [exact H2|]. rewrite (last_default l1 z y x). exact H2.
Qed.

Lemma laid_nth l : forall from x i, laid from x l -> i < length l ->
  nth i (x :: l) 0 + va (from + i) <= nth i l 0 <= nth i (x :: l) 0 + va (from + i) + 14 /\ divs (al (S (from + i))) (nth i l 0).
Proof.
  induction l as [|y l IH]; intros from x i H Hi; cbn [length laid] in *; [lia|].
  destruct H as (Ha & Hb & Hc). destruct i as [|i].
  - cbn [nth]. rewrite Nat.add_0_r. auto.
  - destruct (IH (S from) y i Hc ltac:(lia)) as [H1 H2].
    replace (from + S i) with (S from + i) by lia. auto.
Qed.

Lemma aps_length len : forall from cur, length (aps_seq al va from len cur) = len.
Proof. induction len; intros; cbn [aps_seq length]; [auto|]. rewrite IHlen; auto. Qed.
Lemma aps_laid B : divs 8 B -> forall len from x cur, x <= cur + B <= x + 7 ->
  laid from x (map (fun y => y + B) (aps_seq al va from len cur)).
Proof.
  intros HB. induction len as [|len IH]; intros from x cur Hx; cbn [aps_seq map laid]; [auto|].
  set (nx := align_up (cur + va from) (al (S from))).
  assert (cur + va from <= nx) by apply align_up_ge.
  assert (nx <= cur + va from + 7) by (apply align_up_lt; auto).
  split; [lia|]. split.
  - apply divs_add; [apply align_up_mod|]. apply (divs_trans _ 8); auto.
  - apply IH. lia.
Qed.

Section C.
Variables (n p : nat).
Hypothesis Hp : 0 < p <= n.
Notation fr c := (N.to_nat (lr_from (N.of_nat n) (N.of_nat p) (N.of_nat c))).
Notation rel c := (chunk_rel al va n p c).
Notation base c := (chunk_base al va n p c).
Lemma rel_length c : c < p -> length (rel c) = fr (S c) - fr c.
Proof. intros Hc. unfold chunk_rel. rewrite (chunk_eq n p Hp) by auto. apply aps_length. Qed.
Lemma base_div c : divs 8 (base c).
Proof.
  destruct c as [|c]; [right; reflexivity|]. cbn [chunk_base].
  destruct (chunk n p (S c)) as [f t]. destruct (f =? t); [right; reflexivity|]. apply align_up_mod.
Qed.

Definition pre c : list nat := flat_map (fun c => map (fun x => x + base c) (rel c)) (seq 0 c).
Lemma pre_ok c : c <= p -> length (pre c) = fr c /\ laid 0 0 (pre c) /\
  (0 < c -> last (pre c) 0 = base (c - 1) + last (rel (c - 1)) 0).
Proof.
  induction c as [|c IH]; intros Hc.
  - rewrite (fr_0 n p). cbn. split; [auto|]. split; [auto|lia].
  - destruct (IH ltac:(lia)) as (HL & HD & HE).
    assert (E : pre (S c) = pre c ++ map (fun x => x + base c) (rel c)).
    { unfold pre. rewrite seq_S, flat_map_app. cbn [flat_map plus]. rewrite app_nil_r. reflexivity. }
    assert (HLr := rel_length c ltac:(lia)). pose proof (fr_S n p Hp c).
    assert (Hnn : rel c <> []). { intros C. rewrite C in HLr. cbn in HLr. lia. }
    rewrite E, app_length, map_length, HL. split; [lia|]. split.
    + apply laid_app; auto. rewrite HL. cbn [plus].
      unfold chunk_rel. rewrite (chunk_eq n p Hp) by lia. apply aps_laid; [apply base_div|].
      destruct c as [|c].
      * cbn [pre chunk_base seq flat_map last]. lia.
      * rewrite HE by lia. replace (S c - 1) with c by lia. cbn [chunk_base].
        rewrite (chunk_eq n p Hp) by lia. destruct (Nat.eqb_spec (fr (S c)) (fr (S (S c)))); [lia|]. cbn [plus].
        split; [apply align_up_ge|apply align_up_lt; right; reflexivity].
    + intros _. replace (S c - 1) with c by lia.
      destruct (exists_last Hnn) as (l & x & El). rewrite El, map_app. cbn [map].
      rewrite app_assoc, !last_last. lia.
Qed.
End C.

Theorem aligned_prefix_sum_ok n np : 0 < np ->
  let P := aligned_prefix_sum al va n np in
  length P = S n /\ nth 0 P 0 = 0 /\
  (forall i, i <= n -> divs (al i) (nth i P 0)) /\
  (forall i, i < n -> nth i P 0 + va i <= nth (S i) P 0 <= nth i P 0 + va i + 14) /\
  (0 < n -> aligned_total al va n np = nth n P 0 + va n).
Proof.
  intros Hnp P. unfold P, aligned_prefix_sum, aligned_total. cbv zeta.
  destruct (Nat.eq_dec n 0) as [->|Hn].
  - rewrite Nat.min_0_r. cbn. split; [auto|]. split; [auto|]. split; [|split; lia].
    intros i Hi. assert (i = 0) by lia. subst. unfold divs. destruct (Nat.eq_dec (al 0) 0); [auto|right].
    apply Nat.mod_0_l; auto.
  - set (p := Nat.min np n). assert (Hp : 0 < p <= n) by (unfold p; lia).
    destruct (pre_ok n p Hp p (le_n _)) as (HL & HD & _). rewrite (fr_p n p Hp) in HL. unfold pre in HL, HD.
    set (L := flat_map _ _) in *. split; [cbn; lia|]. split; [reflexivity|]. split; [|split].
    + intros [|i] Hi.
      * cbn. unfold divs. destruct (Nat.eq_dec (al 0) 0); [auto|right]. apply Nat.mod_0_l; auto.
      * cbn [nth]. destruct (laid_nth L 0 0 i HD ltac:(lia)) as [_ H]. exact H.
    + intros i Hi. destruct (laid_nth L 0 0 i HD ltac:(lia)) as [H _]. exact H.
    + intros _. destruct (Nat.eqb_spec n 0); [lia|]. reflexivity.
Qed.
End A.
