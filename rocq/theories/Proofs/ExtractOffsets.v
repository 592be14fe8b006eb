(* Which ranks work on which blocks. *)
From Verif Require Import Lib.Prelude Model.GridModel Model.DistGraphModel Model.DistExtractModel Spec.DistExtractSpec.

Section Few.
Variables P k : nat.
Hypothesis Hk : 0 < k.
Hypothesis HkP : k <= P.
Hypothesis Hfew : few_left P k.
Notation q := (P / k).
Notation r0 := (P mod k).
Notation fst_pe b := (b * (P / k) + Nat.min b (P mod k)).

Lemma div_facts : 1 <= q /\ r0 < k /\ P = k * q + r0.
Proof. split; [apply Nat.div_le_lower_bound; lia|]. split; [apply Nat.mod_upper_bound; lia|]. apply Nat.div_mod. lia. Qed.
Lemma first_pe_few b : first_pe_with_block P k b = fst_pe b.
Proof. unfold first_pe_with_block. destruct div_facts as (A & _ & _). apply Nat.max_r. nia. Qed.
Lemma num_pes_few b : fst_pe b + num_pes_with_block P k b = fst_pe (S b).
Proof. unfold num_pes_with_block. destruct div_facts as (A & _ & _). destruct (Nat.ltb_spec b r0); nia. Qed.
Lemma num_blocks_few pe : num_blocks_on_pe P k pe = 1.
Proof.
  unfold num_blocks_on_pe. destruct (Nat.eq_dec k P) as [->|N].
  - rewrite Nat.mod_same, Nat.div_same by lia. reflexivity.
  - rewrite Nat.div_small, Nat.mod_small by lia. destruct (pe <? k); reflexivity.
Qed.
Lemma recv_offset_few pe : recv_offset P k pe = pe.
Proof.
  unfold recv_offset. destruct (Nat.eq_dec k P) as [->|N].
  - rewrite Nat.mod_same, Nat.div_same by lia. lia.
  - rewrite Nat.div_small, Nat.mod_small by lia. lia.
Qed.
Lemma works_few r b : works_on P k r b <-> fst_pe b <= r < fst_pe (S b).
Proof. unfold works_on. destruct (Nat.leb_spec k P); [reflexivity|lia]. Qed.
Lemma fst_pe_mono a b : a <= b -> fst_pe a <= fst_pe b.
Proof. intros H. nia. Qed.
Lemma fst_pe_k : fst_pe k = P.
Proof. destruct div_facts as (_ & A & B). lia. Qed.
Lemma works_unique r b b' : works_on P k r b -> works_on P k r b' -> b = b'.
Proof.
  rewrite !works_few. intros A B. destruct (Nat.lt_trichotomy b b') as [C|[C|C]]; [|exact C|].
  - pose proof (fst_pe_mono (S b) b' C). lia.
  - pose proof (fst_pe_mono (S b') b C). lia.
Qed.
Lemma works_exists r : r < P -> exists b, b < k /\ works_on P k r b.
Proof.
  intros Hr. rewrite <- fst_pe_k in Hr at 1. assert (G : forall j, r < fst_pe j -> exists b, b < j /\ works_on P k r b).
  { induction j as [|j IH]; intros H; [cbn in H; lia|]. destruct (Nat.lt_ge_cases r (fst_pe j)) as [C|C].
    - destruct (IH C) as (b & A & B). exists b. split; [lia|exact B].
    - exists j. split; [lia|]. apply works_few. lia. }
  exact (G k Hr).
Qed.
Lemma first_block_few r b : b < k -> works_on P k r b -> first_block_on_pe P k r = b.
Proof.
  intros Hb W. apply works_few in W. destruct div_facts as (Q & R & E). unfold first_block_on_pe. destruct (Nat.leb_spec P k) as [C|C].
  - assert (P = k) by lia. rewrite H in *. rewrite Nat.mod_same, Nat.div_same in * by lia. lia.
  - destruct (Nat.leb_spec r (r0 * q)) as [D|D].
    + destruct (Nat.lt_ge_cases b r0) as [F|F].
      * symmetry. apply (Nat.div_unique r (q + 1) b (r - b * (q + 1))); nia.
      * assert (r0 = 0) by nia. assert (r = 0) by nia. assert (b = 0) by nia. subst b. rewrite H0. apply Nat.div_small. lia.
    + destruct (Nat.lt_ge_cases b r0) as [F|F].
      * destruct Hfew as [X|[X Y]]; [nia|]. rewrite X, Y in *. assert (r = 3 /\ b = 1) as [-> ->] by nia. reflexivity.
      * rewrite Z.quot_div_nonneg by nia. replace (Z.of_nat r - Z.of_nat (r0 * (q + 1)))%Z with (Z.of_nat (r - r0 * (q + 1))) by nia.
        rewrite <- Nat2Z.inj_div, <- Nat2Z.inj_add, Nat2Z.id. rewrite <- (Nat.div_unique (r - r0 * (q + 1)) q (b - r0) (r - r0 * (q + 1) - (b - r0) * q)); nia.
Qed.
End Few.

Section Many.
Variables P k : nat.
Hypothesis HP : 0 < P.
Hypothesis HPk : P < k.
Hypothesis Hdiv : k mod P = 0.
Lemma many_facts : k = P * (k / P) /\ 1 <= k / P.
Proof. split; [pose proof (Nat.div_mod k P); lia|apply Nat.div_le_lower_bound; lia]. Qed.
Lemma first_pe_many b : first_pe_with_block P k b = b.
Proof. unfold first_pe_with_block. rewrite Nat.div_small by lia. generalize (P mod k). intros x. lia. Qed.
Lemma num_pes_many b : num_pes_with_block P k b = 1.
Proof. unfold num_pes_with_block. rewrite Nat.div_small by lia. destruct (b <? P mod k); reflexivity. Qed.
Lemma num_blocks_many pe : num_blocks_on_pe P k pe = k / P.
Proof. unfold num_blocks_on_pe. rewrite Hdiv. change (pe <? 0) with false. cbv iota. destruct many_facts as [_ H]. revert H. generalize (k / P). intros x H. lia. Qed.
Lemma recv_offset_many pe : recv_offset P k pe = pe * (k / P).
Proof. unfold recv_offset. rewrite Hdiv. destruct many_facts as [_ H]. revert H. generalize (k / P). intros x H. nia. Qed.
Lemma first_block_many pe : first_block_on_pe P k pe = pe * (k / P).
Proof. unfold first_block_on_pe. destruct (Nat.leb_spec P k); [|lia]. rewrite Hdiv. lia. Qed.
End Many.
