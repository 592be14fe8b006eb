(* compute_final_k on natural numbers. *)
From Verif Require Import Lib.Prelude Spec.Level Spec.BlockTree Model.MathModel Model.PartUtilsModel Model.SubgraphModel Proofs.PartUtilsProofs.

Lemma pow_N_nat l : N.of_nat (2 ^ l) = (2 ^ N.of_nat l)%N.
Proof. induction l; [reflexivity|]. rewrite Nat.pow_succ_r', Nat2N.inj_mul, IHl, (Nat2N.inj_succ l), N.pow_succ_r'. reflexivity. Qed.

Lemma final_k_ok ub kp k b : level_ok kp k -> (N.of_nat k < 2 ^ 31)%N -> b < kp ->
  exists f, final_k ub b kp k = Some f /\ 1 <= f.
Proof.
  intros (H1 & H2 & H3) Hk Hb. unfold final_k. destruct (Nat.eq_dec kp k) as [->|Hn].
  - rewrite final_k_top. exists 1. split; auto.
  - destruct H3 as [[l ->]|]; [|easy]. rewrite pow_N_nat.
    destruct (final_k_balanced ub l (N.of_nat k) (N.of_nat b)) as (v & E & Hv & _); [rewrite <- pow_N_nat; lia|lia|rewrite <- pow_N_nat; lia|].
    rewrite E. exists (N.to_nat v). split; auto. lia.
Qed.

Lemma nsum_to_nat l : N.to_nat (nsum l) = list_sum (map N.to_nat l).
Proof. induction l; cbn [nsum map]; auto. change (list_sum (N.to_nat a :: map N.to_nat l)) with (N.to_nat a + list_sum (map N.to_nat l)). lia. Qed.

Lemma all_some_map {A B} (f : A -> option B) (d : B) l : (forall x, In x l -> f x <> None) ->
  exists r, all_some (map f l) = Some r /\ length r = length l /\ map f l = map Some r.
Proof.
  induction l as [|x l IH]; intros H.
  - exists []; auto.
  - destruct IH as (r & E & L & M). { intros; apply H; right; auto. }
    cbn. destruct (f x) as [y|] eqn:Ef. 2:{ exfalso. apply (H x); auto. left; auto. }
    rewrite E. exists (y :: r). cbn. repeat split; auto. congruence.
Qed.

Lemma final_ks_ok ub kp k : level_ok kp k -> (N.of_nat k < 2 ^ 31)%N ->
  exists fks, all_some (map (fun b => final_k ub b kp k) (seq 0 kp)) = Some fks /\
    length fks = kp /\ list_sum fks = k /\
    (forall b, b < kp -> final_k ub b kp k = Some (nth b fks 0) /\ 1 <= nth b fks 0).
Proof.
  intros Hlv Hk.
  destruct (all_some_map (fun b => final_k ub b kp k) 0 (seq 0 kp)) as (fks & E & L & M).
  { intros b Hb. apply in_seq in Hb. destruct (final_k_ok ub kp k b) as (f & Ef & _); auto; [lia|]. rewrite Ef; easy. }
  rewrite seq_length in L.
  assert (Hnth : forall b, b < kp -> final_k ub b kp k = Some (nth b fks 0)).
  { intros b Hb. assert (E1 := f_equal (fun l => nth b l None) M). cbn beta in E1.
    rewrite nth_map_seq in E1 by auto. cbn [Nat.add] in E1. rewrite E1.
    rewrite (nth_indep _ None (Some 0)) by (rewrite map_length; lia). apply map_nth. }
  exists fks. repeat split; auto.
  2:{ destruct (final_k_ok ub kp k b) as (f & Ef & Hf); auto. rewrite Hnth in Ef by auto. congruence. }
  destruct Hlv as (H1 & H2 & H3). destruct (Nat.eq_dec kp k) as [->|Hn].
  - assert (fks = repeat 1 k).
    { apply (list_ext 0); [now rewrite repeat_length|]. intros i Hi. rewrite L in Hi.
      assert (E2 := Hnth i Hi). unfold final_k in E2. rewrite final_k_top in E2. cbn [option_map] in E2. injection E2 as E2.
      rewrite (nth_indep (repeat 1 k) 0 1), nth_repeat by (now rewrite repeat_length). lia. }
    subst fks. clear. induction k; cbn [repeat]; auto.
    change (list_sum (1 :: repeat 1 k)) with (1 + list_sum (repeat 1 k)). lia.
  - destruct H3 as [[l ->]|]; [|easy].
    destruct (final_k_sum ub l (N.of_nat k)) as (fs & Ef & Es); [rewrite <- pow_N_nat; lia|lia|].
    assert (Ek : fks = map N.to_nat fs).
    { assert (Elen : length fs = 2 ^ l).
      { assert (E3 := f_equal (@length _) Ef). rewrite !map_length, seq_length in E3. auto. }
      apply (list_ext 0); [rewrite map_length; lia|]. intros i Hi. rewrite L in Hi.
      assert (E2 := Hnth i Hi). unfold final_k in E2. rewrite pow_N_nat in E2.
      assert (E4 := f_equal (fun x => nth i x None) Ef). cbn beta in E4.
      rewrite nth_map_seq in E4 by auto. cbn [Nat.add] in E4. rewrite E4 in E2.
      rewrite (nth_indep _ None (Some 0%N)) in E2 by (rewrite map_length; lia).
      rewrite map_nth in E2. cbn in E2.
      change 0 with (N.to_nat 0). rewrite map_nth. change (N.to_nat 0) with 0. congruence. }
    rewrite Ek, <- nsum_to_nat, Es. lia.
Qed.
