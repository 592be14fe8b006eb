(* Weight buckets of the distributed node balancer. *)
From Verif Require Import Lib.Prelude Model.WeightBucketsModel Spec.WeightBucketsSpec.
From Coq Require Import QArith Qround Lqa.
Open Scope nat_scope.

Lemma nth_firstn_lt {X} (d : X) : forall n l i, i < n -> nth i (firstn n l) d = nth i l d.
Proof. induction n as [|n IH]; intros [|x l] [|i] H; cbn; try lia; auto. apply IH. lia. Qed.
Lemma nth_skipn_add {X} (d : X) : forall n l i, nth i (skipn n l) d = nth (n + i) l d.
Proof. induction n as [|n IH]; intros [|x l] i; cbn; auto; destruct i; auto. Qed.
Lemma row_index nb b j b' j' : j < nb -> j' < nb -> b * nb + j = b' * nb + j' -> b = b' /\ j = j'.
Proof. intros H1 H2 E. assert (b = b') by nia. subst. lia. Qed.
Lemma cut_loop_spec lim : forall row j cw, exists m, cut_loop row j cw lim = j + m /\ m <= length row /\ (forall i, i < m -> (lim < cw - zsum (firstn i row))%Z) /\ (m < length row -> (cw - zsum (firstn m row) <= lim)%Z).
Proof.
  induction row as [|x row IH]; intros j cw; cbn [cut_loop]; [exists 0; split; [lia|split; [cbn; lia|split; [intros i Hi; lia|cbn; lia]]]|].
  destruct (Z.ltb_spec lim cw) as [L|L].
  - destruct (IH (S j) (cw - x)%Z) as (m & M1 & M2 & M3 & M4). exists (S m). split; [rewrite M1; lia|]. split; [cbn [length]; lia|]. split.
    + intros [|i] Hi; cbn [firstn zsum]; [lia|]. specialize (M3 i ltac:(lia)). lia.
    + cbn [length firstn zsum]. intros Hm. specialize (M4 ltac:(lia)). lia.
  - exists 0. split; [lia|]. split; [cbn; lia|]. split; [intros i Hi; lia|]. intros _. cbn. lia.
Qed.

Section Buckets.
Variables (k nb : nat) (bw mx : list Z).
Notation heavy := (heavy bw mx).
Definition in_bucket (es : list entry) (b j : nat) : Z := zsum (map (fun e => if (en_block e =? b) && (en_bucket e =? j) then en_weight e else 0%Z) es).
Lemma sizes_length es : length (bucket_sizes k nb es) = k * nb.
Proof.
  unfold bucket_sizes. assert (Q : forall l, length (fold_left (fun l e => let i := en_block e * nb + en_bucket e in upd i (nth i l 0 + en_weight e)%Z l) es l) = length l) by (induction es as [|e es IH]; intros l; [reflexivity|cbn [fold_left]; rewrite IH; apply upd_length]).
  rewrite Q. apply repeat_length.
Qed.
Lemma sizes_nth es b j : (forall e, In e es -> en_block e < k /\ en_bucket e < nb) -> b < k -> j < nb -> nth (b * nb + j) (bucket_sizes k nb es) 0%Z = in_bucket es b j.
Proof.
  intros G Hb Hj. unfold bucket_sizes.
  assert (Q : forall l, length l = k * nb -> nth (b * nb + j) (fold_left (fun l e => let i := en_block e * nb + en_bucket e in upd i (nth i l 0 + en_weight e)%Z l) es l) 0%Z = (nth (b * nb + j) l 0 + in_bucket es b j)%Z).
  { induction es as [|e es IH]; intros l L; [cbn; lia|]. unfold in_bucket. cbn [fold_left map zsum]. fold (in_bucket es b j). rewrite IH; [|intros x Hx; apply G; right; exact Hx|rewrite upd_length; exact L]. destruct (G e (or_introl eq_refl)) as [G1 G2].
    set (i := en_block e * nb + en_bucket e). destruct (Nat.eq_dec i (b * nb + j)) as [E|N].
    - destruct (row_index nb _ _ _ _ G2 Hj E) as [-> ->]. rewrite !Nat.eqb_refl. rewrite <- E. fold i in E |- *. rewrite upd_nth_same by (rewrite L, E; nia). cbn [andb]. lia.
    - rewrite upd_nth_other by exact N. destruct (Nat.eqb_spec (en_block e) b) as [E1|E1]; cbn [andb]; [|lia]. destruct (Nat.eqb_spec (en_bucket e) j) as [E2|E2]; [exfalso; apply N; unfold i; rewrite E1, E2; reflexivity|lia]. }
  rewrite Q by apply repeat_length. rewrite nth_repeat. lia.
Qed.
(** The number of overloaded blocks before [b]. *)
Definition rank_of (b : nat) : nat := length (filter heavy (seq 0 b)).
Lemma seq_at b : b < k -> seq 0 k = seq 0 b ++ b :: seq (S b) (k - S b).
Proof. intros H. replace k with (b + S (k - S b)) at 1 by lia. rewrite seq_app. reflexivity. Qed.
Lemma rank_lt b : b < k -> heavy b = true -> rank_of b < num_heavy k bw mx.
Proof. intros Hb H. unfold num_heavy, rank_of. rewrite (seq_at b Hb), filter_app, app_length. cbn [filter]. rewrite H. cbn [length]. lia. Qed.
Lemma compactify_nth sizes b j : length sizes = k * nb -> b < k -> heavy b = true -> j < nb -> nth (rank_of b * nb + j) (compactify k nb bw mx sizes) 0%Z = nth (b * nb + j) sizes 0%Z.
Proof.
  intros L Hb H Hj. unfold compactify. rewrite (seq_at b Hb), flat_map_app.
  assert (RL : forall x, x < k -> length (firstn nb (skipn (x * nb) sizes)) = nb) by (intros x Hx; rewrite firstn_length, skipn_length, L; nia).
  assert (Q : forall l, (forall x, In x l -> x < k) -> length (flat_map (fun b => if heavy b then firstn nb (skipn (b * nb) sizes) else []) l) = length (filter heavy l) * nb).
  { induction l as [|x l IH]; intros Hl; [reflexivity|]. cbn [flat_map filter]. rewrite app_length, IH by (intros y Hy; apply Hl; right; exact Hy). destruct (heavy x); [rewrite RL by (apply Hl; left; reflexivity); cbn [length]; lia|reflexivity]. }
  rewrite app_nth2 by (rewrite Q by (intros x Hx; apply in_seq in Hx; lia); unfold rank_of; lia). rewrite Q by (intros x Hx; apply in_seq in Hx; lia). fold (rank_of b). replace (rank_of b * nb + j - rank_of b * nb) with j by lia.
  cbn [flat_map]. rewrite H. rewrite app_nth1 by (rewrite RL by exact Hb; exact Hj). rewrite nth_firstn_lt by exact Hj. apply nth_skipn_add.
Qed.
Lemma cuts_nth comp b : b < k -> heavy b = true -> nth (rank_of b) (compact_cutoffs nb bw mx comp (seq 0 k) 0) 0 = cut_loop (firstn nb (skipn (rank_of b * nb) comp)) 0 (nth b bw 0%Z) (nth b mx 0%Z).
Proof.
  intros Hb H. rewrite (seq_at b Hb). unfold rank_of.
  assert (Q : forall l cb, nth (length (filter heavy l)) (compact_cutoffs nb bw mx comp (l ++ b :: seq (S b) (k - S b)) cb) 0 = cut_loop (firstn nb (skipn ((cb + length (filter heavy l)) * nb) comp)) 0 (nth b bw 0%Z) (nth b mx 0%Z)).
  { induction l as [|x l IH]; intros cb; cbn [app compact_cutoffs filter]; [rewrite H; cbn [length nth]; rewrite Nat.add_0_r; reflexivity|].
    destruct (heavy x); [cbn [length nth]; rewrite IH; rewrite <- plus_n_Sm; reflexivity|apply IH]. }
  apply (Q (seq 0 b) 0).
Qed.
Lemma spread_nth cuts b : b < k -> nth b (spread bw mx cuts (seq 0 k) 0) 0 = if heavy b then nth (rank_of b) cuts 0 else 0.
Proof.
  intros Hb. rewrite (seq_at b Hb). unfold rank_of.
  assert (Q : forall l cb, nth (length l) (spread bw mx cuts (l ++ b :: seq (S b) (k - S b)) cb) 0 = if heavy b then nth (cb + length (filter heavy l)) cuts 0 else 0).
  { induction l as [|x l IH]; intros cb; cbn [app spread filter length]; [destruct (heavy b); cbn [nth length]; rewrite ?Nat.add_0_r; reflexivity|].
    destruct (heavy x); cbn [nth length]; rewrite IH; [rewrite <- plus_n_Sm|]; reflexivity. }
  specialize (Q (seq 0 b) 0). rewrite seq_length in Q. exact Q.
Qed.
Lemma below_succ ranks b j : weight_below ranks b (S j) = (weight_below ranks b j + zsum (map (fun es => in_bucket es b j) ranks))%Z.
Proof.
  unfold weight_below, in_bucket. rewrite <- zsum_map_add. apply zsum_map_ext. intros es _. rewrite <- zsum_map_add. apply zsum_map_ext. intros e _.
  destruct (en_block e =? b); cbn [andb]; [|lia]. destruct (Nat.ltb_spec (en_bucket e) (S j)), (Nat.ltb_spec (en_bucket e) j), (Nat.eqb_spec (en_bucket e) j); lia.
Qed.
Lemma below_0 ranks b : weight_below ranks b 0 = 0%Z.
Proof. unfold weight_below. rewrite (zsum_map_ext _ (fun _ => 0%Z)); [apply zsum_map_0|]. intros es _. rewrite (zsum_map_ext _ (fun _ => 0%Z)); [apply zsum_map_0|]. intros e _. rewrite andb_false_r. reflexivity. Qed.

Theorem cutoff_spec ranks b : good_entries k nb ranks -> b < k -> let cut := nth b (cutoff_buckets k nb bw mx ranks) 0 in let left j := (nth b bw 0 - weight_below ranks b j)%Z in
  ((nth b bw 0 <= nth b mx 0)%Z -> cut = 0) /\ cut <= nb /\ (forall j, j < cut -> (nth b mx 0 < left j)%Z) /\ (cut < nb -> (left cut <= nth b mx 0)%Z).
Proof.
  intros G Hb cut left. unfold cut, cutoff_buckets. cbv zeta. set (comp := reduce k nb bw mx (map (fun es => compactify k nb bw mx (bucket_sizes k nb es)) ranks)). rewrite spread_nth by exact Hb.
  destruct (heavy b) eqn:H.
  - rewrite cuts_nth by assumption. unfold WeightBucketsModel.heavy in H. apply Z.ltb_lt in H. split; [lia|]. assert (H' : heavy b = true) by (apply Z.ltb_lt; exact H).
    assert (CN : forall j, j < nb -> nth (rank_of b * nb + j) comp 0%Z = zsum (map (fun es => in_bucket es b j) ranks)).
    { intros j Hj. unfold comp, reduce. pose proof (rank_lt b Hb H'). rewrite nth_map_seq by nia. cbn [Nat.add]. rewrite map_map. apply zsum_map_ext. intros es Hes. rewrite compactify_nth by (try assumption; apply sizes_length). apply sizes_nth; [intros e He; exact (G es e Hes He)|exact Hb|exact Hj]. }
    set (row := firstn nb (skipn (rank_of b * nb) comp)). assert (RL : length row = nb).
    { unfold row. rewrite firstn_length, skipn_length. unfold comp, reduce. rewrite map_length, seq_length. pose proof (rank_lt b Hb H'). nia. }
    assert (RS : forall i, i <= nb -> zsum (firstn i row) = weight_below ranks b i).
    { induction i as [|i IH]; intros Hi; [rewrite below_0; reflexivity|]. rewrite below_succ, <- IH by lia. rewrite <- (CN i ltac:(lia)). rewrite <- nth_skipn_add, <- (nth_firstn_lt 0%Z nb) by lia. fold row.
      assert (S : forall (l : list Z) n, n < length l -> zsum (firstn (S n) l) = (zsum (firstn n l) + nth n l 0)%Z) by (induction l as [|x l IHl]; intros [|n] Hn; cbn [length] in Hn; try lia; [cbn; lia|]; change (firstn (Datatypes.S (Datatypes.S n)) (x :: l)) with (x :: firstn (Datatypes.S n) l); change (firstn (Datatypes.S n) (x :: l)) with (x :: firstn n l); cbn [zsum nth]; rewrite IHl by lia; lia).
      apply S. lia. }
    destruct (cut_loop_spec (nth b mx 0%Z) row 0 (nth b bw 0%Z)) as (m & M1 & M2 & M3 & M4). rewrite M1. cbn [Nat.add]. rewrite RL in M2, M4. split; [exact M2|]. unfold left. split; [intros j Hj; rewrite <- RS by lia; exact (M3 j Hj)|intros Hm; rewrite <- RS by lia; exact (M4 Hm)].
  - split; [reflexivity|]. split; [lia|]. split; [intros j Hj; lia|]. intros _. unfold left. rewrite below_0. unfold WeightBucketsModel.heavy in H. apply Z.ltb_ge in H. lia.
Qed.
Theorem cutoff_suffices ranks b : good_entries k nb ranks -> b < k -> (nth b bw 0 - weight_below ranks b nb <= nth b mx 0)%Z -> (nth b bw 0 - weight_below ranks b (nth b (cutoff_buckets k nb bw mx ranks) 0%nat) <= nth b mx 0)%Z.
Proof.
  intros G Hb H. destruct (cutoff_spec ranks b G Hb) as (_ & L & _ & C). destruct (Nat.eq_dec (nth b (cutoff_buckets k nb bw mx ranks) 0) nb) as [->|N]; [exact H|]. apply C. lia.
Qed.
End Buckets.

(** ** Clusters *)
Lemma soft_between bw mx f b : (0 < f)%Q -> (f <= 1)%Q -> let l := soft_limit bw mx f b in
  ((nth b mx 0 < nth b bw 0)%Z -> (nth b mx 0 <= l < nth b bw 0)%Z) /\ ((nth b bw 0 <= nth b mx 0)%Z -> (nth b bw 0 <= l)%Z).
Proof.
  intros F0 F1 l. unfold l, soft_limit. set (m := nth b mx 0%Z). set (w := nth b bw 0%Z). set (x := (inject_Z m + (1 - f) * inject_Z (w - m))%Q).
  assert (D : (inject_Z w == inject_Z m + inject_Z (w - m))%Q) by (rewrite <- inject_Z_plus; f_equiv; lia).
  assert (X : (x == inject_Z w - f * inject_Z (w - m))%Q) by (unfold x; rewrite D; ring).
  split; intros H.
  - assert (P : (0 < inject_Z (w - m))%Q) by (change 0%Q with (inject_Z 0); rewrite <- Zlt_Qlt; lia). split.
    + assert (Q : (inject_Z m <= x)%Q) by (rewrite X, D; nra). apply Qfloor_resp_le in Q. rewrite Qfloor_Z in Q. exact Q.
    + rewrite Zlt_Qlt. apply Qle_lt_trans with x; [apply Qfloor_le|]. rewrite X. nra.
  - assert (P : (inject_Z (w - m) <= 0)%Q) by (change 0%Q with (inject_Z 0); rewrite <- Zle_Qle; lia).
    assert (Q : (inject_Z w <= x)%Q) by (rewrite X; nra). apply Qfloor_resp_le in Q. rewrite Qfloor_Z in Q. exact Q.
Qed.
Theorem cluster_spec k nb bw mx f ranks b : (0 < f)%Q -> (f <= 1)%Q -> good_entries k nb ranks -> b < k -> let cut := nth b (cluster_cutoffs k nb bw mx f ranks) 0 in let left j := (nth b bw 0 - weight_below ranks b j)%Z in
  let lim := soft_limit bw mx f b in ((nth b bw 0 <= nth b mx 0)%Z -> cut = 0) /\ cut <= nb /\ (forall j, j < cut -> (lim < left j)%Z) /\ (cut < nb -> (left cut <= lim)%Z).
Proof.
  intros F0 F1 G Hb. set (lims := map (soft_limit bw mx f) (seq 0 k)). assert (LN : forall x, x < k -> nth x lims 0%Z = soft_limit bw mx f x) by (intros x Hx; unfold lims; rewrite nth_map_seq by exact Hx; reflexivity).
  assert (HE : forall x, x < k -> heavy bw mx x = heavy bw lims x).
  { intros x Hx. unfold heavy. rewrite LN by exact Hx. destruct (soft_between bw mx f x F0 F1) as [S1 S2]. destruct (Z.ltb_spec (nth x mx 0%Z) (nth x bw 0%Z)) as [A|A]; symmetry; [apply Z.ltb_lt; apply S1; exact A|apply Z.ltb_ge; apply S2; exact A]. }
  assert (CE : cluster_cutoffs k nb bw mx f ranks = cutoff_buckets k nb bw lims ranks).
  { unfold cluster_cutoffs, cutoff_buckets. cbv zeta. fold lims. do 2 f_equal. unfold reduce, num_heavy. rewrite (filter_ext_in (heavy bw mx) (heavy bw lims)) by (intros x Hx; apply in_seq in Hx; apply HE; lia). apply map_ext. intros i. do 1 f_equal. rewrite !map_map. apply map_ext. intros es. f_equal.
    unfold compactify. rewrite !flat_map_concat_map. f_equal. apply map_ext_in. intros x Hx. apply in_seq in Hx. rewrite HE by lia. reflexivity. }
  rewrite CE. pose proof (cutoff_spec k nb bw lims ranks b G Hb) as S. cbv zeta in S |- *. rewrite LN in S by exact Hb. destruct S as (S1 & S2). split; [|exact S2]. intros H. apply S1. apply (soft_between bw mx f b F0 F1). exact H.
Qed.

Lemma floor_unique x z : (inject_Z z <= x)%Q -> (x < inject_Z (z + 1))%Q -> Qfloor x = z.
Proof.
  intros A B. apply Qfloor_resp_le in A. rewrite Qfloor_Z in A. pose proof (Qle_lt_trans _ _ _ (Qfloor_le x) B) as C. rewrite <- Zlt_Qlt in C. lia.
Qed.
Theorem cluster_cuts k nb bw mx f ranks b lim : (0 < f)%Q -> (f <= 1)%Q -> good_entries k nb ranks -> b < k -> soft_limit_of bw mx f b lim ->
  let cut := nth b (cluster_cutoffs k nb bw mx f ranks) 0 in let left j := (nth b bw 0 - weight_below ranks b j)%Z in
  ((nth b bw 0 <= nth b mx 0)%Z -> cut = 0) /\ cut <= nb /\ (forall j, j < cut -> (lim < left j)%Z) /\ (cut < nb -> (left cut <= lim)%Z).
Proof. intros F0 F1 G Hb (L1 & L2). pose proof (cluster_spec k nb bw mx f ranks b F0 F1 G Hb) as S. cbv zeta in S. unfold soft_limit in S. rewrite (floor_unique _ _ L1 L2) in S. exact S. Qed.

(** Three blocks, four buckets, two ranks; blocks 0 and 2 are overloaded by 3 and 2. *)
Definition w_ranks := [[Entry 0 2 1; Entry 0 5 3; Entry 2 1 0; Entry 1 9 0]; [Entry 0 1 2; Entry 2 1 2; Entry 2 4 3]]%Z.
Lemma w_good : good_entries 3 4 w_ranks.
Proof. intros es e H He. cbn in H. destruct H as [<-|[<-|[]]]; cbn in He; repeat (destruct He as [<-|He]; [cbn; lia|]); contradiction. Qed.
Lemma w_soft : soft_limit_of [10; 4; 9]%Z [7; 7; 7]%Z (1 # 2) 0 8 /\ cluster_cutoffs 3 4 [10; 4; 9]%Z [7; 7; 7]%Z (1 # 2) w_ranks = [2; 0; 1] /\
  cluster_cutoffs 3 4 [10; 4; 9]%Z [7; 7; 7]%Z 1 w_ranks = [3; 0; 3].
Proof. split; [split; [discriminate|reflexivity]|]. split; reflexivity. Qed.
