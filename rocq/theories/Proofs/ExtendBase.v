(* Lemmas for the recursive bipartitioning of block-induced subgraphs. *)
From Verif Require Import Lib.Prelude Lib.Slice Spec.Induced Spec.ExtendSpec Spec.Level Model.MathModel Model.PartUtilsModel Model.CsrModel Model.SubgraphModel Model.ExtendModel
  Proofs.PartUtilsProofs Proofs.SubgraphBase Proofs.SubgraphFill Proofs.FinalK Proofs.SubgraphPar Proofs.SubgraphSeq.

(** ** Arithmetic *)
Lemma split_nat_eq v : split_nat v = ((v + 1) / 2, v / 2).
Proof.
  unfold split_nat, split_integral. f_equal.
  - rewrite N2Nat.inj_div, N2Nat.inj_add, Nat2N.id. reflexivity.
  - rewrite N2Nat.inj_div, Nat2N.id. reflexivity.
Qed.
Lemma next_k_eq a k : next_k a k = Nat.min (a * 2) k.
Proof. unfold next_k, compute_next_k. rewrite N2Nat.inj_min, N2Nat.inj_mul, !Nat2N.id. reflexivity. Qed.
Lemma half_up v : 2 * ((v + 1) / 2) <= v + 1 < 2 * ((v + 1) / 2) + 2.
Proof. assert (H := Nat.div_mod (v + 1) 2 ltac:(lia)). assert (H1 := Nat.mod_upper_bound (v + 1) 2 ltac:(lia)). lia. Qed.
Lemma half_dn v : 2 * (v / 2) <= v < 2 * (v / 2) + 2.
Proof. assert (H := Nat.div_mod v 2 ltac:(lia)). assert (H1 := Nat.mod_upper_bound v 2 ltac:(lia)). lia. Qed.
Lemma half_sum v : (v + 1) / 2 + v / 2 = v.
Proof. assert (A := half_up v). assert (B := half_dn v). lia. Qed.

Lemma final_k_split ub l k b : 2 ^ S l <= k -> (N.of_nat k < 2 ^ 31)%N -> b < 2 ^ l ->
  exists v, final_k ub b (2 ^ l) k = Some v /\
    final_k ub (2 * b) (2 ^ S l) k = Some ((v + 1) / 2) /\ final_k ub (2 * b + 1) (2 ^ S l) k = Some (v / 2).
Proof.
  intros H1 H2 H3. destruct (final_k_children ub l (N.of_nat k) (N.of_nat b)) as (v & E1 & E2 & E3).
  { rewrite N.add_1_r, <- Nat2N.inj_succ, <- pow_N_nat. lia. } { exact H2. } { rewrite <- pow_N_nat. lia. }
  exists (N.to_nat v). unfold final_k. rewrite !pow_N_nat, E1, Nat2N.inj_succ, <- N.add_1_r.
  replace (N.of_nat (2 * b)) with (2 * N.of_nat b)%N by lia.
  replace (N.of_nat (2 * b + 1)) with (2 * N.of_nat b + 1)%N by lia. rewrite E2, E3.
  assert (Es := split_nat_eq (N.to_nat v)). unfold split_nat in Es. rewrite N2Nat.id in Es.
  destruct (split_integral v) as [x y]. cbn [fst snd option_map]. injection Es as -> ->. auto.
Qed.

Lemma final_k_bounds ub l k b f : 2 ^ l <= k -> (N.of_nat k < 2 ^ 31)%N -> b < 2 ^ l -> final_k ub b (2 ^ l) k = Some f ->
  k / 2 ^ l <= f <= k / 2 ^ l + 1 /\ 1 <= f.
Proof.
  intros H1 H2 H3 E. destruct (final_k_balanced ub l (N.of_nat k) (N.of_nat b)) as (v & Ev & Hv & Hb).
  { rewrite <- pow_N_nat. lia. } { exact H2. } { rewrite <- pow_N_nat. lia. }
  unfold final_k in E. rewrite pow_N_nat, Ev in E. cbn [option_map] in E. injection E as <-.
  rewrite <- pow_N_nat, <- Nat2N.inj_div in Hb. lia.
Qed.

(** Position in the bipartitioning tree: block [abs] of level [l] has [F] final blocks and is split
    into [num] blocks. *)
Definition tree_pos (ub : N) (l k abs num F : nat) : Prop :=
  2 ^ l <= k /\ (N.of_nat k < 2 ^ 31)%N /\ abs < 2 ^ l /\ final_k ub abs (2 ^ l) k = Some F /\
  (num = F \/ exists j, num = 2 ^ j /\ 2 ^ (l + j) <= k).

Lemma pow2_pos l : 1 <= 2 ^ l.
Proof. assert (2 ^ l <> 0) by (apply Nat.pow_nonzero; lia). lia. Qed.

Lemma tree_pos_le ub l k abs num F : tree_pos ub l k abs num F -> num <= F.
Proof.
  intros (H1 & H2 & H3 & H4 & [->|(j & -> & Hj)]); auto.
  destruct (final_k_bounds ub l k abs F H1 H2 H3 H4) as [[Hb _] _].
  rewrite Nat.pow_add_r in Hj. assert (2 ^ j <= k / 2 ^ l); [|lia].
  apply Nat.div_le_lower_bound; [apply Nat.pow_nonzero; lia|auto].
Qed.

Lemma tree_pos_children ub l k abs num F : tree_pos ub l k abs num F -> 2 < num ->
  2 * 2 ^ l < k /\ tree_pos ub (S l) k (2 * abs) ((num + 1) / 2) ((F + 1) / 2) /\
  tree_pos ub (S l) k (2 * abs + 1) (num / 2) (F / 2).
Proof.
  intros T Hn. assert (HF := tree_pos_le _ _ _ _ _ _ T). destruct T as (H1 & H2 & H3 & H4 & H5).
  assert (P : 2 ^ S l = 2 * 2 ^ l) by apply Nat.pow_succ_r'.
  destruct (final_k_bounds ub l k abs F H1 H2 H3 H4) as [[_ Hb] _].
  assert (Hk : 2 * 2 ^ l <= k).
  { assert (Hd := Nat.mul_div_le k (2 ^ l) ltac:(apply Nat.pow_nonzero; lia)).
    assert (2 <= k / 2 ^ l) by lia. assert (2 ^ l * 2 <= 2 ^ l * (k / 2 ^ l)) by (apply Nat.mul_le_mono_l; auto). lia. }
  destruct (final_k_split ub l k abs) as (v & E1 & E2 & E3); [lia|auto|auto|].
  assert (v = F) by congruence. subst v.
  assert (Hlt : 2 * 2 ^ l < k).
  { destruct (Nat.eq_dec (2 * 2 ^ l) k) as [E|]; [exfalso|lia].
    rewrite P, E in E2. unfold final_k in E2. rewrite final_k_top in E2. change (Some 1 = Some ((F + 1) / 2)) in E2.
    assert (E4 : (F + 1) / 2 = 1) by congruence. assert (A := half_up F). rewrite E4 in A. lia. }
  assert (P1 : 2 ^ S l <= k) by lia. assert (P2 : 2 * abs < 2 ^ S l) by lia. assert (P3 : 2 * abs + 1 < 2 ^ S l) by lia.
  split; [exact Hlt|]. split.
  - split; [exact P1|]. split; [exact H2|]. split; [exact P2|]. split; [exact E2|].
    destruct H5 as [->|(j & -> & Hj)]; [now left|]. right. destruct j as [|j]; [cbn in Hn; lia|].
    exists j. split.
    + rewrite Nat.pow_succ_r'. assert (A := half_up (2 * 2 ^ j)). lia.
    + replace (S l + j) with (l + S j) by lia. auto.
  - split; [exact P1|]. split; [exact H2|]. split; [exact P3|]. split; [exact E3|].
    destruct H5 as [->|(j & -> & Hj)]; [now left|]. right. destruct j as [|j]; [cbn in Hn; lia|].
    exists j. split.
    + rewrite Nat.pow_succ_r'. assert (A := half_dn (2 * 2 ^ j)). lia.
    + replace (S l + j) with (l + S j) by lia. auto.
Qed.

Lemma abs_children_ok l k abs : 2 ^ l <= k -> (N.of_nat k < 2 ^ 31)%N -> abs < 2 ^ l ->
  exists a0 a1, abs_children abs (2 ^ l) k = Some (a0, a1) /\ (2 * 2 ^ l < k -> a0 = 2 * abs /\ a1 = 2 * abs + 1).
Proof.
  intros H1 H2 H3. unfold abs_children. destruct (Nat.leb_spec k (2 * 2 ^ l)).
  - rewrite pow_N_nat. destruct (sub_blocks_tile 0%N l (N.of_nat k)) as (_ & H4).
    { rewrite <- pow_N_nat. lia. } { exact H2. }
    destruct (H4 (N.of_nat abs)) as (lo & hi & fk & E & _). { rewrite <- pow_N_nat. lia. }
    rewrite E. do 2 eexists. split; [reflexivity|]. lia.
  - do 2 eexists. split; [reflexivity|]. auto.
Qed.

(** ** Induced subgraphs *)
Lemma induced_in ns g w adj : In (w, adj) (induced ns g) ->
  exists u, In u ns /\ w = lg_weight g u /\
    adj = map (fun e => (index_of (fst e) ns, snd e)) (filter (fun e => memb (fst e) ns) (lg_adj g u)).
Proof. unfold induced. intros H. apply in_map_iff in H. destruct H as (u & E & Hu). exists u. injection E as <- <-. auto. Qed.

Lemma induced_ok ns g : lg_ok g -> (forall u, In u ns -> u < length g) -> lg_ok (induced ns g).
Proof.
  intros Hok Hns w adj H. apply induced_in in H. destruct H as (u & Hu & -> & ->).
  split; [apply lg_ok_weight; auto|].
  intros v x Hv. apply in_map_iff in Hv. destruct Hv as ((v0, x0) & E & Hv). cbn [fst snd] in E. injection E as <- <-.
  apply filter_In in Hv. destruct Hv as [Hv Hm]. cbn [fst] in Hm. apply memb_iff in Hm.
  rewrite induced_length. split; [apply index_of_in; auto|].
  exact (proj2 (lg_ok_adj g u v0 x0 Hok (Hns u Hu) Hv)).
Qed.

Lemma induced_nw ns g : lg_ok g -> (forall u, In u ns -> u < length g) -> lg_is_nw (induced ns g) = true -> lg_is_nw g = true.
Proof.
  intros Hok Hns H. destruct (lg_is_nw g) eqn:E; auto. exfalso. unfold lg_is_nw in H.
  assert (A : map fst (induced ns g) = repeat 1%Z (length ns)).
  { apply (list_ext 0%Z); [rewrite map_length, induced_length, repeat_length; auto|].
    intros i Hi. rewrite map_length, induced_length in Hi. rewrite (nth_indep (repeat 1%Z _) 0%Z 1%Z), nth_repeat by (now rewrite repeat_length).
    unfold induced. rewrite map_map. cbn [fst]. rewrite (nth_indep _ 0%Z (lg_weight g 0)) by (now rewrite map_length).
    rewrite map_nth. apply lg_nw_false; auto. apply Hns, nth_In; auto. }
  rewrite A, zsum_repeat1, induced_length, Z.eqb_refl in H. discriminate.
Qed.

Lemma zsum_ones l : (forall x, In x l -> x = 1%Z) -> zsum l = Z.of_nat (length l).
Proof. induction l as [|x l IH]; intros H; auto. cbn [zsum length]. rewrite IH by (intros; apply H; right; auto). rewrite (H x) by (left; auto). lia. Qed.

Lemma induced_ew ns g : lg_ok g -> (forall u, In u ns -> u < length g) -> lg_is_ew (induced ns g) = true -> lg_is_ew g = true.
Proof.
  intros Hok Hns H. destruct (lg_is_ew g) eqn:E; auto. exfalso. unfold lg_is_ew in H.
  rewrite zsum_ones in H. 1: rewrite map_length, <- lg_m_concat, Z.eqb_refl in H; discriminate.
  intros x Hx. apply in_map_iff in Hx. destruct Hx as ((v, x') & <- & Hx). cbn [snd].
  apply in_concat in Hx. destruct Hx as (adj & Ha & Hx). apply in_map_iff in Ha. destruct Ha as ((w, adj') & E' & Ha).
  cbn [snd] in E'. subst adj'. apply induced_in in Ha. destruct Ha as (u & Hu & -> & ->).
  apply in_map_iff in Hx. destruct Hx as ((v0, x0) & E' & Hx). cbn [fst snd] in E'. injection E' as <- <-.
  apply filter_In in Hx. exact (lg_ew_false g u v0 x0 Hok E (Hns u Hu) (proj1 Hx)).
Qed.

(** ** Views and frames *)
Lemma read_view_frame p nn q mm a b v : frame p nn q mm a b ->
  v_ns v + v_n v + 1 <= p \/ p + nn <= v_ns v -> v_es v + v_m v <= q \/ q + mm <= v_es v ->
  read_view b v = read_view a v.
Proof.
  intros Fr H1 H2. unfold read_view.
  destruct (frame_slice_nodes _ _ _ _ _ _ (v_ns v) (v_n v + 1) Fr) as [E1 _]; [lia|].
  destruct (frame_slice_nodes _ _ _ _ _ _ (v_ns v) (v_n v) Fr) as [_ E2]; [lia|].
  destruct (frame_slice_edges _ _ _ _ _ _ (v_es v) (v_m v) Fr) as [E3 E4]; [lia|].
  destruct Fr as ((Z1 & Z2 & Z3 & Z4) & _). rewrite E1, E2, E3, E4, <- Z1, <- Z2, <- Z3, <- Z4. auto.
Qed.

Lemma frame_refl p nn q mm a : frame p nn q mm a a.
Proof. repeat split. Qed.
Lemma frame_trans p nn q mm a b c : frame p nn q mm a b -> frame p nn q mm b c -> frame p nn q mm a c.
Proof.
  intros ((A1 & A2 & A3 & A4) & A5 & A6) ((B1 & B2 & B3 & B4) & B5 & B6). split; [unfold same_sizes; repeat split; congruence|].
  split; intros j Hj.
  - destruct (A5 j Hj), (B5 j Hj). split; congruence.
  - destruct (A6 j Hj), (B6 j Hj). split; congruence.
Qed.
Lemma frame_weaken p nn q mm p' nn' q' mm' a b : frame p nn q mm a b -> p' <= p -> p + nn <= p' + nn' -> q' <= q -> q + mm <= q' + mm' ->
  frame p' nn' q' mm' a b.
Proof. intros (A & B & C) H1 H2 H3 H4. split; auto. split; intros j Hj; [apply B|apply C]; lia. Qed.
Lemma fits_sizes nwf ewf p nn q mm a b : same_sizes a b -> fits nwf ewf p nn q mm a -> fits nwf ewf p nn q mm b.
Proof. intros (Z1 & Z2 & Z3 & Z4) F. unfold fits. rewrite <- Z1, <- Z2, <- Z3, <- Z4. exact F. Qed.
Lemma fits_sub nwf ewf nwf' ewf' p nn q mm p' nn' q' mm' a : fits nwf ewf p nn q mm a ->
  (nwf' = true -> nwf = true) -> (ewf' = true -> ewf = true) -> p' + nn' <= p + nn -> q' + mm' <= q + mm -> fits nwf' ewf' p' nn' q' mm' a.
Proof. intros (F1 & F2 & F3 & F4) H1 H2 H3 H4. unfold fits; repeat split; try lia; intros Hx; try specialize (F3 (H1 Hx)); try specialize (F4 (H2 Hx)); lia. Qed.

(** ** Labels *)
(** Replace the entries equal to [r], in order, by r + (the next label of L). *)
Fixpoint relabel (part : list nat) (r : nat) (L : list nat) : list nat :=
  match part with
  | [] => []
  | x :: t => if x =? r then (r + hd 0 L) :: relabel t r (tl L) else x :: relabel t r L
  end.

Definition cnt (r : nat) (l : list nat) : nat := length (filter (Nat.eqb r) l).
Lemma cnt_cons r x l : cnt r (x :: l) = (if x =? r then 1 else 0) + cnt r l.
Proof. unfold cnt. cbn [filter]. rewrite (Nat.eqb_sym r x). destruct (x =? r); auto. Qed.

Lemma relabel_length L : forall part r, length (relabel part r L) = length part.
Proof. intros part; revert L. induction part; intros L r; cbn [relabel]; auto. destruct (a =? r); cbn [length]; rewrite IHpart; auto. Qed.
Lemma relabel_zeros part r n : relabel part r (repeat 0 n) = part.
Proof.
  revert n. induction part as [|x t IH]; intros n; cbn [relabel]; auto.
  destruct (Nat.eqb_spec x r) as [->|]; [|now rewrite IH].
  destruct n; cbn [repeat hd tl]; rewrite Nat.add_0_r; [|now rewrite IH].
  f_equal. apply (IH 0).
Qed.

Lemma relabel_zero_list t n L r : relabel (repeat r n) r L = map (fun i => r + nth i L t) (seq 0 n) \/ n > length L.
Proof.
  revert L. induction n as [|n IH]; intros L; [left; auto|].
  destruct L as [|x L]; [right; cbn; lia|]. cbn [repeat relabel]. rewrite Nat.eqb_refl. cbn [hd tl].
  destruct (IH L) as [E|E]; [left|right; cbn; lia]. rewrite E. cbn [seq map nth]. f_equal.
  rewrite <- seq_shift, map_map. auto.
Qed.

Lemma copy_labels_ok r k0 : forall part side, cnt r part = length side ->
  copy_labels part r r (r + k0) side = Some (relabel part r (map (fun s => if s =? 0 then 0 else k0) side)).
Proof.
  induction part as [|x t IH]; intros side H; cbn [copy_labels relabel]; auto. rewrite cnt_cons in H.
  destruct (x =? r).
  - destruct side as [|s side]; [cbn in H; lia|]. cbn [length] in H. rewrite IH by lia. cbn [option_map map hd tl].
    destruct (s =? 0); [rewrite Nat.add_0_r|]; auto.
  - rewrite IH by lia. auto.
Qed.

Definition cut (side : list nat) (k0 : nat) : list nat := map (fun s => if s =? 0 then 0 else k0) side.

(** Two-step relabelling is relabelling with the merged labels. *)
Lemma relabel_merge r k0 k1 : 1 <= k0 -> forall part side L0 L1,
  cnt r part = length side -> (forall s, In s side -> s < 2) ->
  cnt 0 side <= length L0 -> cnt 1 side <= length L1 ->
  (forall x, In x L0 -> x < k0) ->
  (forall x, In x part -> x <= r \/ r + k0 + k1 <= x) -> 1 <= k1 ->
  relabel (relabel (relabel part r (cut side k0)) r L0) (r + k0) L1 =
  relabel part r (merge_labels side L0 (map (Nat.add k0) L1)).
Proof.
  intros Hk0. induction part as [|x t IH]; intros side L0 L1 Hc Hs H0 H1 HL0 Hp Hk1; auto.
  rewrite cnt_cons in Hc. assert (Hx := Hp x (or_introl eq_refl)).
  assert (Ht : forall y, In y t -> y <= r \/ r + k0 + k1 <= y) by (intros; apply Hp; right; auto).
  cbn [relabel]. destruct (Nat.eqb_spec x r) as [->|Hxr].
  - destruct side as [|s side]; [cbn in Hc; lia|]. cbn [length] in Hc.
    assert (Hs2 : s < 2) by (apply Hs; left; auto). rewrite cnt_cons in H0, H1.
    assert (Hs' : forall y, In y side -> y < 2) by (intros; apply Hs; right; auto).
    unfold cut in *. cbn [map hd tl merge_labels]. destruct (Nat.eqb_spec s 0) as [->|Hs0].
    + rewrite Nat.add_0_r. cbn [relabel]. rewrite Nat.eqb_refl. cbn [Nat.eqb] in H0, H1.
      destruct L0 as [|y L0]; [cbn in H0; lia|]. cbn [hd tl length] in *.
      assert (y < k0) by (apply HL0; left; auto). cbn [relabel]. destruct (Nat.eqb_spec (r + y) (r + k0)); [lia|].
      f_equal. apply IH; auto; try lia. intros; apply HL0; right; auto.
    + assert (s = 1) by lia. subst s. cbn [Nat.eqb] in H0, H1. cbn [relabel].
      destruct (Nat.eqb_spec (r + k0) r); [lia|]. cbn [relabel]. rewrite Nat.eqb_refl.
      destruct L1 as [|y L1]; [cbn in H1; lia|]. cbn [map hd tl length] in *.
      f_equal; [lia|]. apply IH; auto; lia.
  - cbn [relabel]. destruct (Nat.eqb_spec x r); [lia|]. cbn [relabel]. destruct (Nat.eqb_spec x (r + k0)); [lia|].
    f_equal. apply IH; auto.
Qed.

Lemma cnt_relabel_cut0 r k0 : 1 <= k0 -> forall part side, cnt r part = length side -> (forall s, In s side -> s < 2) ->
  cnt r (relabel part r (cut side k0)) = cnt 0 side.
Proof.
  intros Hk. induction part as [|x t IH]; intros side Hc Hs.
  - destruct side; auto. cbn in Hc; lia.
  - rewrite cnt_cons in Hc. cbn [relabel]. destruct (Nat.eqb_spec x r) as [->|Hxr].
    + destruct side as [|s side]; [cbn in Hc; lia|]. cbn [length] in Hc. unfold cut in *. cbn [map hd tl]. rewrite !cnt_cons.
      rewrite IH; [|lia|intros; apply Hs; right; auto]. destruct (Nat.eqb_spec s 0) as [->|].
      * rewrite Nat.add_0_r, Nat.eqb_refl. auto.
      * destruct (Nat.eqb_spec (r + k0) r); [lia|]. auto.
    + rewrite cnt_cons. destruct (Nat.eqb_spec x r); [lia|]. rewrite IH; auto.
Qed.

Lemma cnt_relabel_cut1 r k0 k1 : 1 <= k0 -> 1 <= k1 -> forall part side L0, cnt r part = length side -> (forall s, In s side -> s < 2) ->
  (forall x, In x L0 -> x < k0) -> (forall x, In x part -> x <= r \/ r + k0 + k1 <= x) -> 
  cnt (r + k0) (relabel (relabel part r (cut side k0)) r L0) = cnt 1 side.
Proof.
  intros Hk Hk1. induction part as [|x t IH]; intros side L0 Hc Hs HL Hp.
  - destruct side; auto. cbn in Hc; lia.
  - assert (Hx := Hp x (or_introl eq_refl)).
    assert (Ht : forall y, In y t -> y <= r \/ r + k0 + k1 <= y) by (intros; apply Hp; right; auto).
    rewrite cnt_cons in Hc. cbn [relabel]. destruct (Nat.eqb_spec x r) as [->|Hxr].
    + destruct side as [|s side]; [cbn in Hc; lia|]. cbn [length] in Hc. unfold cut in *. cbn [map hd tl]. rewrite !cnt_cons.
      assert (Hs' : forall y, In y side -> y < 2) by (intros; apply Hs; right; auto).
      assert (Hs2 : s < 2) by (apply Hs; left; auto).
      destruct (Nat.eqb_spec s 0) as [->|].
      * rewrite Nat.add_0_r. cbn [relabel]. rewrite Nat.eqb_refl, cnt_cons.
        assert (hd 0 L0 < k0) by (destruct L0; [cbn; lia|apply HL; left; auto]).
        destruct (Nat.eqb_spec (r + hd 0 L0) (r + k0)); [lia|]. cbn [Nat.eqb]. rewrite IH; auto; try lia.
        intros y Hy. apply HL. destruct L0; [destruct Hy|right; auto].
      * assert (s = 1) by lia. subst s. cbn [relabel]. destruct (Nat.eqb_spec (r + k0) r); [lia|].
        rewrite cnt_cons, Nat.eqb_refl. cbn [Nat.eqb]. rewrite IH; auto; lia.
    + cbn [relabel]. destruct (Nat.eqb_spec x r); [lia|]. rewrite cnt_cons. destruct (Nat.eqb_spec x (r + k0)); [lia|].
      rewrite IH; auto.
Qed.

Lemma relabel_in r : forall part L y, In y (relabel part r L) -> In y part \/ exists x, (In x L \/ x = 0) /\ y = r + x.
Proof.
  induction part as [|x t IH]; intros L y H; cbn [relabel] in H; [destruct H|].
  destruct (Nat.eqb_spec x r) as [->|].
  - destruct H as [<-|H].
    + right. exists (hd 0 L). split; auto. destruct L; [right|left; left]; auto.
    + apply IH in H. destruct H as [H|(z & Hz & ->)]; [left; right; auto|]. right. exists z. split; auto.
      destruct Hz; auto. left. destruct L; [destruct H|right; auto].
  - destruct H as [<-|H]; [left; left; auto|]. apply IH in H. destruct H; [left; right; auto|auto].
Qed.

Lemma cnt_members side b : cnt b side = length (members side b).
Proof.
  unfold members. assert (G : forall l, length (filter (fun u => nth u (side ++ l) (S b) =? b) (seq 0 (length side))) = cnt b side).
  { induction side as [|s side IH] using rev_ind; intros l; auto.
    rewrite app_length, seq_app, filter_app, app_length. cbn [length Nat.add seq filter].
    rewrite <- app_assoc. rewrite IH. rewrite app_nth2 by lia. rewrite Nat.sub_diag. cbn [app nth].
    unfold cnt. rewrite filter_app, app_length. cbn [filter]. rewrite (Nat.eqb_sym b s). destruct (s =? b); auto. }
  rewrite <- (G []). now rewrite app_nil_r.
Qed.

(** ** The specification *)
Lemma merge_length side : forall L0 L1, length (merge_labels side L0 L1) = length side.
Proof. induction side as [|s t IH]; intros; cbn [merge_labels]; auto. destruct (s =? 0); cbn [length]; rewrite IH; auto. Qed.
Lemma merge_in side : forall L0 L1 y, In y (merge_labels side L0 L1) -> cnt 0 side <= length L0 -> (forall s, In s side -> s < 2) -> cnt 1 side <= length L1 ->
  In y L0 \/ In y L1.
Proof.
  induction side as [|s t IH]; intros L0 L1 y H H0 Hs H1; cbn [merge_labels] in H; [destruct H|].
  rewrite cnt_cons in H0, H1. assert (Hs' : forall y, In y t -> y < 2) by (intros; apply Hs; right; auto).
  assert (Hs2 : s < 2) by (apply Hs; left; auto).
  destruct (Nat.eqb_spec s 0) as [->|].
  - destruct L0 as [|z L0]; [cbn in H0; lia|]. cbn [hd tl length Nat.eqb] in *. destruct H as [<-|H]; [left; left; auto|].
    apply IH in H; try lia; auto. destruct H; auto. left; right; auto.
  - assert (s = 1) by lia. subst s. destruct L1 as [|z L1]; [cbn in H1; lia|]. cbn [hd tl length Nat.eqb] in *. destruct H as [<-|H]; [right; left; auto|].
    apply IH in H; try lia; auto. destruct H; auto. right; right; auto.
Qed.

Lemma rb_length bip : bipartitioner bip -> forall fuel g abs k num, length (rb_labels fuel bip g abs k num) = length g.
Proof.
  intros Hb fuel g abs k num. destruct fuel; cbn [rb_labels]; [apply repeat_length|].
  destruct (num <=? 1); [apply repeat_length|]. rewrite merge_length. apply Hb.
Qed.

Lemma rb_range bip : bipartitioner bip -> forall fuel g abs k num x, 1 <= num -> In x (rb_labels fuel bip g abs k num) -> x < num.
Proof.
  intros Hb. induction fuel as [|f IH]; intros g abs k num x Hn H; cbn [rb_labels] in H.
  - apply repeat_spec in H. lia.
  - destruct (Nat.leb_spec num 1); [apply repeat_spec in H; lia|].
    assert (A := half_sum num). assert (B := half_up num). assert (C := half_dn num).
    destruct (Hb g abs k) as [Hl Hs].
    apply merge_in in H.
    + destruct H as [H|H].
      * apply IH in H; lia.
      * apply in_map_iff in H. destruct H as (y & <- & H). apply IH in H; lia.
    + rewrite rb_length, induced_length, cnt_members by auto. auto.
    + auto.
    + rewrite map_length, rb_length, induced_length, cnt_members by auto. auto.
Qed.

Lemma rb_fuel bip : forall f f' g abs k num, num <= f -> num <= f' -> rb_labels f bip g abs k num = rb_labels f' bip g abs k num.
Proof.
  induction f as [|f IH]; intros f' g abs k num H H'.
  - destruct f'; auto. cbn [rb_labels]. destruct (Nat.leb_spec num 1); auto. lia.
  - destruct f' as [|f'].
    + cbn [rb_labels]. destruct (Nat.leb_spec num 1); auto. lia.
    + cbn [rb_labels]. destruct (Nat.leb_spec num 1); auto.
      assert (B := half_up num). assert (C := half_dn num).
      rewrite (IH f' _ (2 * abs)), (IH f' _ (2 * abs + 1)) by lia. auto.
Qed.
