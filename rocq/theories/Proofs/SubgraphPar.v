(* extract_subgraphs: every schedule yields the block-induced subgraphs in disjoint memory regions. *)
From Verif Require Import Lib.Prelude Lib.Slice Spec.Induced Spec.ExtendSpec Spec.Level Model.CsrModel Model.SubgraphModel Proofs.CsrProofs
  Proofs.SubgraphBase Proofs.SubgraphFill Proofs.FinalK.

Lemma list_sum_cons x l : list_sum (x :: l) = x + list_sum l. Proof. reflexivity. Qed.
Lemma list_sum_map_add {A} (f h : A -> nat) l : list_sum (map (fun x => f x + h x) l) = list_sum (map f l) + list_sum (map h l).
Proof. induction l; cbn [map]; rewrite ?list_sum_cons; auto. lia. Qed.
Lemma list_sum_map_le {A} (f h : A -> nat) l : (forall x, In x l -> f x <= h x) -> list_sum (map f l) <= list_sum (map h l).
Proof.
  induction l; intros H; cbn [map]; rewrite ?list_sum_cons; auto.
  assert (f a <= h a) by (apply H; left; auto). assert (list_sum (map f l) <= list_sum (map h l)) by (apply IHl; intros; apply H; right; auto). lia.
Qed.
Lemma list_sum_single b x k : b < k -> list_sum (map (fun c => if c =? b then x else 0) (seq 0 k)) = x.
Proof.
  intros Hb. induction k; [lia|]. rewrite seq_S, map_app, list_sum_app. cbn [map Nat.add].
  rewrite list_sum_cons. cbn [list_sum fold_right].
  destruct (Nat.eq_dec b k) as [->|Hn].
  - rewrite Nat.eqb_refl.
    assert (E : list_sum (map (fun c => if c =? k then x else 0) (seq 0 k)) = 0).
    { clear IHk Hb. rewrite (map_ext_in _ (fun _ => 0)).
      - induction (seq 0 k); auto.
      - intros c Hc. apply in_seq in Hc. destruct (Nat.eqb_spec c k); auto; lia. }
    rewrite E. lia.
  - destruct (Nat.eqb_spec k b); [lia|]. rewrite IHk by lia. lia.
Qed.

Lemma sum_blk part k (f : nat -> nat -> nat) l :
  (forall u, In u l -> exists b, nth_error part u = Some b /\ b < k) ->
  list_sum (map (fun b => list_sum (map (f b) (blk part l b))) (seq 0 k)) =
  list_sum (map (fun u => f (nth u part 0) u) l).
Proof.
  induction l as [|u l IH]; intros H.
  - cbn [blk filter map]. induction (seq 0 k); auto.
  - destruct (H u) as (b & Hb & Hk); [left; auto|]. cbn [map]. rewrite list_sum_cons, <- IH by (intros; apply H; right; auto).
    rewrite (nth_error_nth _ _ 0 Hb).
    rewrite <- (list_sum_single b (f b u) k Hk) at 1. rewrite <- list_sum_map_add.
    f_equal. apply map_ext. intros c. unfold blk. cbn [filter].
    destruct (in_block part c u) eqn:Ec.
    + apply in_block_iff in Ec. assert (c = b) by congruence. subst. now rewrite Nat.eqb_refl.
    + destruct (Nat.eqb_spec c b); auto. subst. assert (in_block part b u = true) by (apply in_block_iff; auto). congruence.
Qed.

Lemma firstn_S_map_seq {A} (f : nat -> A) k b : b < k -> firstn (S b) (map f (seq 0 k)) = firstn b (map f (seq 0 k)) ++ [f b].
Proof.
  intros H. rewrite !firstn_map.
  assert (E : forall c, c <= k -> firstn c (seq 0 k) = seq 0 c).
  { intros c Hc. replace k with (c + (k - c)) by lia. rewrite seq_app, firstn_app, seq_length.
    replace (c - c) with 0 by lia. cbn [firstn]. rewrite app_nil_r, firstn_all2; auto. now rewrite seq_length. }
  rewrite !E by lia. rewrite seq_S, map_app. auto.
Qed.

(** Starting positions from sizes. *)
Section Starts.
Variables (k : nat) (sz : nat -> nat).
Let starts := prefix_sum (0 :: map sz (seq 0 k)).
Lemma starts_nth b : b <= k -> nth b starts 0 = list_sum (firstn b (map sz (seq 0 k))).
Proof.
  intros Hb. unfold starts. rewrite prefix_sum_nth by (cbn; rewrite map_length, seq_length; lia).
  cbn [firstn]. rewrite list_sum_cons. auto.
Qed.
Lemma starts_length : length starts = S k.
Proof. unfold starts. rewrite prefix_sum_length. cbn. now rewrite map_length, seq_length. Qed.
Lemma starts_S b : b < k -> nth (S b) starts 0 = nth b starts 0 + sz b.
Proof.
  intros Hb. rewrite !starts_nth by lia. rewrite firstn_S_map_seq, list_sum_app by auto.
  rewrite list_sum_cons. cbn [list_sum fold_right]. lia.
Qed.
Lemma starts_0 : nth 0 starts 0 = 0.
Proof. rewrite starts_nth by lia. auto. Qed.
Lemma starts_k : nth k starts 0 = list_sum (map sz (seq 0 k)).
Proof. rewrite starts_nth, firstn_all2; auto. rewrite map_length, seq_length; auto. Qed.
Lemma starts_mono b b' : b < b' -> b' <= k -> nth b starts 0 + sz b <= nth b' starts 0.
Proof.
  intros H H'. induction b'; [lia|]. destruct (Nat.eq_dec b b') as [->|Hn].
  - rewrite starts_S; lia.
  - rewrite starts_S by lia. specialize (IHb' ltac:(lia) ltac:(lia)). lia.
Qed.
Lemma starts_end b : b < k -> nth b starts 0 + sz b <= list_sum (map sz (seq 0 k)).
Proof. intros H. rewrite <- starts_k. apply starts_mono; auto. Qed.
End Starts.

(** All four arrays keep their sizes. *)
Lemma splice_frame {A} (a : list A) p l j : p + length l <= length a -> j < p \/ p + length l <= j ->
  nth_error (splice a p l) j = nth_error a j.
Proof. intros H Hj. rewrite nth_error_splice by auto. destruct (Nat.ltb_spec j p); auto. destruct (Nat.ltb_spec j (p + length l)); auto. lia. Qed.

(** The finished memory region of a block. *)
Definition block_done (g : lgraph) (nwf ewf : bool) (part mapping : list nat) (b ns es : nat) (us : list nat) (mem : smem) : Prop :=
  let rows := map (grow g part mapping b) us in
  slice (sm_nodes mem) ns (length us + 1) = offsets 0 rows /\
  slice (sm_edges mem) es (length (concat rows)) = map fst (concat rows) /\
  (nwf = true -> slice (sm_nw mem) ns (length us) = map (lg_weight g) us) /\
  (ewf = true -> slice (sm_ew mem) es (length (concat rows)) = map snd (concat rows)).

Lemma build_block_spec g nwf ewf part mapping b ns e0 us mem :
  lg_closed g (length mapping) -> (forall u, In u us -> u < length g) ->
  slice (sm_nodes mem) ns (length us) = us ->
  fits nwf ewf ns (length us + 1) e0 (length (concat (map (grow g part mapping b) us))) mem ->
  exists mem', build_block g nwf ewf part mapping b ns e0 (length us) mem = Some mem' /\
    frame ns (length us + 1) e0 (length (concat (map (grow g part mapping b) us))) mem mem' /\
    block_done g nwf ewf part mapping b ns e0 us mem'.
Proof.
  intros Hc Hu Hs F. set (rows := map (grow g part mapping b) us) in *.
  assert (F0 := F). destruct F as (F1 & F2 & F3 & F4).
  assert (F' : fits nwf ewf (ns + 0) (length us) (e0 + 0) (length (concat rows)) mem).
  { rewrite !Nat.add_0_r. repeat split; try lia; intros Hx; try specialize (F3 Hx); try specialize (F4 Hx); lia. }
  unfold build_block. rewrite build_loop_spec; auto. 2:{ now rewrite Nat.add_0_r. }
  fold rows. cbn [Nat.add]. rewrite !Nat.add_0_r in *.
  destruct (put_rows_len g nwf ewf part mapping b ns e0 0 us mem F') as (L1 & L2 & L3 & L4).
  rewrite wr_ok by (rewrite L1; lia). cbn [option_map].
  eexists; split; [reflexivity|].
  assert (Lo : length (offs0 0 rows) = length us) by (rewrite offs0_length; apply map_length).
  assert (En : splice (sm_nodes (put_rows g nwf ewf part mapping b ns e0 0 us mem)) (ns + length us) [length (concat rows)]
             = splice (sm_nodes mem) ns (offsets 0 rows)).
  { unfold put_rows. cbn [sm_nodes]. fold rows. rewrite <- Lo at 1. rewrite splice_app by (cbn [length]; lia).
    unfold offsets. now rewrite Nat.add_0_l. }
  rewrite En. clear En. unfold set_nodes, put_rows in *. cbn [sm_nodes sm_edges sm_nw sm_ew] in *. fold rows in L1, L2, L3, L4 |- *.
  assert (Lf : length (offsets 0 rows) = length us + 1) by (rewrite offsets_length; unfold rows; rewrite map_length; lia).
  assert (Lm : length (map fst (concat rows)) = length (concat rows)) by apply map_length.
  assert (Lm2 : length (map snd (concat rows)) = length (concat rows)) by apply map_length.
  assert (Lw : length (map (lg_weight g) us) = length us) by apply map_length.
  split.
  - split.
    + unfold same_sizes; cbn [sm_nodes sm_edges sm_nw sm_ew]. rewrite L2, L3, L4.
      rewrite splice_length by lia. auto.
    + cbn [sm_nodes sm_edges sm_nw sm_ew]. split; intros j Hj; split.
      * apply splice_frame; lia.
      * destruct nwf; auto. specialize (F3 eq_refl). apply splice_frame; lia.
      * apply splice_frame; lia.
      * destruct ewf; auto. specialize (F4 eq_refl). apply splice_frame; lia.
  - unfold block_done. cbn [sm_nodes sm_edges sm_nw sm_ew]. fold rows. repeat split.
    + rewrite <- Lf. apply slice_splice_same. lia.
    + rewrite <- Lm at 1. apply slice_splice_same. lia.
    + intros ->. specialize (F3 eq_refl). rewrite <- Lw at 1. apply slice_splice_same. lia.
    + intros ->. specialize (F4 eq_refl). rewrite <- Lm2 at 1. apply slice_splice_same. lia.
Qed.

Lemma frame_slice_nodes p nn q mm a b s n : frame p nn q mm a b -> s + n <= p \/ p + nn <= s ->
  slice (sm_nodes b) s n = slice (sm_nodes a) s n /\ slice (sm_nw b) s n = slice (sm_nw a) s n.
Proof. intros (_ & H & _) Hd. split; apply slice_ext; intros j Hj; apply H; lia. Qed.
Lemma frame_slice_edges p nn q mm a b s n : frame p nn q mm a b -> s + n <= q \/ q + mm <= s ->
  slice (sm_edges b) s n = slice (sm_edges a) s n /\ slice (sm_ew b) s n = slice (sm_ew a) s n.
Proof. intros (_ & _ & H) Hd. split; apply slice_ext; intros j Hj; apply H; lia. Qed.

Lemma block_done_frame g nwf ewf part mapping b ns es us p nn q mm m1 m2 :
  frame p nn q mm m1 m2 -> ns + length us + 1 <= p \/ p + nn <= ns ->
  es + length (concat (map (grow g part mapping b) us)) <= q \/ q + mm <= es ->
  block_done g nwf ewf part mapping b ns es us m1 -> block_done g nwf ewf part mapping b ns es us m2.
Proof.
  intros Fr D1 D2 (B1 & B2 & B3 & B4). unfold block_done.
  destruct (frame_slice_nodes _ _ _ _ _ _ ns (length us + 1) Fr) as [E1 _]; [lia|].
  destruct (frame_slice_nodes _ _ _ _ _ _ ns (length us) Fr) as [_ E2]; [lia|].
  destruct (frame_slice_edges _ _ _ _ _ _ es (length (concat (map (grow g part mapping b) us))) Fr) as [E3 E4]; [lia|].
  rewrite E1, E2, E3, E4. auto.
Qed.

(** A finished block reads back as the induced subgraph. *)
Lemma block_done_read g part mapping b ns es us mem :
  lg_ok g -> length part = length g ->
  (forall v, In v us <-> nth_error part v = Some b) ->
  (forall v, In v us -> nth v mapping 0 = index_of v us) ->
  fits (lg_is_nw g) (lg_is_ew g) ns (length us + 1) es (length (concat (map (grow g part mapping b) us))) mem \/
  (ns + length us + 1 <= length (sm_nodes mem) /\ es + length (concat (map (grow g part mapping b) us)) <= length (sm_edges mem) /\
   (lg_is_nw g = true -> ns + length us <= length (sm_nw mem)) /\
   (lg_is_ew g = true -> es + length (concat (map (grow g part mapping b) us)) <= length (sm_ew mem))) ->
  block_done g (lg_is_nw g) (lg_is_ew g) part mapping b ns es us mem ->
  read_view mem (View ns (length us) es (length (concat (map (grow g part mapping b) us))) (lg_is_nw g) (lg_is_ew g)) = Some (induced us g).
Proof.
  intros Hok Hl Hus Hmap F (B1 & B2 & B3 & B4).
  assert (Hlt : forall v, In v us -> v < length g).
  { intros v Hv. apply Hus in Hv. rewrite <- Hl. apply nth_error_Some. congruence. }
  assert (Hcl : lg_closed g (length part)) by (rewrite Hl; apply lg_ok_closed; auto).
  rewrite <- (induced_rows g part mapping b us) by auto.
  set (rows := map (grow g part mapping b) us) in *.
  assert (Lr : length us = length rows) by (unfold rows; now rewrite map_length).
  assert (Hw : forall x, In x (map snd (concat rows)) -> exists u v, u < length g /\ In (v, x) (lg_adj g u)).
  { intros x Hx. apply in_map_iff in Hx. destruct Hx as ([v y] & <- & Hx). apply in_concat in Hx.
    destruct Hx as (r & Hr & Hx). unfold rows in Hr. apply in_map_iff in Hr. destruct Hr as (u & <- & Hu).
    unfold grow, prow in Hx. apply in_map_iff in Hx. destruct Hx as ([v' y'] & E & Hx).
    apply filter_In in Hx. exists u, v'. injection E as _ <-. cbn [snd]. split; [auto|tauto]. }
  rewrite Lr in *. apply read_view_rows; auto.
  - now rewrite map_length.
  - intros x Hx. apply in_map_iff in Hx. destruct Hx as (u & <- & Hu). apply lg_ok_weight; auto.
  - intros x Hx. destruct (Hw x Hx) as (u & v & Hu & Hi). eapply lg_ok_adj; eauto.
  - destruct (lg_is_nw g) eqn:E; auto. intros x Hx. apply in_map_iff in Hx. destruct Hx as (u & <- & Hu). apply lg_nw_false; auto.
  - destruct (lg_is_ew g) eqn:E; auto. intros x Hx. destruct (Hw x Hx) as (u & v & Hu & Hi). eapply lg_ew_false; eauto.
Qed.

Lemma induced_length us g : length (induced us g) = length us.
Proof. apply map_length. Qed.
Lemma induced_m us g part mapping b : lg_closed g (length part) ->
  (forall v, In v us <-> nth_error part v = Some b) ->
  (forall v, In v us -> nth v mapping 0 = index_of v us) -> (forall v, In v us -> v < length g) ->
  lg_m (induced us g) = length (concat (map (grow g part mapping b) us)).
Proof.
  intros Hcl Hus Hmap Hlt. rewrite <- (induced_rows g part mapping b us) by auto. rewrite lg_m_concat. f_equal. f_equal.
  assert (G : forall l, map snd (combine (map (lg_weight g) l) (map (grow g part mapping b) l)) = map (grow g part mapping b) l).
  { induction l; cbn; congruence. }
  apply G.
Qed.

Lemma lg_m_seq g : lg_m g = list_sum (map (fun u => length (lg_adj g u)) (seq 0 (length g))).
Proof.
  unfold lg_m, lg_adj. f_equal. apply (list_ext 0); [now rewrite !map_length, seq_length|].
  intros i Hi. rewrite map_length in Hi. rewrite nth_map_seq by auto. cbn [Nat.add].
  apply (map_nth (fun r : Z * list (nat * Z) => length (snd r)) g (0%Z, []) i).
Qed.

Lemma filter_len_le {A} (f : A -> bool) l : length (filter f l) <= length l.
Proof. induction l; cbn; auto. destruct (f a); cbn; lia. Qed.

Section Extract.
Variables (ub : N) (g : lgraph) (part : list nat) (kp k : nat) (order border : list nat) (mem : smem).
Hypothesis Hok : lg_ok g.
Hypothesis Hlen : length part = length g.
Hypothesis Hlab : forall b, In b part -> b < kp.
Hypothesis Hlv : level_ok kp k.
Hypothesis Hk31 : (N.of_nat k < 2 ^ 31)%N.
Hypothesis Hord : Permutation order (seq 0 (length g)).
Hypothesis Hbord : Permutation border (seq 0 kp).
Hypothesis Hfits : mem_fits g k mem.
Let us b := blk part order b.

Lemma us_perm b : Permutation (us b) (members part b).
Proof. unfold us. rewrite members_blk, Hlen. apply blk_perm; auto. Qed.
Lemma us_iff b v : In v (us b) <-> nth_error part v = Some b.
Proof.
  unfold us. rewrite in_blk. split; [tauto|]. intros H. split; auto.
  apply (Permutation_in v (Permutation_sym Hord)). apply in_seq.
  assert (v < length part) by (apply nth_error_Some; congruence). lia.
Qed.

Theorem extract_ok : exists mem' mapping views nst est,
  extract_subgraphs ub g part kp k order border mem = Some (mem', mapping, views, nst, est) /\
  same_sizes mem mem' /\ length views = kp /\ length mapping = length g /\
  nth 0 nst 0 = 0 /\ nth kp nst 0 = length g + k /\ nth 0 est 0 = 0 /\ nth kp est 0 <= lg_m g /\
  length nst = S kp /\ length est = S kp /\
  forall b, b < kp ->
    read_view mem' (nth b views (View 0 0 0 0 false false)) = Some (induced (us b) g) /\
    (forall u, In u (us b) -> nth u mapping 0 = index_of u (us b)) /\
    (exists fk, final_k ub b kp k = Some fk /\ 1 <= fk /\
       nth b views (View 0 0 0 0 false false) =
         View (nth b nst 0) (length (us b)) (nth b est 0) (lg_m (induced (us b) g)) (lg_is_nw g) (lg_is_ew g) /\
       nth (S b) nst 0 = nth b nst 0 + length (us b) + fk /\
       nth (S b) est 0 = nth b est 0 + lg_m (induced (us b) g)).
Proof.
  destruct (final_ks_ok ub kp k Hlv Hk31) as (fks & Efk & Lfk & Sfk & Hfk).
  unfold extract_subgraphs. rewrite Efk. rewrite count_blocks_spec by auto.
  set (cnt := fun b => length (blk part (seq 0 (length g)) b)).
  set (ecnt := fun b => list_sum (map (int_deg g part b) (blk part (seq 0 (length g)) b))).
  set (sz := fun b => nth b fks 0 + nth b (map cnt (seq 0 kp)) 0).
  set (nst := prefix_sum (0 :: map sz (seq 0 kp))).
  set (est := prefix_sum (0 :: map ecnt (seq 0 kp))).
  assert (Hcnt : forall b, cnt b = length (us b)).
  { intros b. unfold cnt, us. apply Permutation_length, blk_perm, Permutation_sym; auto. }
  assert (Hsz : forall b, b < kp -> sz b = nth b fks 0 + length (us b)).
  { intros b Hb. unfold sz. rewrite nth_map_seq by auto. cbn [Nat.add]. now rewrite Hcnt. }
  assert (Hall : forall u, In u (seq 0 (length g)) -> exists b, nth_error part u = Some b /\ b < kp).
  { intros u Hu. apply in_seq in Hu. destruct (nth_error part u) eqn:E.
    - exists n; split; auto. apply Hlab. eapply nth_error_In; eauto.
    - apply nth_error_None in E. lia. }
  assert (Scnt : list_sum (map cnt (seq 0 kp)) = length g).
  { assert (E := sum_blk part kp (fun _ _ => 1) (seq 0 (length g)) Hall).
    assert (E1 : forall (l : list nat), list_sum (map (fun _ => 1) l) = length l).
    { induction l; cbn [map]; auto. rewrite list_sum_cons, IHl; auto. }
    rewrite E1, seq_length in E. rewrite <- E. f_equal. apply map_ext. intros b. now rewrite E1. }
  assert (Ssz : list_sum (map sz (seq 0 kp)) = length g + k).
  { unfold sz. rewrite list_sum_map_add. rewrite <- Lfk at 1. rewrite map_nth_seq.
    assert (E : map (fun x => nth x (map cnt (seq 0 kp)) 0) (seq 0 kp) = map cnt (seq 0 kp)).
    { apply map_ext_in. intros b Hb. apply in_seq in Hb. rewrite nth_map_seq by lia. auto. }
    rewrite E. lia. }
  assert (Secnt : list_sum (map ecnt (seq 0 kp)) <= lg_m g).
  { unfold ecnt. rewrite sum_blk by auto. rewrite lg_m_seq. apply list_sum_map_le.
    intros u _. unfold int_deg. apply filter_len_le. }
  assert (Hmono : forall b b', b < b' -> b' < kp -> nth b nst 0 + length (us b) + 1 <= nth b' nst 0).
  { intros b b' H1 H2. assert (H := starts_mono kp sz b b' H1 ltac:(lia)). fold nst in H.
    rewrite Hsz in H by lia. destruct (Hfk b) as [_ Hf]; [lia|]. lia. }
  assert (Hend : forall b, b < kp -> nth b nst 0 + length (us b) + 1 <= length g + k).
  { intros b Hb. assert (H := starts_end kp sz b Hb). fold nst in H. rewrite Hsz in H by lia.
    destruct (Hfk b) as [_ Hf]; [lia|]. lia. }
  destruct Hfits as (G1 & G2 & G3 & G4).
  destruct (fill_all part nst kp (length g) Hlen Hlab) with (order := order) (nodes0 := sm_nodes mem) as (s & Es & Is).
  { unfold nst. rewrite starts_length. lia. }
  { auto. }
  { intros b b' H1 H2. fold (us b). assert (H := Hmono b b' H1 H2). lia. }
  { intros b Hb. fold (us b). assert (H := Hend b Hb). lia. }
  rewrite Es. destruct s as [[nodes1 idx] mapping]. destruct Is as (L1 & L2 & L3 & I1 & I2 & I3).
  set (mem1 := set_nodes mem nodes1).
  assert (Hmap : forall b v, In v (us b) -> nth v mapping 0 = index_of v (us b)).
  { intros b v Hv. apply in_blk in Hv. apply I3; tauto. }
  assert (Hlt : forall b v, In v (us b) -> v < length g).
  { intros b v Hv. apply us_iff in Hv. rewrite <- Hlen. apply nth_error_Some. congruence. }
  assert (Hcl : lg_closed g (length part)) by (rewrite Hlen; apply lg_ok_closed; auto).
  set (E := fun b => length (concat (map (grow g part mapping b) (us b)))).
  assert (HE : forall b, ecnt b = E b).
  { intros b. unfold E, ecnt. rewrite length_concat_sum, map_map.
    assert (Eg : map (fun x => length (grow g part mapping b x)) (us b) = map (int_deg g part b) (us b)) by (apply map_ext; intros; apply grow_length).
    rewrite Eg.
    apply list_sum_perm, Permutation_map, blk_perm, Permutation_sym; auto. }
  assert (Hemono : forall b b', b < b' -> b' < kp -> nth b est 0 + E b <= nth b' est 0).
  { intros b b' H1 H2. assert (H := starts_mono kp ecnt b b' H1 ltac:(lia)). fold est in H. rewrite HE in H. auto. }
  assert (Heend : forall b, b < kp -> nth b est 0 + E b <= lg_m g).
  { intros b Hb. assert (H := starts_end kp ecnt b Hb). fold est in H. rewrite HE in H. lia. }
  (* construction loop *)
  assert (Hbuild : forall rest done m1, Permutation (done ++ rest) (seq 0 kp) -> same_sizes mem m1 ->
     (forall b, In b done -> block_done g (lg_is_nw g) (lg_is_ew g) part mapping b (nth b nst 0) (nth b est 0) (us b) m1) ->
     (forall b, In b rest -> slice (sm_nodes m1) (nth b nst 0) (length (us b)) = us b) ->
     exists m2, fold_left (build_step g (lg_is_nw g) (lg_is_ew g) part mapping nst est idx) rest (Some m1) = Some m2 /\ same_sizes mem m2 /\
       forall b, In b (done ++ rest) -> block_done g (lg_is_nw g) (lg_is_ew g) part mapping b (nth b nst 0) (nth b est 0) (us b) m2).
  { induction rest as [|b rest IH]; intros done m1 Hp Hs Hd Hr.
    - exists m1. rewrite app_nil_r. auto.
    - assert (Hb : b < kp).
      { assert (In b (seq 0 kp)) by (eapply Permutation_in; [exact Hp|apply in_or_app; right; left; auto]). apply in_seq in H; lia. }
      assert (Hnd : NoDup (done ++ b :: rest)) by (eapply Permutation_NoDup; [apply Permutation_sym; exact Hp|apply seq_NoDup]).
      assert (Hoth : forall c, In c (done ++ rest) -> c <> b /\ c < kp).
      { intros c Hc. split.
        - intros ->. apply NoDup_remove_2 in Hnd. auto.
        - assert (In c (seq 0 kp)).
          { eapply Permutation_in; [exact Hp|]. apply in_app_or in Hc. apply in_or_app. destruct Hc; [left|right; right]; auto. }
          apply in_seq in H; lia. }
      cbn [fold_left]. unfold build_step at 2. rewrite I1 by auto. fold (us b).
      destruct Hs as (Z1 & Z2 & Z3 & Z4).
      destruct (build_block_spec g (lg_is_nw g) (lg_is_ew g) part mapping b (nth b nst 0) (nth b est 0) (us b) m1) as (m1' & E1 & Fr & Bd).
      { rewrite L3, <- Hlen. auto. } { apply Hlt. } { apply Hr; left; auto. }
      { assert (A1 := Hend b Hb). assert (A2 := Heend b Hb). unfold E in A2.
        repeat split; try lia; intros Hx; try specialize (G3 Hx); try specialize (G4 Hx); lia. }
      rewrite E1.
      assert (Hdis : forall c, In c (done ++ rest) ->
        (nth c nst 0 + length (us c) + 1 <= nth b nst 0 \/ nth b nst 0 + (length (us b) + 1) <= nth c nst 0) /\
        (nth c est 0 + E c <= nth b est 0 \/ nth b est 0 + E b <= nth c est 0)).
      { intros c Hc. destruct (Hoth c Hc) as [Hcb Hck]. destruct (Nat.lt_trichotomy c b) as [H|[H|H]]; [|easy|].
        - assert (A1 := Hmono c b H Hb). assert (A2 := Hemono c b H Hb). lia.
        - assert (A1 := Hmono b c H Hck). assert (A2 := Hemono b c H Hck). lia. }
      destruct (IH (done ++ [b]) m1') as (m2 & E2 & S2 & D2).
      + rewrite <- app_assoc. exact Hp.
      + destruct Fr as ((Y1 & Y2 & Y3 & Y4) & _). unfold same_sizes; repeat split; congruence.
      + intros c Hc. apply in_app_or in Hc. destruct Hc as [Hc|[<-|[]]]; auto.
        destruct (Hdis c) as [Da Db]; [apply in_or_app; auto|].
        eapply block_done_frame; [exact Fr| | |apply Hd; auto]; unfold E in Db; lia.
      + intros c Hc. destruct (Hdis c) as [Da Db]; [apply in_or_app; auto|].
        destruct (frame_slice_nodes _ _ _ _ _ _ (nth c nst 0) (length (us c)) Fr) as [Ea _]; [lia|].
        rewrite Ea. apply Hr; right; auto.
      + exists m2. split; auto. split; auto. intros c Hc. apply D2. rewrite <- app_assoc. exact Hc. }
  destruct (Hbuild border [] mem1) as (mem' & E2 & S2 & D2).
  { exact Hbord. }
  { unfold mem1, same_sizes. cbn. auto. }
  { intros b []. }
  { intros b Hb. apply (Permutation_in b Hbord), in_seq in Hb. unfold mem1. cbn [set_nodes sm_nodes].
    apply I2. lia. }
  fold mem1. rewrite E2.
  do 5 eexists. split; [reflexivity|]. split; [exact S2|].
  split; [now rewrite map_length, seq_length|]. split; [exact L3|].
  split; [apply starts_0|]. split; [unfold nst; rewrite starts_k; exact Ssz|].
  split; [apply starts_0|]. split; [unfold est; rewrite starts_k; exact Secnt|].
  split; [apply starts_length|]. split; [apply starts_length|].
  intros b Hb. rewrite nth_map_seq by auto. cbn [Nat.add].
  assert (HnS : nth (S b) nst 0 = nth b nst 0 + sz b) by (apply starts_S; auto).
  assert (HeS : nth (S b) est 0 = nth b est 0 + ecnt b) by (apply starts_S; auto).
  rewrite Hsz in HnS by auto. rewrite HE in HeS.
  assert (Em : lg_m (induced (us b) g) = E b).
  { unfold E. apply (induced_m (us b) g part mapping b); auto. - apply us_iff. - apply Hlt. }
  replace (nth (S b) nst 0 - nth b nst 0 - nth b fks 0) with (length (us b)) by lia.
  replace (nth (S b) est 0 - nth b est 0) with (E b) by lia.
  assert (Bd : block_done g (lg_is_nw g) (lg_is_ew g) part mapping b (nth b nst 0) (nth b est 0) (us b) mem').
  { apply D2. cbn [app]. eapply Permutation_in; [apply Permutation_sym; exact Hbord|]. apply in_seq; lia. }
  destruct S2 as (Z1 & Z2 & Z3 & Z4).
  split; [|split].
  - unfold E. apply block_done_read; auto.
    + apply us_iff.
    + left. assert (A1 := Hend b Hb). assert (A2 := Heend b Hb). unfold E in A2.
      repeat split; try lia; intros Hx; try specialize (G3 Hx); try specialize (G4 Hx); lia.
  - apply Hmap.
  - destruct (Hfk b Hb) as [Hf1 Hf2]. exists (nth b fks 0). rewrite Em. repeat split; auto; lia.
Qed.
End Extract.
