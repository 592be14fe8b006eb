(* Sequential extraction of the two sides of a bipartition and lazy extraction of one block. *)
From Verif Require Import Lib.Prelude Lib.Slice Spec.Induced Spec.ExtendSpec Spec.Level Model.CsrModel Model.SubgraphModel Proofs.CsrProofs
  Proofs.SubgraphBase Proofs.SubgraphFill Proofs.FinalK Proofs.SubgraphPar.

(** ** Two growing regions in one array *)
Section Two.
Context {A : Type}.
Implicit Types a l r : list A.
Definition two a l0 p l1 : list A := splice (splice a 0 l0) p l1.
Lemma two_app0 a l0 p l1 r : length l0 + length r <= p -> p + length l1 <= length a ->
  splice (two a l0 p l1) (length l0) r = two a (l0 ++ r) p l1.
Proof.
  intros H1 H2. unfold two. rewrite (splice_comm (splice a 0 l0) p l1); try (rewrite splice_length; lia); try lia.
  f_equal. apply (splice_app a 0 l0 r). lia.
Qed.
Lemma two_app1 a l0 p l1 r : length l0 <= p -> p + length l1 + length r <= length a ->
  splice (two a l0 p l1) (p + length l1) r = two a l0 p (l1 ++ r).
Proof. intros H1 H2. unfold two. apply splice_app. rewrite splice_length; lia. Qed.
Lemma two_length a l0 p l1 : length l0 <= p -> p + length l1 <= length a -> length (two a l0 p l1) = length a.
Proof. intros. unfold two. rewrite !splice_length; auto; rewrite ?splice_length; lia. Qed.
Lemma two_slice0 a l0 p l1 : length l0 <= p -> p + length l1 <= length a -> slice (two a l0 p l1) 0 (length l0) = l0.
Proof.
  intros. unfold two. rewrite slice_splice_out; [apply slice_splice_same; lia|rewrite splice_length; lia|lia].
Qed.
Lemma two_slice1 a l0 p l1 : length l0 <= p -> p + length l1 <= length a -> slice (two a l0 p l1) p (length l1) = l1.
Proof. intros. unfold two. apply slice_splice_same. rewrite splice_length; lia. Qed.
Lemma slice_firstn a m s n : s + n <= m -> slice (firstn m a) s n = slice a s n.
Proof.
  intros H. apply nth_error_ext. intros i. rewrite !nth_error_slice, nth_error_firstn.
  destruct (Nat.ltb_spec i n); auto. destruct (Nat.ltb_spec (s + i) m); auto; lia.
Qed.
End Two.

Section Seq.
Variables (g : lgraph) (part : list nat) (fk0 fk1 npos epos gar : nat) (garz : Z) (mem : smem).
Hypothesis Hok : lg_ok g.
Hypothesis Hlen : length part = length g.
Hypothesis Hlab : forall s, In s part -> s < 2.
Hypothesis Hf0 : 1 <= fk0.
Hypothesis Hf1 : 1 <= fk1.
Let nwf := lg_is_nw g.
Let ewf := lg_is_ew g.
Let n := length g.
Hypothesis Hfits : fits nwf ewf npos (n + (fk0 + fk1)) epos (lg_m g) mem.
Let ub m b := blk part (seq 0 m) b.

Lemma part_at u : u < n -> exists b, nth_error part u = Some b /\ nth u part 0 = b /\ b < 2.
Proof.
  intros Hu. destruct (nth_error part u) as [b|] eqn:E.
  - exists b. split; auto. split; [apply nth_error_nth; auto|]. apply Hlab. eapply nth_error_In; eauto.
  - apply nth_error_None in E. unfold n in Hu. lia.
Qed.
Lemma ub_S m b : nth_error part m = Some b -> ub (S m) b = ub m b ++ [m].
Proof.
  intros H. unfold ub. rewrite seq_S, blk_app. unfold blk at 2. cbn [filter Nat.add].
  replace (in_block part b m) with true by (symmetry; apply in_block_iff; auto). auto.
Qed.
Lemma ub_S_other m b c : nth_error part m = Some b -> c <> b -> ub (S m) c = ub m c.
Proof.
  intros H Hc. unfold ub. rewrite seq_S, blk_app. unfold blk at 2. cbn [filter Nat.add].
  destruct (in_block part c m) eqn:Ei; [|apply app_nil_r]. apply in_block_iff in Ei. congruence.
Qed.
Lemma ub_total m : m <= n -> length (ub m 0) + length (ub m 1) = m.
Proof.
  induction m; intros H; [reflexivity|]. destruct (part_at m) as (b & E & _ & Hb); [lia|].
  assert (b = 0 \/ b = 1) as [->| ->] by lia.
  - rewrite (ub_S _ _ E), (ub_S_other _ _ 1 E), app_length by lia. cbn [length]. specialize (IHm ltac:(lia)). lia.
  - rewrite (ub_S _ _ E), (ub_S_other _ _ 0 E), app_length by lia. cbn [length]. specialize (IHm ltac:(lia)). lia.
Qed.
Let D m b := list_sum (map (int_deg g part b) (ub m b)).

Lemma seq_count_ok : forall m, m <= n -> exists mapping,
  fold_left (seq_count g part) (seq 0 m) ([], (0, 0), (0, 0)) =
    (mapping, (length (ub m 0), length (ub m 1)), (D m 0, D m 1)) /\
  length mapping = m /\
  forall u b, u < m -> nth_error part u = Some b -> nth u mapping 0 = index_of u (ub m b).
Proof.
  induction m as [|m IH]; intros Hm.
  - exists []. cbn. repeat split; auto. intros; lia.
  - destruct (IH ltac:(lia)) as (mapping & E & L & I). rewrite seq_S, fold_left_app, E. cbn [fold_left Nat.add].
    unfold seq_count. destruct (part_at m) as (b & Eb & Enb & Hb); [lia|]. rewrite Enb.
    fold (int_deg g part b m).
    exists (mapping ++ [length (ub m b)]).
    assert (Hmap : forall u c, u < S m -> nth_error part u = Some c -> nth u (mapping ++ [length (ub m b)]) 0 = index_of u (ub (S m) c)).
    { intros u c Hu Hc. destruct (Nat.eq_dec u m) as [->|Hn].
      - assert (c = b) by congruence. subst c. rewrite app_nth2, L, Nat.sub_diag by lia. cbn [nth].
        rewrite (ub_S _ _ Eb), index_of_snoc; auto. unfold ub. rewrite in_blk, in_seq. lia.
      - rewrite app_nth1 by lia. rewrite (I u c) by (auto; lia).
        destruct (Nat.eq_dec c b) as [->|Hcb].
        + rewrite (ub_S _ _ Eb), index_of_app_in; auto. unfold ub. rewrite in_blk, in_seq. split; auto; lia.
        + rewrite (ub_S_other m b c Eb Hcb). auto. }
    assert (Hd : D (S m) b = D m b + int_deg g part b m).
    { unfold D. rewrite (ub_S _ _ Eb), map_app, list_sum_app. cbn [map]. rewrite list_sum_cons. cbn [list_sum fold_right]. lia. }
    assert (Hd' : forall c, c <> b -> D (S m) c = D m c) by (intros c Hc; unfold D; now rewrite (ub_S_other m b c Eb Hc)).
    assert (b = 0 \/ b = 1) as [->| ->] by lia; cbn [Nat.eqb].
    + rewrite Hd, (Hd' 1), (ub_S _ _ Eb), (ub_S_other _ _ 1 Eb), app_length by lia. cbn [length].
      split; [reflexivity|]. split; [|exact Hmap]. rewrite app_length. cbn; lia.
    + rewrite Hd, (Hd' 0), (ub_S _ _ Eb), (ub_S_other _ _ 0 Eb), app_length by lia. cbn [length].
      split; [reflexivity|]. split; [|exact Hmap]. rewrite app_length. cbn; lia.
Qed.

Lemma D_total : D n 0 + D n 1 <= lg_m g.
Proof.
  assert (E := sum_blk part 2 (int_deg g part) (seq 0 n)).
  assert (H : forall u, In u (seq 0 n) -> exists b, nth_error part u = Some b /\ b < 2).
  { intros u Hu. apply in_seq in Hu. destruct (part_at u) as (b & Eb & _ & Hb); [lia|]. eauto. }
  specialize (E H). cbn [seq map] in E. rewrite !list_sum_cons in E. cbn [list_sum fold_right] in E.
  fold (ub n 0) (ub n 1) in E. fold (D n 0) (D n 1) in E. rewrite Nat.add_0_r in E. rewrite E.
  rewrite lg_m_seq. apply list_sum_map_le. intros u _. apply filter_len_le.
Qed.

Variable mapping : list nat.
Hypothesis Lmap : length mapping = n.
Let rows m b := map (grow g part mapping b) (ub m b).
Let ED m b := length (concat (rows m b)).
Lemma ED_D m b : ED m b = D m b.
Proof.
  unfold ED, D, rows. rewrite length_concat_sum, map_map. f_equal. apply map_ext. intros; apply grow_length.
Qed.
Lemma D_mono m b : m <= n -> D m b <= D n b.
Proof.
  intros H. unfold D, ub. replace n with (m + (n - m)) by lia. rewrite seq_app, blk_app, map_app, list_sum_app. lia.
Qed.
Lemma ub_mono m b : m <= n -> length (ub m b) <= length (ub n b).
Proof. intros H. unfold ub. replace n with (m + (n - m)) by lia. rewrite seq_app, blk_app, app_length. lia. Qed.
Hypothesis Hmap : forall u b, u < n -> nth_error part u = Some b -> nth u mapping 0 = index_of u (ub n b).
Lemma Hmap' u b : u < n -> nth_error part u = Some b -> nth_error mapping u = Some (length (ub u b)).
Proof.
  intros Hu Hb. rewrite (nth_error_nth' mapping 0) by lia. f_equal. rewrite (Hmap u b Hu Hb).
  unfold ub. replace n with (S u + (n - S u)) by lia. rewrite seq_app, blk_app.
  rewrite index_of_app_in. 2:{ rewrite in_blk, in_seq. split; auto; lia. }
  fold (ub (S u) b). rewrite (ub_S _ _ Hb), index_of_snoc; auto. unfold ub. rewrite in_blk, in_seq. lia.
Qed.

Let n1 := length (ub n 0) + fk0.
Let m1 := D n 0.
Variables (TN : list nat) (TE : list nat) (TW : list Z) (TX : list Z).
Hypothesis LTN : length TN = n + (fk0 + fk1) + 1.
Hypothesis LTE : length TE = D n 0 + D n 1.
Hypothesis LTW : length TW = n + (fk0 + fk1).
Hypothesis LTX : length TX = D n 0 + D n 1.

Definition seq_state (m : nat) : tmem :=
  Tmem (Smem (two TN (offsets 0 (rows m 0)) n1 (offsets 0 (rows m 1)))
             (two TE (map fst (concat (rows m 0))) m1 (map fst (concat (rows m 1))))
             (if nwf then two TW (map (lg_weight g) (ub m 0)) n1 (map (lg_weight g) (ub m 1)) else TW)
             (if ewf then two TX (map snd (concat (rows m 0))) m1 (map snd (concat (rows m 1))) else TX))
       (ED m 0) (ED m 1).

Lemma rows_len m b : length (offsets 0 (rows m b)) = S (length (ub m b)).
Proof. rewrite offsets_length. unfold rows. now rewrite map_length. Qed.
Lemma rows_S m b : nth_error part m = Some b -> rows (S m) b = rows m b ++ [grow g part mapping b m].
Proof. intros H. unfold rows. rewrite (ub_S _ _ H), map_app. auto. Qed.
Lemma rows_S_other m b c : nth_error part m = Some b -> c <> b -> rows (S m) c = rows m c.
Proof. intros H Hc. unfold rows. now rewrite (ub_S_other m b c H Hc). Qed.

Lemma seq_step m : m < n ->
  seq_node g nwf ewf part mapping n1 m1 (Some (seq_state m)) m = Some (seq_state (S m)).
Proof.
  intros Hm. destruct (part_at m) as (b & Eb & Enb & Hb); auto.
  unfold seq_node. rewrite Enb, nth_error_lg by auto. rewrite (Hmap' m b Hm Eb).
  assert (U0 := ub_mono m 0 ltac:(lia)). assert (U1 := ub_mono m 1 ltac:(lia)).
  assert (T := ub_total n ltac:(lia)).
  assert (X0 := D_mono m 0 ltac:(lia)). assert (X1 := D_mono m 1 ltac:(lia)).
  assert (XS : D (S m) b <= D n b) by (apply D_mono; lia).
  assert (US : length (ub (S m) b) <= length (ub n b)) by (apply ub_mono; lia).
  assert (UE : length (ub (S m) b) = length (ub m b) + 1) by (rewrite (ub_S _ _ Eb), app_length; auto).
  assert (XE : D (S m) b = D m b + length (grow g part mapping b m)).
  { unfold D. rewrite (ub_S _ _ Eb), map_app, list_sum_app, grow_length. cbn [map]. rewrite list_sum_cons. cbn [list_sum fold_right]. lia. }
  set (r := grow g part mapping b m) in *.
  assert (Hc1 : concat (rows (S m) b) = concat (rows m b) ++ r).
  { rewrite (rows_S m b Eb), concat_app. cbn [concat]. now rewrite app_nil_r. }
  assert (Ho1 : offsets 0 (rows (S m) b) = offsets 0 (rows m b) ++ [ED m b + length r]).
  { rewrite (rows_S m b Eb), offsets_snoc. auto. }
  assert (He1 : ED (S m) b = ED m b + length r) by (unfold ED; rewrite Hc1, app_length; auto).
  assert (HeO : forall c, c <> b -> ED (S m) c = ED m c) by (intros c Hc; unfold ED; now rewrite (rows_S_other m b c Eb Hc)).
  assert (HeD : forall c, ED m c = length (concat (rows m c))) by reflexivity.
  assert (HeDD : forall c, length (concat (rows m c)) = D m c) by (intros c; apply ED_D).
  assert (O0 := rows_len m 0). assert (O1 := rows_len m 1).
  assert (Hw1 : map (lg_weight g) (ub (S m) b) = map (lg_weight g) (ub m b) ++ [lg_weight g m]).
  { rewrite (ub_S _ _ Eb), map_app. auto. }
  assert (LN : length (two TN (offsets 0 (rows m 0)) n1 (offsets 0 (rows m 1))) = length TN).
  { apply two_length; unfold n1; rewrite ?O0, ?O1; lia. }
  assert (LE : length (two TE (map fst (concat (rows m 0))) m1 (map fst (concat (rows m 1)))) = length TE).
  { apply two_length; unfold m1; rewrite ?map_length, ?HeDD; lia. }
  assert (LW : length (two TW (map (lg_weight g) (ub m 0)) n1 (map (lg_weight g) (ub m 1))) = length TW).
  { apply two_length; unfold n1; rewrite ?map_length; lia. }
  assert (LX : length (two TX (map snd (concat (rows m 0))) m1 (map snd (concat (rows m 1)))) = length TX).
  { apply two_length; unfold m1; rewrite ?map_length, ?HeDD; lia. }
  unfold seq_state at 1 2 3 4 5 6 7. cbn [t_mem t_e0 t_e1 sm_nodes sm_edges sm_nw sm_ew].
  assert (Hcase : b = 0 \/ b = 1) by lia.
  rewrite push_edges_spec.
  2:{ intros v w Hi. rewrite Lmap. apply (lg_ok_closed g Hok m v w); auto. }
  2:{ rewrite LE, LTE. fold (grow g part mapping b m). fold r. unfold m1.
      destruct Hcase as [->| ->]; cbn [Nat.eqb]; rewrite ED_D; lia. }
  2:{ intros ->. rewrite LX, LTX. fold (grow g part mapping b m). fold r. unfold m1.
      destruct Hcase as [->| ->]; cbn [Nat.eqb]; rewrite ED_D; lia. }
  fold (grow g part mapping b m). fold r.
  rewrite wr_ok. 2:{ rewrite LN, LTN. unfold n1. destruct Hcase as [->| ->]; lia. }
  assert (Ew : wr_if nwf (if nwf then two TW (map (lg_weight g) (ub m 0)) n1 (map (lg_weight g) (ub m 1)) else TW) (b * n1 + length (ub m b)) (lg_weight g m)
     = Some (if nwf then splice (two TW (map (lg_weight g) (ub m 0)) n1 (map (lg_weight g) (ub m 1))) (b * n1 + length (ub m b)) [lg_weight g m] else TW)).
  { unfold wr_if. destruct nwf; auto. apply wr_ok. rewrite LW, LTW. unfold n1. destruct Hcase as [->| ->]; lia. }
  rewrite Ew. clear Ew. f_equal. unfold seq_state.
  destruct Hcase as [->| ->]; cbn [Nat.eqb Nat.mul Nat.add].
  - rewrite (rows_S_other m 0 1 Eb), (ub_S_other m 0 1 Eb) by lia.
    rewrite Ho1, Hc1, Hw1, He1, !map_app. rewrite (HeO 1) by lia.
    f_equal. f_equal.
    + rewrite <- two_app0. { f_equal. rewrite O0; lia. } { rewrite O0; cbn [length]; unfold n1; lia. } { rewrite O1; unfold n1; lia. }
    + rewrite <- two_app0. { f_equal. now rewrite map_length. } { rewrite !map_length, HeDD. unfold m1; lia. } { rewrite map_length, HeDD; unfold m1; lia. }
    + destruct nwf; auto. rewrite <- two_app0. { f_equal. now rewrite map_length. } { rewrite map_length; cbn [length]; unfold n1; lia. } { rewrite map_length; unfold n1; lia. }
    + destruct ewf; auto. rewrite <- two_app0. { f_equal. now rewrite map_length. } { rewrite !map_length, HeDD. unfold m1; lia. } { rewrite map_length, HeDD; unfold m1; lia. }
  - rewrite (rows_S_other m 1 0 Eb), (ub_S_other m 1 0 Eb) by lia.
    rewrite Ho1, Hc1, Hw1, He1, !map_app. rewrite (HeO 0) by lia.
    rewrite !Nat.add_0_r.
    f_equal. f_equal.
    + rewrite <- two_app1. { f_equal. rewrite O1; lia. } { rewrite O0; unfold n1; lia. } { rewrite O1; cbn [length]; unfold n1; lia. }
    + rewrite <- two_app1. { f_equal. now rewrite map_length. } { rewrite !map_length, HeDD. unfold m1; lia. } { rewrite !map_length, HeDD; unfold m1; lia. }
    + destruct nwf; auto. rewrite <- two_app1. { f_equal. now rewrite map_length. } { rewrite map_length; unfold n1; lia. } { rewrite map_length; cbn [length]; unfold n1; lia. }
    + destruct ewf; auto. rewrite <- two_app1. { f_equal. now rewrite map_length. } { rewrite !map_length, HeDD. unfold m1; lia. } { rewrite !map_length, HeDD; unfold m1; lia. }
Qed.

Lemma seq_loop m : m <= n -> fold_left (seq_node g nwf ewf part mapping n1 m1) (seq 0 m) (Some (seq_state 0)) = Some (seq_state m).
Proof.
  induction m; intros H; auto. rewrite seq_S, fold_left_app, IHm by lia. cbn [fold_left Nat.add]. apply seq_step; lia.
Qed.
End Seq.

Lemma members_iff part b v : In v (members part b) <-> nth_error part v = Some b.
Proof.
  rewrite members_blk, in_blk, in_seq. split; [tauto|]. intros H. split; auto.
  assert (v < length part) by (apply nth_error_Some; congruence). lia.
Qed.
Lemma members_lt part b v : In v (members part b) -> v < length part.
Proof. intros H. apply members_iff in H. apply nth_error_Some. congruence. Qed.
Lemma members_total part : (forall s, In s part -> s < 2) -> length (members part 0) + length (members part 1) = length part.
Proof.
  intros H. rewrite !members_blk.
  assert (G : forall l, (forall u, In u l -> exists b, nth_error part u = Some b /\ b < 2) ->
     length (blk part l 0) + length (blk part l 1) = length l).
  { induction l as [|u l IH]; intros Hl; auto. destruct (Hl u) as (b & Eb & Hb); [left; auto|].
    specialize (IH ltac:(intros; apply Hl; right; auto)). unfold blk in *. cbn [filter length].
    assert (Hi : forall c, in_block part c u = (b =? c)) by (intros; unfold in_block; now rewrite Eb).
    rewrite !Hi. assert (b = 0 \/ b = 1) as [->| ->] by lia; cbn [Nat.eqb length]; lia. }
  rewrite G, seq_length; auto. intros u Hu. apply in_seq in Hu.
  destruct (nth_error part u) eqn:E; [|apply nth_error_None in E; lia].
  exists n; split; auto. apply H. eapply nth_error_In; eauto.
Qed.

Lemma copy_ok {A} (a : list A) p l : p + length l <= length a -> copy_to a p l = Some (splice a p l).
Proof. intros H. unfold copy_to. destruct (Nat.leb_spec (p + length l) (length a)); auto; lia. Qed.

Theorem extract_seq_ok g part fk0 fk1 npos epos gar garz mem :
  lg_ok g -> length part = length g -> (forall s, In s part -> s < 2) -> 1 <= fk0 -> 1 <= fk1 ->
  fits (lg_is_nw g) (lg_is_ew g) npos (length g + (fk0 + fk1)) epos (lg_m g) mem ->
  let g0 := induced (members part 0) g in
  let g1 := induced (members part 1) g in
  let v0 := View npos (length g0) epos (lg_m g0) (lg_is_nw g) (lg_is_ew g) in
  let v1 := View (npos + length g0 + fk0) (length g1) (epos + lg_m g0) (lg_m g1) (lg_is_nw g) (lg_is_ew g) in
  exists mem', extract_sequential g part fk0 fk1 npos epos gar garz mem = Some (mem', (v0, v1)) /\
    frame npos (length g + (fk0 + fk1)) epos (lg_m g) mem mem' /\
    read_view mem' v0 = Some g0 /\ read_view mem' v1 = Some g1 /\
    lg_m g0 + lg_m g1 <= lg_m g.
Proof.
  intros Hok Hlen Hlab Hf0 Hf1 F g0 g1 v0 v1. set (n := length g) in *.
  destruct (seq_count_ok g part fk0 fk1 npos epos mem Hlen Hlab Hf0 Hf1 F n ltac:(auto)) as (mapping & Ec & Lm & Hmap). cbn beta in Ec, Hmap.
  assert (Emb : forall b, members part b = blk part (seq 0 n) b) by (intros b; rewrite members_blk, Hlen; auto).
  assert (HmapM : forall b v, In v (members part b) -> nth v mapping 0 = index_of v (members part b)).
  { intros b v Hv. rewrite Emb. apply Hmap; [|now apply members_iff]. apply members_lt in Hv. fold n in Hlen; lia. }
  assert (Hcl : lg_closed g (length part)) by (rewrite Hlen; apply lg_ok_closed; auto).
  assert (Hltm : forall b v, In v (members part b) -> v < length g) by (intros b v Hv; fold n; rewrite <- Hlen; eapply members_lt; eauto).
  assert (Em : forall b, lg_m (induced (members part b) g) = list_sum (map (int_deg g part b) (blk part (seq 0 n) b))).
  { intros b. rewrite (induced_m (members part b) g part mapping b Hcl (members_iff part b) (HmapM b) (Hltm b)).
    rewrite Emb, length_concat_sum, map_map. f_equal. apply map_ext. intros; apply grow_length. }
  assert (Tm := D_total g part fk0 fk1 npos epos mem Hlen Hlab Hf0 Hf1 F). cbn beta zeta in Tm. fold n in Tm. rewrite <- !Em in Tm. fold g0 g1 in Tm.
  assert (Tn := members_total part Hlab). rewrite Hlen in Tn. fold n in Tn.
  assert (Lg0 : length g0 = length (members part 0)) by apply induced_length.
  assert (Lg1 : length g1 = length (members part 1)) by apply induced_length.
  unfold extract_sequential. fold n. rewrite Ec. rewrite <- !Em, <- !Emb, <- Lg0, <- Lg1. fold g0 g1.
  cbn [sm_nodes]. set (n1 := length g0 + fk0).
  set (TN := repeat gar (n + (fk0 + fk1) + 1)).
  assert (LTN : length TN = n + (fk0 + fk1) + 1) by apply repeat_length.
  rewrite wr_ok by lia. rewrite wr_ok by (rewrite splice_length; cbn [length]; unfold n1; lia).
  set (TE := repeat gar (lg_m g0 + lg_m g1)).
  set (TW := repeat garz (n + (fk0 + fk1))).
  set (TX := repeat garz (lg_m g0 + lg_m g1)).
  assert (LTE : length TE = lg_m g0 + lg_m g1) by apply repeat_length.
  assert (LTW : length TW = n + (fk0 + fk1)) by apply repeat_length.
  assert (LTX : length TX = lg_m g0 + lg_m g1) by apply repeat_length.
  assert (Hl := seq_loop g part fk0 fk1 npos epos mem Hok Hlen Hlab Hf0 Hf1 F mapping Lm Hmap TN TE TW TX).
  cbn beta zeta in Hl. fold n in Hl.
  assert (Es0 : seq_state g part fk0 mapping TN TE TW TX 0 =
     Tmem (set_nodes (Smem TN TE TW TX) (splice (splice TN 0 [0]) n1 [0])) 0 0).
  { unfold seq_state, two, set_nodes. cbn [seq blk filter map concat sm_edges sm_nw sm_ew length]. fold n.
    assert (Lsp : forall (A : Type) (a : list A) p q, p <= length a -> q <= length a -> splice (splice a p []) q [] = a).
    { intros A a p q Hp Hq. rewrite (splice_nil a p Hp). apply splice_nil; auto. }
    rewrite <- Em. rewrite <- (Emb 0), <- Lg0. fold n1. fold g0.
    rewrite !Lsp by (unfold n1; lia). f_equal. f_equal.
    - destruct (lg_is_nw g); auto.
    - destruct (lg_is_ew g); auto. }
  rewrite Es0 in Hl. rewrite <- !Em, <- Emb, <- Lg0 in Hl. fold g0 in Hl. fold n1 in Hl. fold g1 in Hl.
  specialize (Hl LTN LTE LTW LTX n ltac:(lia)). rewrite Hl. clear Hl Es0.
  (* the temporary arrays *)
  unfold seq_state. cbn [t_mem sm_nodes sm_edges sm_nw sm_ew]. fold n.
  rewrite <- !Em, <- !Emb. fold g0 g1. rewrite <- Lg0. fold n1.
  set (rows0 := map (grow g part mapping 0) (members part 0)).
  set (rows1 := map (grow g part mapping 1) (members part 1)).
  assert (M0 : length (concat rows0) = lg_m g0).
  { unfold rows0, g0. symmetry. exact (induced_m (members part 0) g part mapping 0 Hcl (members_iff part 0) (HmapM 0) (Hltm 0)). }
  assert (M1 : length (concat rows1) = lg_m g1).
  { unfold rows1, g1. symmetry. exact (induced_m (members part 1) g part mapping 1 Hcl (members_iff part 1) (HmapM 1) (Hltm 1)). }
  assert (O0 : length (offsets 0 rows0) = length g0 + 1) by (rewrite offsets_length; unfold rows0; rewrite map_length; lia).
  assert (O1 : length (offsets 0 rows1) = length g1 + 1) by (rewrite offsets_length; unfold rows1; rewrite map_length; lia).
  set (tn := two TN (offsets 0 rows0) n1 (offsets 0 rows1)).
  set (te := two TE (map fst (concat rows0)) (lg_m g0) (map fst (concat rows1))).
  set (tw := two TW (map (lg_weight g) (members part 0)) n1 (map (lg_weight g) (members part 1))).
  set (tx := two TX (map snd (concat rows0)) (lg_m g0) (map snd (concat rows1))).
  assert (Ltn : length tn = n + (fk0 + fk1) + 1) by (unfold tn; rewrite two_length; rewrite ?O0, ?O1; unfold n1; lia).
  assert (Lte : length te = lg_m g0 + lg_m g1) by (unfold te; rewrite two_length; rewrite ?map_length, ?M0, ?M1; lia).
  assert (Ltw : length tw = n + (fk0 + fk1)) by (unfold tw; rewrite two_length; rewrite ?map_length; unfold n1; lia).
  assert (Ltx : length tx = lg_m g0 + lg_m g1) by (unfold tx; rewrite two_length; rewrite ?map_length, ?M0, ?M1; lia).
  destruct F as (F1 & F2 & F3 & F4).
  set (cn := firstn (n + (fk0 + fk1)) tn). set (ce := firstn (lg_m g0 + lg_m g1) te).
  assert (Lcn : length cn = n + (fk0 + fk1)) by (unfold cn; rewrite firstn_length; lia).
  assert (Lce : length ce = lg_m g0 + lg_m g1) by (unfold ce; rewrite firstn_length; lia).
  rewrite copy_ok by lia. rewrite copy_ok by lia.
  assert (Ew : copy_if (lg_is_nw g) (sm_nw mem) npos (firstn (n + (fk0 + fk1)) (if lg_is_nw g then tw else TW)) =
     Some (if lg_is_nw g then splice (sm_nw mem) npos tw else sm_nw mem)).
  { unfold copy_if. destruct (lg_is_nw g); auto. specialize (F3 eq_refl). rewrite firstn_all2 by lia. apply copy_ok. lia. }
  assert (Ex : copy_if (lg_is_ew g) (sm_ew mem) epos (firstn (lg_m g0 + lg_m g1) (if lg_is_ew g then tx else TX)) =
     Some (if lg_is_ew g then splice (sm_ew mem) epos tx else sm_ew mem)).
  { unfold copy_if. destruct (lg_is_ew g); auto. specialize (F4 eq_refl). rewrite firstn_all2 by lia. apply copy_ok. lia. }
  rewrite Ew, Ex. clear Ew Ex.
  replace (npos + n1) with (npos + length g0 + fk0) by (unfold n1; lia). fold v0 v1.
  eexists. split; [reflexivity|].
  match goal with |- context [read_view ?m v0] => set (mem' := m) end.
  assert (Fr : frame npos (n + (fk0 + fk1)) epos (lg_m g) mem mem').
  { split.
    - unfold same_sizes, mem'; cbn [sm_nodes sm_edges sm_nw sm_ew]. rewrite !splice_length by lia.
      repeat split; auto.
      + destruct (lg_is_nw g); auto. specialize (F3 eq_refl). now rewrite splice_length by lia.
      + destruct (lg_is_ew g); auto. specialize (F4 eq_refl). now rewrite splice_length by lia.
    - unfold mem'; cbn [sm_nodes sm_edges sm_nw sm_ew]. split; intros j Hj; split.
      + symmetry; symmetry. apply splice_frame; lia.
      + destruct (lg_is_nw g); auto. specialize (F3 eq_refl). apply splice_frame; lia.
      + apply splice_frame; lia.
      + destruct (lg_is_ew g); auto. specialize (F4 eq_refl). apply splice_frame; lia. }
  split; [exact Fr|].
  destruct Fr as ((Z1 & Z2 & Z3 & Z4) & _).
  (* slices *)
  assert (B0 : block_done g (lg_is_nw g) (lg_is_ew g) part mapping 0 npos epos (members part 0) mem').
  { unfold block_done, mem'; cbn [sm_nodes sm_edges sm_nw sm_ew]. fold rows0. rewrite M0, <- Lg0. repeat split.
    - rewrite slice_splice_in by (rewrite ?Lcn; lia). rewrite Nat.sub_diag. unfold cn. rewrite slice_firstn by lia.
      rewrite <- O0. apply two_slice0; rewrite ?O0, ?O1; unfold n1; lia.
    - rewrite slice_splice_in by (rewrite ?Lce; lia). rewrite Nat.sub_diag. unfold ce. rewrite slice_firstn by lia.
      rewrite <- M0 at 1. rewrite <- (map_length fst (concat rows0)). apply two_slice0; rewrite ?map_length, ?M0, ?M1; lia.
    - intros E; rewrite E. specialize (F3 E). rewrite slice_splice_in by (rewrite ?Ltw; lia). rewrite Nat.sub_diag.
      rewrite Lg0, <- (map_length (lg_weight g) (members part 0)). apply two_slice0; rewrite ?map_length; unfold n1; lia.
    - intros E; rewrite E. specialize (F4 E). rewrite slice_splice_in by (rewrite ?Ltx; lia). rewrite Nat.sub_diag.
      rewrite <- M0 at 1. rewrite <- (map_length snd (concat rows0)). apply two_slice0; rewrite ?map_length, ?M0, ?M1; lia. }
  assert (B1 : block_done g (lg_is_nw g) (lg_is_ew g) part mapping 1 (npos + length g0 + fk0) (epos + lg_m g0) (members part 1) mem').
  { unfold block_done, mem'; cbn [sm_nodes sm_edges sm_nw sm_ew]. fold rows1. rewrite M1, <- Lg1. repeat split.
    - rewrite slice_splice_in by (rewrite ?Lcn; lia). replace (npos + length g0 + fk0 - npos) with n1 by (unfold n1; lia).
      unfold cn. rewrite slice_firstn by (unfold n1; lia).
      rewrite <- O1. apply two_slice1; rewrite ?O0, ?O1; unfold n1; lia.
    - rewrite slice_splice_in by (rewrite ?Lce; lia). replace (epos + lg_m g0 - epos) with (lg_m g0) by lia.
      unfold ce. rewrite slice_firstn by lia.
      rewrite <- M1 at 1. rewrite <- (map_length fst (concat rows1)). apply two_slice1; rewrite ?map_length, ?M0, ?M1; lia.
    - intros E; rewrite E. specialize (F3 E). rewrite slice_splice_in by (rewrite ?Ltw; lia).
      replace (npos + length g0 + fk0 - npos) with n1 by (unfold n1; lia).
      rewrite Lg1, <- (map_length (lg_weight g) (members part 1)). apply two_slice1; rewrite ?map_length; unfold n1; lia.
    - intros E; rewrite E. specialize (F4 E). rewrite slice_splice_in by (rewrite ?Ltx; lia).
      replace (epos + lg_m g0 - epos) with (lg_m g0) by lia.
      rewrite <- M1 at 1. rewrite <- (map_length snd (concat rows1)). apply two_slice1; rewrite ?map_length, ?M0, ?M1; lia. }
  assert (R0 := block_done_read g part mapping 0 npos epos (members part 0) mem' Hok Hlen (members_iff part 0) (HmapM 0)).
  assert (R1 := block_done_read g part mapping 1 (npos + length g0 + fk0) (epos + lg_m g0) (members part 1) mem' Hok Hlen (members_iff part 1) (HmapM 1)).
  fold rows0 in R0. fold rows1 in R1. rewrite M0, <- Lg0 in R0. rewrite M1, <- Lg1 in R1. fold v0 g0 in R0. fold v1 g1 in R1.
  split; [|split; [|lia]].
  - apply R0; auto. right. rewrite Z1, Z2, Z3, Z4 in *. repeat split; try lia; intros Hx; try specialize (F3 Hx); try specialize (F4 Hx); lia.
  - apply R1; auto. right. rewrite Z1, Z2, Z3, Z4 in *. repeat split; try lia; intros Hx; try specialize (F3 Hx); try specialize (F4 Hx); lia.
Qed.
