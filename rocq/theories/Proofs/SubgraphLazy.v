(* The lazy extraction of block-induced subgraphs. *)
From Verif Require Import Lib.Prelude Lib.Slice Spec.Induced Spec.ExtendSpec Spec.Level Model.CsrModel Model.SubgraphModel
  Proofs.SubgraphBase Proofs.SubgraphFill Proofs.SubgraphPar.

Lemma extract_subgraph_spec g part mapping b us mem :
  lg_closed g (length mapping) -> (forall u, In u us -> u < length g) ->
  fits (lg_is_nw g) (lg_is_ew g) 0 (length us + 1) 0 (length (concat (map (grow g part mapping b) us))) mem ->
  exists mem', extract_subgraph g part b us mapping mem =
      Some (mem', View 0 (length us) 0 (length (concat (map (grow g part mapping b) us))) (lg_is_nw g) (lg_is_ew g)) /\
    frame 0 (length us + 1) 0 (length (concat (map (grow g part mapping b) us))) mem mem' /\
    block_done g (lg_is_nw g) (lg_is_ew g) part mapping b 0 0 us mem'.
Proof.
  unfold extract_subgraph. generalize (lg_is_nw g) as nwf, (lg_is_ew g) as ewf. intros nwf ewf.
  intros Hc Hu F. set (rows := map (grow g part mapping b) us) in *.
  assert (F0 := F). destruct F as (F1 & F2 & F3 & F4).
  assert (F' : fits nwf ewf (0 + 0) (length us) (0 + 0) (length (concat rows)) mem).
  { repeat split; try lia; intros Hx; try specialize (F3 Hx); try specialize (F4 Hx); lia. }
  rewrite lazy_loop_spec; auto. cbn [length Nat.add] in *.
  fold rows. cbn [Nat.add].
  destruct (put_rows_len g nwf ewf part mapping b 0 0 0 us mem F') as (L1 & L2 & L3 & L4).
  rewrite wr_ok by (rewrite L1; lia). cbn [option_map].
  eexists; split; [reflexivity|].
  assert (Lo : length (offs0 0 rows) = length us) by (rewrite offs0_length; apply map_length).
  assert (En : splice (sm_nodes (put_rows g nwf ewf part mapping b 0 0 0 us mem)) (0 + length us) [length (concat rows)]
             = splice (sm_nodes mem) 0 (offsets 0 rows)).
  { unfold put_rows. cbn [sm_nodes]. fold rows. rewrite <- Lo at 1. rewrite splice_app by (cbn [length]; lia).
    unfold offsets. now rewrite Nat.add_0_l. }
  cbn [Nat.add] in En. rewrite En. clear En. unfold set_nodes, put_rows in *. cbn [sm_nodes sm_edges sm_nw sm_ew] in *. fold rows in L1, L2, L3, L4 |- *.
  assert (Lf : length (offsets 0 rows) = length us + 1) by (rewrite offsets_length; unfold rows; rewrite map_length; lia).
  assert (Lm : length (map fst (concat rows)) = length (concat rows)) by apply map_length.
  assert (Lm2 : length (map snd (concat rows)) = length (concat rows)) by apply map_length.
  assert (Lw : length (map (lg_weight g) us) = length us) by apply map_length.
  split.
  - split.
    + unfold same_sizes; cbn [sm_nodes sm_edges sm_nw sm_ew]. rewrite L2, L3, L4.
      rewrite splice_length by lia. auto.
    + cbn [sm_nodes sm_edges sm_nw sm_ew]. split; intros j Hj; split.
      * apply splice_frame; lia.
      * destruct nwf; auto. specialize (F3 eq_refl). apply splice_frame; lia.
      * apply splice_frame; lia.
      * destruct ewf; auto. specialize (F4 eq_refl). apply splice_frame; lia.
  - unfold block_done. cbn [sm_nodes sm_edges sm_nw sm_ew]. fold rows. repeat split.
    + rewrite <- Lf. apply slice_splice_same. lia.
    + rewrite <- Lm at 1. apply slice_splice_same. lia.
    + intros ->. specialize (F3 eq_refl). rewrite <- Lw at 1. apply slice_splice_same. lia.
    + intros ->. specialize (F4 eq_refl). rewrite <- Lm2 at 1. apply slice_splice_same. lia.
Qed.

Section Lazy.
Variables (g : lgraph) (part : list nat) (kp : nat) (order garbage : list nat).
Hypothesis Hok : lg_ok g.
Hypothesis Hlen : length part = length g.
Hypothesis Hlab : forall b, In b part -> b < kp.
Hypothesis Hord : Permutation order (seq 0 (length g)).
Let us b := blk part order b.

Theorem lazy_ok : exists mapping offs block_nodes ecnt,
  lazy_preprocess g part kp order garbage = Some (mapping, offs, block_nodes, ecnt) /\
  length mapping = length g /\
  forall b, b < kp ->
    nth (S b) offs 0 = nth b offs 0 + length (us b) /\
    firstn (length (us b)) (skipn (nth b offs 0) block_nodes) = us b /\
    nth b ecnt 0 = lg_m (induced (us b) g) /\
    (forall u, In u (us b) -> nth u mapping 0 = index_of u (us b)) /\
    forall mem, fits (lg_is_nw g) (lg_is_ew g) 0 (length (us b) + 1) 0 (lg_m (induced (us b) g)) mem ->
      exists mem', extract_subgraph g part b (us b) mapping mem =
          Some (mem', View 0 (length (us b)) 0 (lg_m (induced (us b) g)) (lg_is_nw g) (lg_is_ew g)) /\
        frame 0 (length (us b) + 1) 0 (lg_m (induced (us b) g)) mem mem' /\
        read_view mem' (View 0 (length (us b)) 0 (lg_m (induced (us b) g)) (lg_is_nw g) (lg_is_ew g)) = Some (induced (us b) g).
Proof.
  unfold lazy_preprocess. rewrite count_blocks_spec by auto.
  set (cnt := fun b => length (blk part (seq 0 (length g)) b)).
  set (ecnt := fun b => list_sum (map (int_deg g part b) (blk part (seq 0 (length g)) b))).
  set (offs := prefix_sum (0 :: map cnt (seq 0 kp))).
  assert (Hcnt : forall b, cnt b = length (us b)).
  { intros b. unfold cnt, us. apply Permutation_length, blk_perm, Permutation_sym; auto. }
  assert (Hall : forall u, In u (seq 0 (length g)) -> exists b, nth_error part u = Some b /\ b < kp).
  { intros u Hu. apply in_seq in Hu. destruct (nth_error part u) eqn:E.
    - exists n; split; auto. apply Hlab. eapply nth_error_In; eauto.
    - apply nth_error_None in E. lia. }
  assert (Scnt : list_sum (map cnt (seq 0 kp)) = length g).
  { assert (E := sum_blk part kp (fun _ _ => 1) (seq 0 (length g)) Hall).
    assert (E1 : forall (l : list nat), list_sum (map (fun _ => 1) l) = length l).
    { induction l; cbn [map]; auto. rewrite list_sum_cons, IHl; auto. }
    rewrite E1, seq_length in E. rewrite <- E. f_equal. apply map_ext. intros b. now rewrite E1. }
  set (nodes0 := firstn (length g) (garbage ++ repeat 0 (length g))).
  assert (L0 : length nodes0 = length g).
  { unfold nodes0. rewrite firstn_length, app_length, repeat_length. lia. }
  destruct (fill_all part offs kp (length g) Hlen Hlab) with (order := order) (nodes0 := nodes0) as (s & Es & Is).
  { unfold offs. rewrite starts_length. lia. }
  { auto. }
  { intros b b' H1 H2. fold (us b). rewrite <- Hcnt. apply (starts_mono kp cnt b b' H1). lia. }
  { intros b Hb. fold (us b). rewrite <- Hcnt, L0, <- Scnt. apply (starts_end kp cnt b Hb). }
  rewrite Es. destruct s as [[nodes1 idx] mapping]. destruct Is as (L1 & L2 & L3 & I1 & I2 & I3).
  assert (Hmap : forall b v, In v (us b) -> nth v mapping 0 = index_of v (us b)).
  { intros b v Hv. apply in_blk in Hv. apply I3; tauto. }
  assert (Hiff : forall b v, In v (us b) <-> nth_error part v = Some b) .
  { intros b v. unfold us. rewrite in_blk. split; [tauto|]. intros E. split; auto.
    apply (Permutation_in v (Permutation_sym Hord)), in_seq. assert (v < length part) by (apply nth_error_Some; congruence). lia. }
  assert (Hlt : forall b v, In v (us b) -> v < length g).
  { intros b v Hv. apply Hiff in Hv. rewrite <- Hlen. apply nth_error_Some. congruence. }
  assert (Hcl : lg_closed g (length part)) by (rewrite Hlen; apply lg_ok_closed; auto).
  assert (HE : forall b, ecnt b = lg_m (induced (us b) g)).
  { intros b. rewrite (induced_m (us b) g part mapping b Hcl (Hiff b) (Hmap b) (Hlt b)). unfold ecnt. rewrite length_concat_sum, map_map.
    assert (Eg : map (fun x => length (grow g part mapping b x)) (us b) = map (int_deg g part b) (us b)) by (apply map_ext; intros; apply grow_length).
    rewrite Eg.
    apply list_sum_perm, Permutation_map, blk_perm, Permutation_sym; auto. }
  do 4 eexists. split; [reflexivity|]. split; [exact L3|].
  intros b Hb. split; [|split; [|split; [|split]]].
  - rewrite <- Hcnt. apply (starts_S kp cnt b Hb).
  - apply (I2 b Hb).
  - rewrite nth_map_seq by auto. cbn [Nat.add]. apply HE.
  - apply Hmap.
  - intros mem F. assert (Em := induced_m (us b) g part mapping b Hcl (Hiff b) (Hmap b) (Hlt b)).
    rewrite Em in F |- *.
    destruct (extract_subgraph_spec g part mapping b (us b) mem) as (mem' & E1 & Fr & Bd).
    { rewrite L3, <- Hlen. auto. } { apply Hlt. } { exact F. }
    exists mem'. split; [exact E1|]. split; [exact Fr|].
    apply block_done_read; auto. left.
    destruct Fr as ((Z1 & Z2 & Z3 & Z4) & _). destruct F as (F1 & F2 & F3 & F4).
    unfold fits. rewrite <- Z1, <- Z2, <- Z3, <- Z4. auto.
Qed.
End Lazy.
