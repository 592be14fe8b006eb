(* One extension of a partition: every schedule yields the labels of recursive bipartitioning. *)
From Verif Require Import Lib.Prelude Lib.Slice Spec.Induced Spec.ExtendSpec Spec.Level Model.MathModel Model.PartUtilsModel Model.CsrModel Model.SubgraphModel Model.ExtendModel
  Proofs.CsrProofs Proofs.PartUtilsProofs Proofs.SubgraphBase Proofs.SubgraphFill Proofs.FinalK Proofs.SubgraphPar Proofs.SubgraphSeq Proofs.SubgraphLazy
  Proofs.ExtendBase Proofs.ExtendRec.

Lemma listing_blk part order b : listing part order b = blk part order b.
Proof. unfold listing, blk. apply filter_ext. intros u. now rewrite in_block_nth. Qed.

Lemma relabel_all n r : forall L, length L = n -> relabel (repeat r n) r L = map (Nat.add r) L.
Proof. induction n as [|n IH]; intros [|x L] H; try discriminate; auto. cbn [repeat relabel map]. rewrite Nat.eqb_refl. cbn [hd tl]. rewrite IH by (cbn in H; lia). auto. Qed.
Lemma cnt_repeat r n : cnt r (repeat r n) = n.
Proof. induction n; auto. cbn [repeat]. rewrite cnt_cons, Nat.eqb_refl. lia. Qed.

Lemma firstn_seq s n b : b <= n -> firstn b (seq s n) = seq s b.
Proof. revert s n. induction b as [|b IH]; intros s n H; auto. destruct n; [lia|]. cbn [seq firstn]. rewrite IH by lia. auto. Qed.
Lemma nth_error_seq0 n i : i < n -> nth_error (seq 0 n) i = Some i.
Proof. intros H. rewrite (nth_error_nth' _ 0) by (now rewrite seq_length). now rewrite seq_nth. Qed.

Lemma upd_self {A} (x : A) : forall l b, nth_error l b = Some x -> upd b x l = l.
Proof.
  intros l b H. assert (Hb : b < length l) by (apply nth_error_Some; congruence).
  apply (list_ext x); [apply upd_length|]. intros i Hi. destruct (Nat.eq_dec i b) as [->|Hn].
  - rewrite upd_nth_same by auto. symmetry. now apply nth_error_nth.
  - apply upd_nth_other; auto.
Qed.

Section Step.
Variables (ub : N) (g : lgraph) (k : nat) (c : choice) (part : list nat) (l desired : nat).
Let kp := 2 ^ l.
Hypothesis Hok : lg_ok g.
Hypothesis Hlen : length part = length g.
Hypothesis Hlab : forall b, In b part -> b < kp.
Hypothesis Hk31 : (N.of_nat k < 2 ^ 31)%N.
Hypothesis Hkd : kp <= desired.
Hypothesis Hd : level_ok desired k.
Hypothesis Hbip : bipartitioner (c_bip c).
Hypothesis Hord : Permutation (c_order c) (seq 0 (length g)).
Hypothesis Hrec : Permutation (c_rec c) (seq 0 kp).
Let us b := listing part (c_order c) b.

Lemma kp_level : level_ok kp k.
Proof. destruct Hd as (H1 & H2 & _). split; [apply pow2_pos|]. split; [lia|]. left. exists l. auto. Qed.

Definition nums (fks : list nat) (b : nat) : nat := if desired =? k then nth b fks 0 else desired / kp.

Lemma step_nums : exists fks, all_some (map (fun b => final_k ub b kp k) (seq 0 kp)) = Some fks /\ length fks = kp /\
  list_sum (map (nums fks) (seq 0 kp)) = desired /\
  forall b, b < kp -> final_k ub b kp k = Some (nth b fks 0) /\ sub_k ub b kp desired k = Some (nums fks b) /\ 1 <= nums fks b /\ 
    tree_pos ub l k b (nums fks b) (nth b fks 0).
Proof.
  destruct (final_ks_ok ub kp k kp_level Hk31) as (fks & E & L & S & H). exists fks. split; auto. split; auto.
  assert (Hj : desired <> k -> exists j, desired = kp * 2 ^ j).
  { intros Hn. destruct Hd as (_ & _ & [[l' ->]|]); [|easy].
    assert (l <= l') by (apply (Nat.pow_le_mono_r_iff 2); lia). exists (l' - l). unfold kp. rewrite <- Nat.pow_add_r. f_equal. lia. }
  assert (Pk : 1 <= kp) by apply pow2_pos.
  split.
  - unfold nums. destruct (Nat.eqb_spec desired k) as [->|Hn].
    + rewrite <- L at 1. now rewrite map_nth_seq.
    + destruct (Hj Hn) as (j & ->). rewrite Nat.mul_comm, Nat.div_mul by lia.
      assert (G : forall s n x, list_sum (map (fun _ => x) (seq s n)) = x * n).
      { intros s n x. revert s. induction n; intros s; cbn [seq map]; [cbn; lia|]. rewrite list_sum_cons, IHn. lia. }
      apply G.
  - intros b Hb. destruct (H b Hb) as [Hf H1]. split; auto. unfold sub_k. rewrite Hf. split; [reflexivity|].
    assert (1 <= nums fks b).
    { unfold nums. destruct (desired =? k); auto. apply Nat.div_le_lower_bound; lia. }
    split; auto. destruct Hd as (D1 & D2 & _). repeat split; auto; [unfold kp in *; lia|].
    unfold nums. destruct (Nat.eqb_spec desired k) as [->|Hn]; auto. right. destruct (Hj Hn) as (j & ->).
    exists j. rewrite Nat.mul_comm, Nat.div_mul by lia. split; auto. rewrite Nat.pow_add_r. fold kp. lia.
Qed.

Lemma us_iff' b v : In v (us b) <-> nth_error part v = Some b.
Proof.
  unfold us. rewrite listing_blk, in_blk. split; [tauto|]. intros E. split; auto.
  apply (Permutation_in v (Permutation_sym Hord)), in_seq. assert (v < length part) by (apply nth_error_Some; congruence). lia.
Qed.
Lemma us_lt b v : In v (us b) -> v < length g.
Proof. intros H. apply us_iff' in H. rewrite <- Hlen. apply nth_error_Some. congruence. Qed.
Lemma part_at u : u < length g -> exists b, nth_error part u = Some b /\ nth u part 0 = b /\ b < kp.
Proof.
  intros Hu. destruct (nth_error part u) as [b|] eqn:E.
  - exists b. split; auto. split; [now apply nth_error_nth|]. apply Hlab. eapply nth_error_In; eauto.
  - apply nth_error_None in E. lia.
Qed.

Section Nums.
Variable fks : list nat.
Hypothesis Efk : all_some (map (fun b => final_k ub b kp k) (seq 0 kp)) = Some fks.
Hypothesis Lfk : length fks = kp.
Hypothesis Snum : list_sum (map (nums fks) (seq 0 kp)) = desired.
Hypothesis Hnum : forall b, b < kp -> final_k ub b kp k = Some (nth b fks 0) /\ sub_k ub b kp desired k = Some (nums fks b) /\ 1 <= nums fks b /\ 
    tree_pos ub l k b (nums fks b) (nth b fks 0).
Let S_ b := rb_labels (nums fks b) (c_bip c) (induced (us b) g) b kp (nums fks b).

Lemma S_length b : length (S_ b) = length (us b).
Proof. unfold S_. rewrite rb_length by auto. apply induced_length. Qed.

Lemma offsets_ok : block_offsets ub kp desired k = Some (prefix_sum (0 :: map (nums fks) (seq 0 kp))).
Proof.
  unfold block_offsets. rewrite Efk. do 3 f_equal. unfold nums. destruct (desired =? k).
  - rewrite <- Lfk. now rewrite map_nth_seq.
  - clear. generalize (desired / kp) as x, 0 as s. induction kp; intros x s; cbn [repeat seq map]; auto. f_equal. auto.
Qed.

Lemma copy_partitions_ok mapping : length mapping = length g -> (forall b u, b < kp -> In u (us b) -> nth u mapping 0 = index_of u (us b)) ->
  copy_subgraph_partitions part mapping (prefix_sum (0 :: map (nums fks) (seq 0 kp))) (map S_ (seq 0 kp)) =
  Some (map (extended_label (c_bip c) g part (c_order c) kp (nums fks)) (seq 0 (length g))).
Proof.
  intros Lm Hm. unfold copy_subgraph_partitions. rewrite Hlen.
  assert (G : forall (f : nat -> option nat) h n, (forall u, u < n -> f u = Some (h u)) -> all_some (map f (seq 0 n)) = Some (map h (seq 0 n))).
  { intros f h n H.
    assert (H' : forall u, In u (seq 0 n) -> f u = Some (h u)) by (intros u Hu; apply H; apply in_seq in Hu; lia). clear H.
    revert H'. generalize (seq 0 n) as q. induction q as [|x q IH]; intros H'; auto. cbn. rewrite H' by (left; auto).
    rewrite IH by (intros; apply H'; right; auto). auto. }
  apply G. intros u Hu. destruct (part_at u Hu) as (b & Eb & Eb' & Hb). rewrite Eb.
  assert (Hin : In u (us b)) by (apply us_iff'; auto).
  assert (Em : nth_error mapping u = Some (index_of u (us b))).
  { rewrite <- (Hm b u Hb Hin). apply nth_error_nth'. lia. }
  rewrite Em.
  assert (Eo : nth_error (prefix_sum (0 :: map (nums fks) (seq 0 kp))) b = Some (list_sum (map (nums fks) (seq 0 b)))).
  { rewrite (nth_error_nth' _ 0) by (rewrite starts_length; lia). f_equal. rewrite starts_nth by lia. f_equal.
    rewrite firstn_map. f_equal. apply firstn_seq. lia. }
  rewrite Eo. rewrite nth_error_map, nth_error_seq0 by auto. cbn [option_map].
  rewrite (nth_error_nth' _ 0). 2:{ rewrite S_length. apply index_of_in; auto. }
  cbn [option_map]. unfold extended_label. rewrite Eb'. fold (us b). reflexivity.
Qed.

(** The loop over the blocks, for an arbitrary body that turns block b's zero labels into S_ b and
    preserves an invariant. *)
Lemma block_loop {M} (body : option (M * list (list nat)) -> nat -> option (M * list (list nat))) (I : list nat -> M -> Prop) (m0 : M) :
  I (c_rec c) m0 ->
  (forall rest b m subs, I (b :: rest) m -> NoDup (b :: rest) -> (forall x, In x (b :: rest) -> x < kp) -> length subs = kp ->
     nth_error subs b = Some (repeat 0 (length (us b))) ->
     exists m', body (Some (m, subs)) b = Some (m', upd b (S_ b) subs) /\ I rest m') ->
  exists m', fold_left body (c_rec c) (Some (m0, map (fun b => repeat 0 (length (us b))) (seq 0 kp))) =
    Some (m', map S_ (seq 0 kp)) /\ I [] m'.
Proof.
  intros HI Hbody.
  assert (G : forall rest done m subs, Permutation (done ++ rest) (seq 0 kp) -> I rest m -> length subs = kp ->
     (forall b, b < kp -> nth_error subs b = Some (if in_dec Nat.eq_dec b done then S_ b else repeat 0 (length (us b)))) ->
     exists m' subs', fold_left body rest (Some (m, subs)) = Some (m', subs') /\ I [] m' /\ length subs' = kp /\
       forall b, b < kp -> nth_error subs' b = Some (S_ b)).
  { induction rest as [|b rest IH]; intros done m subs Hp Im L H.
    - exists m, subs. rewrite app_nil_r in Hp. repeat split; auto. intros b Hb. rewrite H by auto.
      destruct (in_dec Nat.eq_dec b done) as [|Hn]; auto. exfalso. apply Hn.
      apply (Permutation_in b (Permutation_sym Hp)), in_seq. lia.
    - assert (Hnd : NoDup (done ++ b :: rest)) by (eapply Permutation_NoDup; [apply Permutation_sym; exact Hp|apply seq_NoDup]).
      assert (Hlt : forall x, In x (b :: rest) -> x < kp).
      { intros x Hx. assert (In x (seq 0 kp)) by (eapply Permutation_in; [exact Hp|apply in_or_app; auto]). apply in_seq in H0; lia. }
      assert (Hnb : ~ In b done).
      { apply NoDup_remove_2 in Hnd. intros Hb. apply Hnd, in_or_app. auto. }
      destruct (Hbody rest b m subs Im) as (m' & E & Im').
      { clear - Hnd. induction done; auto. apply IHdone. now inversion Hnd. } { exact Hlt. } { exact L. }
      { rewrite H by (apply Hlt; left; auto). destruct (in_dec Nat.eq_dec b done); [easy|auto]. }
      cbn [fold_left]. rewrite E. apply (IH (done ++ [b])).
      + now rewrite <- app_assoc.
      + exact Im'.
      + now rewrite upd_length.
      + intros x Hx. rewrite (nth_error_nth' _ []) by (rewrite upd_length; lia). f_equal.
        destruct (Nat.eq_dec x b) as [->|Hxb].
        * rewrite upd_nth_same by lia. destruct (in_dec Nat.eq_dec b (done ++ [b])) as [|Hn]; auto.
          exfalso. apply Hn, in_or_app. right; left; auto.
        * rewrite upd_nth_other by auto. assert (E1 := H x Hx). apply nth_error_nth with (d := []) in E1. rewrite E1.
          destruct (in_dec Nat.eq_dec x done) as [Hi|Hi]; destruct (in_dec Nat.eq_dec x (done ++ [b])) as [Hj|Hj]; auto.
          -- exfalso. apply Hj, in_or_app; auto.
          -- exfalso. apply in_app_or in Hj. destruct Hj as [|[|[]]]; auto. }
  destruct (G (c_rec c) [] m0 (map (fun b => repeat 0 (length (us b))) (seq 0 kp))) as (m' & subs' & E & Im & L & H); auto.
  { now rewrite map_length, seq_length. }
  { intros b Hb. rewrite nth_error_map, nth_error_seq0 by auto. auto. }
  exists m'. split; auto. rewrite E. do 2 f_equal.
  apply nth_error_ext. intros i. destruct (Nat.lt_ge_cases i kp) as [Hi|Hi].
  - rewrite H by auto. rewrite nth_error_map, nth_error_seq0 by auto. auto.
  - rewrite (proj2 (nth_error_None subs' i)) by lia. symmetry. apply nth_error_None. rewrite map_length, seq_length. lia.
Qed.

(** The recursion on one block. *)
Lemma one_block gar garz b mem v npos epos : b < kp -> 1 < nums fks b -> read_view mem v = Some (induced (us b) g) ->
  fits (lg_is_nw g) (lg_is_ew g) npos (length (us b) + nth b fks 0) epos (lg_m (induced (us b) g)) mem ->
  exists mem', ext_rec (nums fks b) ub (c_bip c) k gar garz mem v (repeat 0 (length (us b))) 0 b (nums fks b) kp npos epos = Some (mem', S_ b) /\
    frame npos (length (us b) + nth b fks 0) epos (lg_m (induced (us b) g)) mem mem'.
Proof.
  intros Hb Hn R F. destruct (Hnum b Hb) as (_ & _ & _ & T).
  destruct (ext_rec_ok ub (c_bip c) k gar garz Hbip (nums fks b) (nums fks b) l b (nth b fks 0) (induced (us b) g) mem v (repeat 0 (length (us b))) 0 npos epos) as (mem' & E & Fr); auto.
  { apply induced_ok; auto. apply us_lt. }
  { rewrite induced_length. eapply fits_sub; [exact F| | |lia|lia]; [apply induced_nw|apply induced_ew]; auto; apply us_lt. }
  { rewrite cnt_repeat, induced_length. auto. }
  { intros x Hx. apply repeat_spec in Hx. lia. }
  rewrite induced_length in Fr. exists mem'. split; auto. fold kp in E. rewrite E. do 2 f_equal.
  rewrite relabel_all by (rewrite rb_length, induced_length; auto).
  fold (S_ b). rewrite <- (map_id (S_ b)) at 2. apply map_ext. auto.
Qed.
End Nums.

Theorem extend_step_ok mem : Permutation (c_build c) (seq 0 kp) -> mem_fits g k mem ->
  exists mem' fks, extend_step ub g k c mem part kp desired =
      Some (mem', map (extended_label (c_bip c) g part (c_order c) kp (nums fks)) (seq 0 (length g))) /\
    same_sizes mem mem' /\ list_sum (map (nums fks) (seq 0 kp)) = desired /\
    (forall b, b < kp -> final_k ub b kp k = Some (nth b fks 0) /\ 1 <= nums fks b).
Proof.
  intros Hbuild Hfits. destruct step_nums as (fks & Efk & Lfk & Snum & Hnum).
  destruct (extract_ok ub g part kp k (c_order c) (c_build c) mem) as (mem1 & mapping & views & nst & est & E & Z & Lv & Lm & N0 & Nk & E0 & Ek & Ln & Le & H); auto.
  { exact kp_level. }
  assert (Hus : forall b, blk part (c_order c) b = us b) by (intros; symmetry; apply listing_blk).
  assert (H' : forall b, b < kp ->
     read_view mem1 (nth b views (View 0 0 0 0 false false)) = Some (induced (us b) g) /\
     (forall u, In u (us b) -> nth u mapping 0 = index_of u (us b)) /\
     nth b views (View 0 0 0 0 false false) = View (nth b nst 0) (length (us b)) (nth b est 0) (lg_m (induced (us b) g)) (lg_is_nw g) (lg_is_ew g) /\
     nth (S b) nst 0 = nth b nst 0 + length (us b) + nth b fks 0 /\ nth (S b) est 0 = nth b est 0 + lg_m (induced (us b) g)).
  { intros b Hb. destruct (H b Hb) as (A1 & A2 & fk & A3 & A4 & A5 & A6 & A7). rewrite Hus in *.
    destruct (Hnum b Hb) as (B1 & _). assert (fk = nth b fks 0) by congruence. subst fk. auto. }
  clear H.
  assert (Mono : forall b, b <= kp -> nth b nst 0 <= nth kp nst 0 /\ nth b est 0 <= nth kp est 0).
  { assert (M : forall d b, b + d <= kp -> nth b nst 0 <= nth (b + d) nst 0 /\ nth b est 0 <= nth (b + d) est 0).
    { induction d; intros b Hb; [rewrite Nat.add_0_r; auto|]. destruct (IHd b ltac:(lia)).
      destruct (H' (b + d) ltac:(lia)) as (_ & _ & _ & A6 & A7). rewrite Nat.add_succ_r. lia. }
    intros b Hb. replace kp with (b + (kp - b)) by lia. apply M. lia. }
  assert (Mono2 : forall b b', b < b' -> b' < kp -> nth (S b) nst 0 <= nth b' nst 0 /\ nth (S b) est 0 <= nth b' est 0).
  { assert (M : forall d b, S b + d < kp -> nth (S b) nst 0 <= nth (S b + d) nst 0 /\ nth (S b) est 0 <= nth (S b + d) est 0).
    { induction d; intros b Hb; [rewrite Nat.add_0_r; auto|]. destruct (IHd b ltac:(lia)).
      destruct (H' (S b + d) ltac:(lia)) as (_ & _ & _ & A6 & A7). rewrite Nat.add_succ_r. lia. }
    intros b b' H1 H2. replace b' with (S b + (b' - S b)) by lia. apply M. lia. }
  set (I := fun (rest : list nat) (m : smem) => same_sizes mem m /\
     forall b, In b rest -> b < kp -> read_view m (nth b views (View 0 0 0 0 false false)) = Some (induced (us b) g)).
  destruct (block_loop fks Lfk Snum Hnum (extend_block ub (c_bip c) kp desired k (c_gar c) (c_garz c) views nst est) I mem1) as (mem2 & Ef & (Z2 & _)).
  { split; auto. intros b _ Hb. apply H'; auto. }
  { intros rest b m subs (Zm & Im) Hnd Hlt Ls Eb. assert (Hb : b < kp) by (apply Hlt; left; auto).
    destruct (Hnum b Hb) as (B1 & B2 & B3 & T). destruct (H' b Hb) as (A1 & A2 & A3 & A4 & A5).
    unfold extend_block. rewrite B2, Eb. rewrite (nth_error_nth' views (View 0 0 0 0 false false)) by lia.
    destruct (Nat.ltb_spec 1 (nums fks b)) as [Hn|Hn].
    - destruct (one_block fks Lfk Snum Hnum (c_gar c) (c_garz c) b m (nth b views (View 0 0 0 0 false false)) (nth b nst 0) (nth b est 0)) as (m' & Er & Fr); auto.
      { apply Im; auto. left; auto. }
      { destruct (Mono (S b) ltac:(lia)). destruct Hfits as (F1 & F2 & F3 & F4). apply (fits_sizes _ _ _ _ _ _ mem m Zm).
        unfold fits; repeat split; try lia; intros Hx; try specialize (F3 Hx); try specialize (F4 Hx); lia. }
      rewrite Er. exists m'. split; auto. split.
      + destruct Fr as ((C1 & C2 & C3 & C4) & _). destruct Zm as (D1 & D2 & D3 & D4). unfold same_sizes. repeat split; congruence.
      + intros b' Hb' Hlt'. rewrite (read_view_frame _ _ _ _ _ _ _ Fr).
        * apply Im; auto. right; auto.
        * destruct (H' b' Hlt') as (_ & _ & E3 & E4 & E5). rewrite E3. cbn [v_ns v_n].
          destruct (Hnum b' Hlt') as (_ & _ & _ & (G1 & G2 & G3 & G4 & _)).
          destruct (final_k_bounds ub l k b' (nth b' fks 0) G1 G2 G3 G4) as [_ G5].
          assert (b' <> b) by (intros ->; inversion Hnd; auto).
          destruct (Nat.lt_ge_cases b b'); [destruct (Mono2 b b'); auto; lia|].
          destruct (Mono2 b' b); auto; lia.
        * destruct (H' b' Hlt') as (_ & _ & E3 & E4 & E5). rewrite E3. cbn [v_es v_m].
          assert (b' <> b) by (intros ->; inversion Hnd; auto).
          destruct (Nat.lt_ge_cases b b'); [destruct (Mono2 b b'); auto; lia|].
          destruct (Mono2 b' b); auto; lia.
    - exists m. split.
      + do 2 f_equal.
        replace (rb_labels (nums fks b) (c_bip c) (induced (us b) g) b kp (nums fks b)) with (repeat 0 (length (us b))).
        * symmetry. apply upd_self; auto.
        * assert (nums fks b = 1) by lia. rewrite H. cbn [rb_labels Nat.leb]. now rewrite induced_length.
      + split; auto. intros b' Hb'. apply Im. right; auto. }
  exists mem2, fks. split; [|split; [exact Z2|split; [exact Snum|]]].
  2:{ intros b Hb. destruct (Hnum b Hb) as (B1 & B2 & B3 & _). auto. }
  unfold extend_step. rewrite E.
  assert (Ev : map (fun v => repeat 0 (v_n v)) views = map (fun b => repeat 0 (length (us b))) (seq 0 kp)).
  { rewrite <- (map_nth_seq (View 0 0 0 0 false false) views), map_map, Lv. apply map_ext_in. intros b Hb. apply in_seq in Hb.
    destruct (H' b ltac:(lia)) as (_ & _ & A3 & _). rewrite A3. auto. }
  rewrite Ev. rewrite Ef. rewrite (offsets_ok fks Efk Lfk).
  rewrite (copy_partitions_ok fks Lfk Snum Hnum mapping Lm); auto. intros b u Hb Hu. destruct (H' b Hb) as (_ & A2 & _). auto.
Qed.

(** Lazy extraction, if no thread-local weight array is smaller than the corresponding array. *)
Lemma lazy_ensure_ok nwf ewf nn mm mem : lazy_mem_ok nwf ewf mem ->
  lazy_mem_ok nwf ewf (lazy_ensure nwf ewf nn mm mem) /\ fits nwf ewf 0 nn 0 mm (lazy_ensure nwf ewf nn mm mem).
Proof.
  intros (H1 & H2). unfold lazy_ensure, lazy_mem_ok, fits. cbn [sm_nodes sm_edges sm_nw sm_ew].
  destruct (Nat.ltb_spec (length (sm_nodes mem)) nn); destruct (Nat.ltb_spec (length (sm_edges mem)) mm); destruct nwf, ewf;
    cbn [andb]; rewrite ?repeat_length; repeat split; intros; try discriminate; try lia; specialize (H1 eq_refl) || specialize (H2 eq_refl); lia.
Qed.

Lemma lazy_mem_ok_sizes nwf ewf a b : same_sizes a b -> lazy_mem_ok nwf ewf a -> lazy_mem_ok nwf ewf b.
Proof. intros (Z1 & Z2 & Z3 & Z4). unfold lazy_mem_ok. rewrite Z1, Z2, Z3, Z4. auto. Qed.

Theorem extend_lazy_ok tid mems : (forall b, b < kp -> tid b < length mems) ->
  (forall m, In m mems -> lazy_mem_ok (lg_is_nw g) (lg_is_ew g) m) ->
  exists mems' fks, extend_lazy_step ub g k c tid mems part kp desired =
      Some (mems', map (extended_label (c_bip c) g part (c_order c) kp (nums fks)) (seq 0 (length g))) /\
    length mems' = length mems /\ (forall m, In m mems' -> lazy_mem_ok (lg_is_nw g) (lg_is_ew g) m) /\
    list_sum (map (nums fks) (seq 0 kp)) = desired /\
    (forall b, b < kp -> final_k ub b kp k = Some (nth b fks 0) /\ 1 <= nums fks b).
Proof.
  intros Htid Hmems. destruct step_nums as (fks & Efk & Lfk & Snum & Hnum).
  destruct (lazy_ok g part kp (c_order c) [] Hok Hlen Hlab Hord) as (mapping & offs & bn & ecnt & E & Lm & H').
  assert (Hus : forall b, blk part (c_order c) b = us b) by (intros; symmetry; apply listing_blk).
  assert (H : forall b, b < kp ->
    nth (S b) offs 0 = nth b offs 0 + length (us b) /\
    firstn (length (us b)) (skipn (nth b offs 0) bn) = us b /\
    nth b ecnt 0 = lg_m (induced (us b) g) /\
    (forall u, In u (us b) -> nth u mapping 0 = index_of u (us b)) /\
    forall mem, fits (lg_is_nw g) (lg_is_ew g) 0 (length (us b) + 1) 0 (lg_m (induced (us b) g)) mem ->
      exists mem', extract_subgraph g part b (us b) mapping mem =
          Some (mem', View 0 (length (us b)) 0 (lg_m (induced (us b) g)) (lg_is_nw g) (lg_is_ew g)) /\
        frame 0 (length (us b) + 1) 0 (lg_m (induced (us b) g)) mem mem' /\
        read_view mem' (View 0 (length (us b)) 0 (lg_m (induced (us b) g)) (lg_is_nw g) (lg_is_ew g)) = Some (induced (us b) g)).
  { intros b Hb. assert (A := H' b Hb). cbn beta zeta in A. rewrite !Hus in A. exact A. }
  clear H'.
  set (I := fun (rest : list nat) (ms : list smem) => length ms = length mems /\ forall m, In m ms -> lazy_mem_ok (lg_is_nw g) (lg_is_ew g) m).
  destruct (block_loop fks Lfk Snum Hnum (lazy_step ub g part (c_bip c) kp desired k (c_gar c) (c_garz c) mapping offs bn ecnt tid) I mems) as (mems' & Ef & (Z2 & Z3)).
  { split; auto. }
  { intros rest b ms subs (Lms & Hms) Hnd Hlt Ls Eb. assert (Hb : b < kp) by (apply Hlt; left; auto).
    destruct (Hnum b Hb) as (B1 & B2 & B3 & T). destruct (H b Hb) as (A1 & A2 & A3 & A4 & A5).
    unfold lazy_step. destruct (nth_error ms (tid b)) as [mem|] eqn:Em.
    2:{ apply nth_error_None in Em. specialize (Htid b Hb). lia. }
    rewrite Eb. unfold lazy_block. rewrite B1, B2.
    assert (Hmo : lazy_mem_ok (lg_is_nw g) (lg_is_ew g) mem) by (apply Hms; eapply nth_error_In; eauto).
    assert (Hin : forall (x m : smem) i l, In m (upd i x l) -> m = x \/ In m l).
    { intros x m i q. revert i. induction q as [|y q IH]; intros [|i] Hm; cbn in *; auto; destruct Hm as [->|Hm]; auto.
      destruct (IH _ Hm); auto. }
    destruct (Nat.leb_spec (nums fks b) 1) as [Hn|Hn].
    - exists (upd (tid b) mem ms). split.
      + do 2 f_equal. f_equal. assert (nums fks b = 1) by lia. rewrite H0. cbn [rb_labels Nat.leb]. now rewrite induced_length.
      + split; [rewrite upd_length; auto|]. intros m Hm. apply Hin in Hm. destruct Hm as [->|]; auto.
    - replace (nth (S b) offs 0 - nth b offs 0) with (length (us b)) by lia. rewrite A2, A3.
      destruct (lazy_ensure_ok (lg_is_nw g) (lg_is_ew g) (length (us b) + nth b fks 0) (lg_m (induced (us b) g)) mem Hmo) as (M1 & F1).
      set (mem1 := lazy_ensure _ _ _ _ mem) in *.
      assert (Hf1 : 1 <= nth b fks 0) by (apply tree_pos_le in T; lia).
      destruct (A5 mem1) as (mem2 & E2 & Fr2 & R2).
      { eapply fits_sub; [exact F1|auto|auto|lia|lia]. }
      rewrite E2.
      destruct (one_block fks Lfk Snum Hnum (c_gar c) (c_garz c) b mem2 (View 0 (length (us b)) 0 (lg_m (induced (us b) g)) (lg_is_nw g) (lg_is_ew g)) 0 0) as (mem3 & Er & Fr3); auto.
      { eapply fits_sizes; [exact (proj1 Fr2)|exact F1]. }
      rewrite Er. eexists. split; [reflexivity|]. split; [rewrite upd_length; auto|].
      intros m Hm. apply Hin in Hm. destruct Hm as [->|]; auto.
      eapply lazy_mem_ok_sizes; [exact (proj1 Fr3)|]. eapply lazy_mem_ok_sizes; [exact (proj1 Fr2)|exact M1]. }
  exists mems', fks. split; [|split; [exact Z2|split; [exact Z3|split; [exact Snum|]]]].
  2:{ intros b Hb. destruct (Hnum b Hb) as (B1 & B2 & B3 & _). auto. }
  unfold extend_lazy_step. rewrite E.
  assert (Ev : map (fun b => repeat 0 (nth (S b) offs 0 - nth b offs 0)) (seq 0 kp) = map (fun b => repeat 0 (length (us b))) (seq 0 kp)).
  { apply map_ext_in. intros b Hb. apply in_seq in Hb. destruct (H b ltac:(lia)) as (A1 & _). f_equal. lia. }
  rewrite Ev, Ef. rewrite (offsets_ok fks Efk Lfk).
  rewrite (copy_partitions_ok fks Lfk Snum Hnum mapping Lm); auto. intros b u Hb Hu. destruct (H b Hb) as (_ & _ & _ & A4 & _). auto.
Qed.
End Step.
