(* Bucket filling by fetch-add in any order, block counts, and block-induced rows. *)
From Verif Require Import Lib.Prelude Lib.Slice Spec.Induced Spec.ExtendSpec Model.CsrModel Model.SubgraphModel Proofs.CsrProofs Proofs.SubgraphBase.

Definition blk (part l : list nat) (b : nat) : list nat := filter (in_block part b) l.

Lemma in_block_nth part b u : in_block part b u = (nth u part (S b) =? b).
Proof.
  unfold in_block. destruct (nth_error part u) eqn:E.
  - now rewrite (nth_error_nth _ _ _ E).
  - apply nth_error_None in E. rewrite nth_overflow by auto. symmetry. apply Nat.eqb_neq; lia.
Qed.
Lemma in_block_iff part b u : in_block part b u = true <-> nth_error part u = Some b.
Proof.
  unfold in_block. destruct (nth_error part u); split; intros H; try discriminate.
  - apply Nat.eqb_eq in H; congruence.
  - injection H as ->. apply Nat.eqb_refl.
Qed.
Lemma members_blk part b : members part b = blk part (seq 0 (length part)) b.
Proof. unfold members, blk. apply filter_ext. intros; symmetry; apply in_block_nth. Qed.
Lemma blk_app part l1 l2 b : blk part (l1 ++ l2) b = blk part l1 b ++ blk part l2 b.
Proof. apply filter_app. Qed.
Lemma blk_perm part l1 l2 b : Permutation l1 l2 -> Permutation (blk part l1 b) (blk part l2 b).
Proof.
  unfold blk. induction 1; cbn; auto.
  - destruct (in_block part b x); auto.
  - destruct (in_block part b x), (in_block part b y); auto. apply perm_swap.
  - eapply perm_trans; eauto.
Qed.
Lemma in_blk part l b u : In u (blk part l b) <-> In u l /\ nth_error part u = Some b.
Proof. unfold blk. rewrite filter_In, in_block_iff. tauto. Qed.

(** ** index_of *)
Lemma index_of_in u l : In u l -> index_of u l < length l /\ nth (index_of u l) l 0 = u.
Proof.
  induction l as [|x l IH]; intros H; [easy|]. cbn. destruct (Nat.eqb_spec x u); subst.
  - split; auto; lia.
  - destruct H as [->|H]; [easy|]. destruct (IH H). split; auto; lia.
Qed.
Lemma index_of_app_in u l1 l2 : In u l1 -> index_of u (l1 ++ l2) = index_of u l1.
Proof.
  induction l1 as [|x l IH]; intros H; [easy|]. cbn. destruct (Nat.eqb_spec x u); auto.
  destruct H as [->|H]; [easy|]. rewrite IH; auto.
Qed.
Lemma index_of_snoc u l : ~ In u l -> index_of u (l ++ [u]) = length l.
Proof.
  induction l as [|x l IH]; intros H; cbn.
  - now rewrite Nat.eqb_refl.
  - destruct (Nat.eqb_spec x u). { subst; exfalso; apply H; left; auto. }
    rewrite IH; auto. intros Hi; apply H; right; auto.
Qed.
Lemma index_of_inj u v l : In u l -> In v l -> index_of u l = index_of v l -> u = v.
Proof.
  intros Hu Hv E. destruct (index_of_in u l Hu) as [_ A]. destruct (index_of_in v l Hv) as [_ B]. congruence.
Qed.
Lemma memb_iff u l : memb u l = true <-> In u l.
Proof.
  unfold memb. rewrite existsb_exists. split.
  - intros (x & Hx & E). apply Nat.eqb_eq in E. now subst.
  - intros H. exists u. split; auto. apply Nat.eqb_refl.
Qed.

(** ** Filling *)
Section Fill.
Variables (part starts : list nat) (k n : nat).
Hypothesis Hlen : length part = n.
Hypothesis Hlab : forall b, In b part -> b < k.
Hypothesis Hstarts : k <= length starts.
Variable order : list nat.
Hypothesis Hord : Permutation order (seq 0 n).
Variable nodes0 : list nat.
Let N b := length (blk part order b).
Let st b := nth b starts 0.
Hypothesis Hdisj : forall b b', b < b' -> b' < k -> st b + N b <= st b'.
Hypothesis Hfit : forall b, b < k -> st b + N b <= length nodes0.

Definition fill_inv (done : list nat) (s : list nat * list nat * list nat) : Prop :=
  let '(nodes, idx, mapping) := s in
  length nodes = length nodes0 /\ length idx = k /\ length mapping = n /\
  (forall b, b < k -> nth b idx 0 = length (blk part done b)) /\
  (forall b, b < k -> slice nodes (st b) (length (blk part done b)) = blk part done b) /\
  (forall u b, In u done -> nth_error part u = Some b -> nth u mapping 0 = index_of u (blk part done b)).

Lemma blk_le done rest b : done ++ rest = order -> length (blk part done b) <= N b.
Proof. intros E. unfold N. rewrite <- E, blk_app, app_length. lia. Qed.

Lemma fill_step done u rest s : done ++ u :: rest = order -> fill_inv done s ->
  exists s', fill_node part starts (Some s) u = Some s' /\ fill_inv (done ++ [u]) s'.
Proof.
  intros E. destruct s as [[nodes idx] mapping]. intros (L1 & L2 & L3 & I1 & I2 & I3).
  assert (Hu : u < n).
  { assert (In u order) by (rewrite <- E; apply in_or_app; right; left; auto).
    apply (Permutation_in u Hord) in H. apply in_seq in H; lia. }
  assert (Hnd : ~ In u done).
  { assert (ND : NoDup order) by (eapply Permutation_NoDup; [apply Permutation_sym; eauto|apply seq_NoDup]).
    rewrite <- E in ND. apply NoDup_remove_2 in ND. intros Hi; apply ND; apply in_or_app; auto. }
  assert (Hp : exists b, nth_error part u = Some b).
  { destruct (nth_error part u) eqn:Ep; eauto. apply nth_error_None in Ep. lia. }
  destruct Hp as [b Hb].
  assert (Hbk : b < k) by (apply Hlab; eapply nth_error_In; eauto).
  assert (Eb : blk part (done ++ [u]) b = blk part done b ++ [u]).
  { rewrite blk_app. cbn [blk filter]. unfold blk at 2. cbn [filter].
    replace (in_block part b u) with true by (symmetry; apply in_block_iff; auto). auto. }
  assert (Ec : forall c, c <> b -> blk part (done ++ [u]) c = blk part done c).
  { intros c Hc. rewrite blk_app. unfold blk at 2. cbn [filter].
    destruct (in_block part c u) eqn:Ei; [|apply app_nil_r].
    apply in_block_iff in Ei. congruence. }
  assert (Hle : length (blk part (done ++ [u]) b) <= N b).
  { apply blk_le with rest. rewrite <- app_assoc. exact E. }
  rewrite Eb, app_length in Hle. cbn [length] in Hle.
  assert (Hfb := Hfit b Hbk).
  unfold fill_node. rewrite Hb.
  rewrite (nth_error_nth' idx 0) by lia. rewrite (nth_error_nth' starts 0) by lia.
  rewrite I1 by auto. fold (st b).
  rewrite wr_ok by lia. rewrite wr_ok by lia.
  eexists; split; [reflexivity|]. unfold fill_inv.
  repeat split.
  - rewrite splice_length; auto. cbn [length]; lia.
  - rewrite upd_length; auto.
  - rewrite splice_length; auto. cbn [length]; lia.
  - intros c Hc. destruct (Nat.eq_dec c b) as [->|Hn].
    + rewrite upd_nth_same by lia. rewrite Eb, app_length. cbn [length]; lia.
    + rewrite upd_nth_other by auto. rewrite Ec by auto. auto.
  - intros c Hc. destruct (Nat.eq_dec c b) as [->|Hn].
    + rewrite Eb, app_length. cbn [length].
      rewrite (slice_snoc _ _ _ u).
      * f_equal. rewrite slice_splice_out by (cbn [length]; lia). auto.
      * rewrite nth_error_splice by (cbn [length]; lia). cbn [length].
        destruct (Nat.ltb_spec (st b + length (blk part done b)) (st b + length (blk part done b))); [lia|].
        destruct (Nat.ltb_spec (st b + length (blk part done b)) (st b + length (blk part done b) + 1)); [|lia].
        rewrite Nat.sub_diag. auto.
    + rewrite Ec by auto. rewrite slice_splice_out; auto.
      * cbn [length]; lia.
      * cbn [length]. assert (length (blk part done c) <= N c) by (apply blk_le with (u :: rest); auto).
        destruct (Nat.lt_trichotomy c b) as [H'|[H'|H']]; [|lia|].
        -- assert (Hd := Hdisj c b H' Hbk). lia.
        -- assert (Hd := Hdisj b c H' Hc). lia.
  - intros v c Hv Hvc. apply in_app_or in Hv. destruct Hv as [Hv|[->|[]]].
    + assert (v <> u) by congruence.
      assert (Ev : nth v (splice mapping u [length (blk part done b)]) 0 = nth v mapping 0).
      { rewrite <- upd_splice by lia. apply upd_nth_other; auto. }
      rewrite Ev. rewrite (I3 v c Hv Hvc).
      destruct (Nat.eq_dec c b) as [->|Hn].
      * rewrite Eb, index_of_app_in; auto. apply in_blk; auto.
      * rewrite Ec; auto.
    + assert (c = b) by congruence. subst c. rewrite Eb, index_of_snoc.
      * rewrite <- upd_splice by lia. apply upd_nth_same; lia.
      * rewrite in_blk. tauto.
Qed.

Lemma fill_all : exists s, fold_left (fill_node part starts) order (Some (nodes0, repeat 0 k, repeat 0 n)) = Some s /\ fill_inv order s.
Proof.
  assert (G : forall rest done s, done ++ rest = order -> fill_inv done s ->
     exists s', fold_left (fill_node part starts) rest (Some s) = Some s' /\ fill_inv order s').
  { induction rest as [|u rest IH]; intros done s E I.
    - rewrite app_nil_r in E. subst. exists s; auto.
    - destruct (fill_step done u rest s E I) as (s' & Es & I'). cbn [fold_left]. rewrite Es.
      apply IH with (done ++ [u]); auto. rewrite <- app_assoc; auto. }
  apply (G order []); auto. cbn. rewrite !repeat_length. repeat split; auto.
  - intros b Hb. apply nth_repeat.
  - intros u b [].
Qed.
End Fill.

(** ** Counting *)
Definition int_deg (g : lgraph) (part : list nat) (b u : nat) : nat :=
  length (filter (fun e => in_block part b (fst e)) (lg_adj g u)).

Lemma grow_length g part mapping b u : length (grow g part mapping b u) = int_deg g part b u.
Proof. unfold grow, prow. apply map_length. Qed.

Lemma count_blocks_spec g part k : length part = length g -> (forall b, In b part -> b < k) ->
  count_blocks g part k =
  (map (fun b => length (blk part (seq 0 (length g)) b)) (seq 0 k),
   map (fun b => list_sum (map (int_deg g part b) (blk part (seq 0 (length g)) b))) (seq 0 k)).
Proof.
  intros Hl Hlab. unfold count_blocks.
  assert (G : forall m, m <= length g ->
    fold_left (count_node g part) (seq 0 m) (repeat 0 k, repeat 0 k) =
    (map (fun b => length (blk part (seq 0 m) b)) (seq 0 k),
     map (fun b => list_sum (map (int_deg g part b) (blk part (seq 0 m) b))) (seq 0 k))).
  { induction m as [|m IH]; intros Hm.
    - cbn. f_equal; (apply (list_ext 0); [now rewrite repeat_length, map_length, seq_length|]);
      intros i Hi; rewrite repeat_length in Hi; rewrite nth_map_seq, nth_repeat by auto; auto.
    - rewrite seq_S, fold_left_app, IH by lia. cbn [fold_left Nat.add]. unfold count_node. cbn [fst snd].
      assert (Hb : exists b, nth_error part m = Some b).
      { destruct (nth_error part m) eqn:E; eauto. apply nth_error_None in E. lia. }
      destruct Hb as [b Hb]. rewrite (nth_error_nth _ _ 0 Hb).
      assert (Hbk : b < k) by (apply Hlab; eapply nth_error_In; eauto).
      assert (Eb : blk part (seq 0 m ++ [m]) b = blk part (seq 0 m) b ++ [m]).
      { rewrite blk_app. unfold blk at 2. cbn [filter].
        replace (in_block part b m) with true by (symmetry; apply in_block_iff; auto). auto. }
      assert (Ec : forall c, c <> b -> blk part (seq 0 m ++ [m]) c = blk part (seq 0 m) c).
      { intros c Hc. rewrite blk_app. unfold blk at 2. cbn [filter].
        destruct (in_block part c m) eqn:Ei; [|apply app_nil_r]. apply in_block_iff in Ei. congruence. }
      fold (int_deg g part b m).
      f_equal; (apply (list_ext 0); [now rewrite upd_length, !map_length|]);
      intros i Hi; rewrite upd_length, map_length, seq_length in Hi;
      rewrite (nth_map_seq _ 0 k i) by auto; cbn [Nat.add]; (destruct (Nat.eq_dec i b) as [->|Hn];
        [rewrite upd_nth_same by (rewrite map_length, seq_length; auto); rewrite nth_map_seq by auto; cbn [Nat.add]; rewrite Eb
        |rewrite upd_nth_other by auto; rewrite nth_map_seq by auto; cbn [Nat.add]; rewrite Ec by auto; auto]).
      + rewrite app_length. auto.
      + rewrite map_app, list_sum_app. cbn. lia. }
  apply G; auto.
Qed.

(** ** Rows through a mapping are rows of the induced subgraph *)
Lemma grow_induced g part mapping b us : lg_closed g (length part) ->
  (forall v, In v us <-> nth_error part v = Some b) ->
  (forall v, In v us -> nth v mapping 0 = index_of v us) ->
  forall u, u < length g ->
  grow g part mapping b u = map (fun e => (index_of (fst e) us, snd e)) (filter (fun e => memb (fst e) us) (lg_adj g u)).
Proof.
  intros Hc Hus Hmap u Hu. unfold grow, prow.
  rewrite (filter_ext (fun e : nat * Z => in_block part b (fst e)) (fun e => memb (fst e) us)).
  - apply map_ext_in. intros [v w] Hi. apply filter_In in Hi. destruct Hi as [_ Hi]. cbn [fst snd] in *.
    apply memb_iff in Hi. now rewrite Hmap.
  - intros [v w]. cbn [fst]. apply Bool.eq_true_iff_eq. rewrite in_block_iff, memb_iff. symmetry. apply Hus.
Qed.
Lemma induced_rows g part mapping b us : lg_closed g (length part) ->
  (forall v, In v us <-> nth_error part v = Some b) ->
  (forall v, In v us -> nth v mapping 0 = index_of v us) ->
  (forall v, In v us -> v < length g) ->
  combine (map (lg_weight g) us) (map (grow g part mapping b) us) = induced us g.
Proof.
  intros Hc Hus Hmap Hlt. unfold induced.
  assert (G : forall l, (forall v, In v l -> v < length g) ->
    combine (map (lg_weight g) l) (map (grow g part mapping b) l) =
    map (fun u => (lg_weight g u, map (fun e => (index_of (fst e) us, snd e)) (filter (fun e => memb (fst e) us) (lg_adj g u)))) l).
  { induction l as [|u l IH]; intros H; cbn; auto. rewrite IH by (intros; apply H; right; auto).
    rewrite (grow_induced g part mapping b us) by (auto; apply H; left; auto). auto. }
  apply G; auto.
Qed.

Lemma list_sum_perm l1 l2 : Permutation l1 l2 -> list_sum l1 = list_sum l2.
Proof. unfold list_sum. induction 1; cbn [fold_right]; lia. Qed.
Lemma length_concat_sum {A} (ll : list (list A)) : length (concat ll) = list_sum (map (@length A) ll).
Proof. induction ll; cbn; auto. rewrite app_length, IHll; auto. Qed.

Lemma lg_m_concat g : lg_m g = length (concat (map snd g)).
Proof. unfold lg_m. rewrite length_concat_sum, map_map. auto. Qed.

Lemma lg_ok_weight g u : lg_ok g -> u < length g -> (1 <= lg_weight g u)%Z.
Proof.
  intros H Hu. destruct (H (lg_weight g u) (lg_adj g u)); auto.
  eapply nth_error_In. apply nth_error_lg; auto.
Qed.
Lemma lg_ok_adj g u v x : lg_ok g -> u < length g -> In (v, x) (lg_adj g u) -> v < length g /\ (1 <= x)%Z.
Proof.
  intros H Hu Hi. destruct (H (lg_weight g u) (lg_adj g u)); auto.
  eapply nth_error_In. apply nth_error_lg; auto.
Qed.
Lemma lg_ok_closed g : lg_ok g -> lg_closed g (length g).
Proof. intros H u v w Hu Hi. eapply lg_ok_adj; eauto. Qed.

Lemma lg_nw_false g u : lg_ok g -> lg_is_nw g = false -> u < length g -> lg_weight g u = 1%Z.
Proof.
  intros Hok Hf Hu. unfold lg_is_nw in Hf. apply Bool.negb_false_iff, Z.eqb_eq in Hf.
  assert (E : map fst g = repeat 1%Z (length (map fst g))).
  { apply zsum_eq_len; [|now rewrite map_length]. intros x Hx. apply in_map_iff in Hx.
    destruct Hx as ([w a] & <- & Hi). apply (Hok w a Hi). }
  unfold lg_weight.
  replace (fst (nth u g (0%Z, []))) with (nth u (map fst g) 0%Z) by (apply (map_nth fst g (0%Z, []) u)).
  rewrite E, map_length. rewrite (nth_indep _ 0%Z 1%Z) by (now rewrite repeat_length). apply nth_repeat.
Qed.
Lemma lg_ew_false g u v x : lg_ok g -> lg_is_ew g = false -> u < length g -> In (v, x) (lg_adj g u) -> x = 1%Z.
Proof.
  intros Hok Hf Hu Hi. unfold lg_is_ew in Hf. apply Bool.negb_false_iff, Z.eqb_eq in Hf. rewrite lg_m_concat in Hf.
  assert (E : map snd (concat (map snd g)) = repeat 1%Z (length (map snd (concat (map snd g))))).
  { apply zsum_eq_len; [|now rewrite map_length]. intros y Hy. apply in_map_iff in Hy.
    destruct Hy as ([v' w'] & <- & Hy). apply in_concat in Hy. destruct Hy as (a & Ha & Hy).
    apply in_map_iff in Ha. destruct Ha as ([w a'] & <- & Hg). destruct (Hok w a' Hg) as [_ Hok']. apply (Hok' v' w'); auto. }
  assert (Hx : In x (map snd (concat (map snd g)))).
  { apply in_map_iff. exists (v, x). split; auto. apply in_concat. exists (lg_adj g u). split; auto.
    apply in_map_iff. exists (lg_weight g u, lg_adj g u). split; auto. eapply nth_error_In. apply nth_error_lg; auto. }
  rewrite E in Hx. now apply repeat_spec in Hx.
Qed.
