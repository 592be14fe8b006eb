(* Gains, enumerations and border nodes of the sparse gain cache, for every history. *)
From Verif Require Import Lib.Prelude Spec.Graph Spec.Gain Spec.CountMap Spec.SparseGainSpec Model.MathModel Model.CompactHashModel Model.GainModel Model.SparseGainModel
  Proofs.AlignedProofs Proofs.GainBase Proofs.GainSys Proofs.DenseGain Proofs.CompactHashOps Proofs.CompactGain Proofs.GainTop Proofs.SparseGainLayout Proofs.SparseGainProofs.

Section T.
Variables (g : graph) (k : nat) (w : Z) (sorted : bool) (bk : nat -> nat) (nb thr : nat) (L : slayout).
Hypothesis (Hc : closed_graph g) (Hs : undirected g) (Hsim : simple_graph g) (Hpos : positive_edges g).
Hypothesis (HLay : layout_ok g k bk nb thr sorted L).
Hypothesis Hfit : sparse_fits g k w sorted nb thr.
Notation conn_ := (sg_conn g k w bk nb L).

Lemma sparse_gains_ok mem u p all exact from : length mem = pos k bk nb L (gn g) -> u < gn g -> SparseGainProofs.in_range g k p -> from < k ->
  SparseGainProofs.table_ok k w bk nb L u (tab k bk nb L mem u) (block_conn g p u) ->
  exists l, sg_gains g k w bk nb L all exact mem u from = Some l /\ Permutation l (targets k all exact (block_conn g p u) from).
Proof.
  intros HL Hu HP Hfr HT.
  assert (HC : forall b, b < k -> conn_ mem u b = Some (block_conn g p u b)) by (intros; eapply sg_conn_ok; eauto).
  unfold sg_gains. assert (Ef : (if exact then conn_ mem u from else Some 0%Z) = Some (if exact then block_conn g p u from else 0)%Z)
    by (destruct exact; auto).
  rewrite Ef. destruct (sg_in_sparse L u) eqn:Eh.
  - rewrite (gains_fold k all (conn_ mem u) (block_conn g p u) _ from HC). eexists. split; [reflexivity|]. unfold targets. auto.
  - destruct (SparseGainProofs.entries_ok g k w sorted bk nb thr L Hc Hpos HLay Hfit mem u p HL Hu HP ltac:(rewrite Eh; reflexivity) HT) as (es & Ees & HE).
    rewrite Ees. destruct all.
    + eexists. split; [reflexivity|].
      match goal with |- Permutation ?a ?b => assert (E : a = b) end; [|rewrite E; apply Permutation_refl].
      unfold targets.
        assert (HNk : NoDup (map fst es)).
        { eapply Permutation_NoDup; [apply Permutation_map, Permutation_sym, HE|]. rewrite map_map. cbn [fst].
          apply FinFun.Injective_map_NoDup; [intros x y E; lia|]. apply NoDup_filter, seq_NoDup. }
        assert (HRg : forall e, In e es -> (0 <= fst e < Z.of_nat k)%Z).
        { intros e He. apply (Permutation_in e HE) in He. apply in_map_iff in He. destruct He as (b & <- & Hb).
          apply filter_In in Hb. destruct Hb as [Hb _]. apply in_seq in Hb. cbn [fst]. lia. }
        destruct (buffer_fold k es HNk HRg (repeat 0%Z k) (repeat_length _ _)) as (_ & H2 & H3).
        set (bf := fold_left _ es _) in *.
        assert (HB : forall b, b < k -> nth b bf 0%Z = block_conn g p u b).
        { intros b Hb. destruct (Z.ltb_spec 0 (block_conn g p u b)) as [Hlt|Hge].
          - assert (Hin : In (Z.of_nat b, block_conn g p u b) es).
            { apply (Permutation_in _ (Permutation_sym HE)). apply in_map_iff. exists b. split; auto. apply filter_In.
              split; [apply in_seq; lia|apply Z.ltb_lt; auto]. }
            specialize (H2 _ Hin). cbn [fst snd] in H2. rewrite Nat2Z.id in H2. exact H2.
          - pose proof (block_conn_bounds g p u b Hpos Hu). rewrite H3; [rewrite nth_repeat; lia|].
            intros C. apply in_map_iff in C. destruct C as (e & E & He). apply (Permutation_in e HE) in He.
            apply in_map_iff in He. destruct He as (b' & <- & Hb'). cbn [fst] in E. apply Nat2Z.inj in E. subst b'.
            apply filter_In in Hb'. destruct Hb' as [_ Hb']. apply Z.ltb_lt in Hb'. lia. }
        rewrite (filter_ext (fun b => negb (b =? from) && (true || (0 <? block_conn g p u b)%Z)) (fun b => negb (from =? b))).
        * apply map_ext_in. intros b Hb. apply filter_In in Hb. destruct Hb as [Hb _]. apply in_seq in Hb. rewrite HB by lia. reflexivity.
        * intros b. rewrite Nat.eqb_sym. cbn [orb]. apply Bool.andb_true_r.
    + eexists. split; [reflexivity|]. unfold targets.
      etransitivity; [apply Permutation_map, CompactGain.perm_filter, HE|].
      match goal with |- Permutation ?a ?b => assert (E : a = b); [|rewrite E; apply Permutation_refl] end.
      clear HE Ees es. induction (seq 0 k) as [|b l IH]; cbn [filter map]; [reflexivity|]. cbn [orb].
      destruct (0 <? block_conn g p u b)%Z; rewrite ?Bool.andb_false_r, ?Bool.andb_true_r; auto.
      cbn [map filter fst snd]. rewrite Nat2Z.id. destruct (b =? from); cbn [negb map fst snd]; rewrite ?Nat2Z.id, IH; reflexivity.
Qed.
Lemma sparse_reports_layout lab T es : labels_ok g k lab ->
  exists m0 s, sg_init g k w bk nb L lab = Some m0 /\ sg_run g k w bk nb L es (g_start _ lab m0 T) = Some s /\ labels_ok g k (s_lab s) /\
    forall u, u < gn g -> dst_idle u s = true ->
      reports g k (label_of (s_lab s)) u (sg_conn g k w bk nb L (s_mem s) u) (sg_gain g k w bk nb L (s_mem s) u)
        (fun all exact => sg_gains g k w bk nb L all exact (s_mem s) u) (sg_border g k w bk nb L (s_mem s) u).
Proof.
  intros HL. destruct (sparse_run_ok g k w sorted bk nb thr L Hc Hs Hsim Hpos HLay Hfit lab T es HL) as (c0 & s & E0 & E1 & HL' & HM & HR).
  exists c0, s. split; auto. split; auto. split; auto. intros u Hu Hi. specialize (HR u Hu Hi).
  destruct HL' as [HL1 HL2]. pose proof (HL2 u Hu) as Hp.
  assert (HC : forall b, b < k -> conn_ (s_mem s) u b = Some (block_conn g (label_of (s_lab s)) u b))
    by (intros; eapply sg_conn_ok; eauto).
  split; [exact HC|]. split; [|split; [|split]].
  - intros b Hb. unfold sg_gain. rewrite (HC b Hb), (HC _ Hp). f_equal. symmetry.
    apply gain_is_cut_decrease; auto. apply simple_no_loop; auto.
  - intros a b Ha Hb. unfold sg_gain. rewrite (HC b Hb), (HC a Ha). reflexivity.
  - intros all exact from Hfr. apply sparse_gains_ok; auto.
  - intros _. unfold sg_border. rewrite (HC _ Hp), (degrees_ok g k w sorted nb thr) by auto. eexists. split; [reflexivity|].
    destruct Hfit as (Hw & _ & Hwd & _). specialize (Hwd u Hu). pose proof (block_conn_bounds g (label_of (s_lab s)) u 0 Hpos Hu).
    rewrite Z.mod_small by lia. unfold sg_signed. destruct (Z.ltb_spec (weighted_degree g u) (2 ^ (w - 1))); [|lia].
    rewrite Bool.negb_true_iff, Z.eqb_neq. apply border_iff; auto.
Qed.
End T.

Lemma sparse_reports g k w sorted bk nb thr junk lab T es : closed_graph g -> undirected g -> simple_graph g -> positive_edges g ->
  (sorted = true -> bucket_ordered g bk nb) -> sparse_fits g k w sorted nb thr -> labels_ok g k lab ->
  exists L m0 s, sg_layout g k sorted bk thr junk = Some L /\ sg_init g k w bk nb L lab = Some m0 /\
    sg_run g k w bk nb L es (g_start _ lab m0 T) = Some s /\ labels_ok g k (s_lab s) /\
    forall u, u < gn g -> dst_idle u s = true ->
      reports g k (label_of (s_lab s)) u (sg_conn g k w bk nb L (s_mem s) u) (sg_gain g k w bk nb L (s_mem s) u)
        (fun all exact => sg_gains g k w bk nb L all exact (s_mem s) u) (sg_border g k w bk nb L (s_mem s) u).
Proof.
  intros Hc Hs Hsim Hpos Hord Hfit HL. assert (Hl : sorted = true -> bucket_ordered g bk nb /\ nb <= 31) by (intros E; split; [apply Hord; exact E|apply Hfit]).
  destruct (layout_exists g k sorted bk nb thr junk Hl) as (L & EL). exists L.
  pose proof (layout_ok_holds g k bk nb thr sorted L Hl (ex_intro _ junk EL)) as HLay.
  destruct (sparse_reports_layout g k w sorted bk nb thr L Hc Hs Hsim Hpos HLay Hfit lab T es HL) as (m0 & s & H). exists m0, s. split; [exact EL|exact H].
Qed.

(** The cells of the nodes. *)
Definition cells_of (g : graph) (k : nat) (bk : nat -> nat) (nb : nat) (L : slayout) (u i : nat) : Prop :=
  if sg_in_sparse L u then exists b, b < k /\ i = sg_index_sparse k L u b
  else exists s c, sg_index_dense g bk nb L u = Some (s, c) /\ s <= i < s + c.
Lemma sparse_layout g k sorted bk nb thr junk : (sorted = true -> bucket_ordered g bk nb) -> nb <= 31 ->
  exists L, sg_layout g k sorted bk thr junk = Some L /\
    (forall u, u < gn g -> (exists i, cells_of g k bk nb L u i) \/ k = 0) /\
    (forall u i, u < gn g -> cells_of g k bk nb L u i -> i < sl_size L) /\
    (forall u v i, u < gn g -> v < gn g -> cells_of g k bk nb L u i -> cells_of g k bk nb L v i -> u = v) /\
    (forall u, u < gn g -> sg_in_sparse L u = false -> exists s c, sg_index_dense g bk nb L u = Some (s, c) /\ length (gadj g u) < c) .
Proof.
  intros Hord Hnb. assert (Hl : sorted = true -> bucket_ordered g bk nb /\ nb <= 31) by (intros E; split; [apply Hord; exact E|exact Hnb]).
  destruct (layout_exists g k sorted bk nb thr junk Hl) as (L & EL). exists L. split; [exact EL|].
  destruct (layout_ok_holds g k bk nb thr sorted L Hl (ex_intro _ junk EL)) as (HS & HD & Esz & _).
  assert (CI : forall u i, u < gn g -> cells_of g k bk nb L u i -> pos k bk nb L u <= i < pos k bk nb L u + len k bk nb L u).
  { intros u i Hu H. unfold cells_of, sg_in_sparse in H. destruct (Nat.leb_spec (sl_nt L) u) as [C|C].
    - destruct H as (b & Hb & ->). rewrite (HS u Hu C). unfold len. destruct (Nat.leb_spec (sl_nt L) u); lia.
    - destruct H as (s & c & E & R). destruct (HD u Hu C) as (E2 & _). rewrite E2 in E. injection E as <- <-. exact R. }
  split; [|split; [|split]].
  - intros u Hu. unfold cells_of, sg_in_sparse. destruct (Nat.leb_spec (sl_nt L) u) as [C|C].
    + destruct k as [|k']; [right; reflexivity|]. left. eexists. exists 0. split; [lia|reflexivity].
    + left. destruct (HD u Hu C) as (E2 & H2 & _). exists (pos k bk nb L u). do 2 eexists. split; [exact E2|]. lia.
  - intros u i Hu H. apply CI in H; [|exact Hu]. rewrite Esz. pose proof (pos_disjoint k bk nb L u (gn g) Hu). lia.
  - intros u v i Hu Hv H1 H2. apply CI in H1; [|exact Hu]. apply CI in H2; [|exact Hv]. destruct (Nat.lt_trichotomy u v) as [C|[C|C]]; [|exact C|].
    + pose proof (pos_disjoint k bk nb L u v C). lia.
    + pose proof (pos_disjoint k bk nb L v u C). lia.
  - intros u Hu E. unfold sg_in_sparse in E. apply Nat.leb_gt in E. destruct (HD u Hu E) as (E2 & H2 & _). do 2 eexists. split; [exact E2|exact H2].
Qed.
