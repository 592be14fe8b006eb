(* Proofs about the facade. *)
From Verif Require Import Lib.Prelude Lib.Count Spec.Graph Model.CsrModel Model.PermModel Model.FacadeModel
  Proofs.GraphFacts Proofs.CsrProofs Proofs.PermProofs Proofs.IsolatedProofs.

Lemma init_block_weights_spec g k part b :
  (forall u, u < cg_n g -> nth u part 0 < k) -> b < k ->
  length (init_block_weights g k part) = k /\
  nth b (init_block_weights g k part) 0%Z = block_weight (cg_graph g) (fun u => nth u part 0) b.
Proof.
  intros Hl Hb. unfold init_block_weights, block_weight. cbn [gn gvw cg_graph].
  assert (forall c, c <= cg_n g -> let r := fold_left (fun bw u => let b := nth u part 0 in upd b (nth b bw 0 + cg_node_weight g u)%Z bw) (seq 0 c) (repeat 0%Z k) in
    length r = k /\ nth b r 0%Z = sumn c (fun u => if nth u part 0 =? b then cg_node_weight g u else 0%Z)) as G.
  { induction c; intros Hc.
    - simpl. rewrite repeat_length, nth_repeat. auto.
    - destruct (IHc ltac:(lia)) as [A B]. rewrite seq_snoc, fold_left_app. set (r := fold_left _ (seq 0 c) _) in *.
      simpl. rewrite upd_length. split; auto. rewrite sumn_S, <- B, upd_nth. specialize (Hl c ltac:(lia)).
      destruct (Nat.eqb_spec (nth c part 0) b) as [E|]; cbn [andb]; [|lia].
      destruct (Nat.ltb_spec (nth c part 0) (length r)); [|lia]. rewrite E. lia. }
  apply G. auto.
Qed.

Section Facade.
Variables (xadj adjncy : list nat) (vwgt adjwgt : list Z).
Hypothesis Hwf : wf_csr xadj adjncy vwgt adjwgt.
Hypothesis Hvw : forall x, In x vwgt -> (1 <= x)%Z.
Hypothesis Hew : forall x, In x adjwgt -> (1 <= x)%Z.
Hypothesis Hm : (N.of_nat (length adjncy) < 2 ^ 31)%N.
Hypothesis Hn : 0 < length xadj - 1.
Hypothesis Hund : undirected (user_graph xadj adjncy vwgt adjwgt).
Let n := length xadj - 1.
Let ug := user_graph xadj adjncy vwgt adjwgt.

(** Reachable facade states: the original graph, or a sorted isomorphic one. *)
Inductive represents : csr_graph -> Prop :=
| rep_natural nodes vws : full nodes xadj -> full vws vwgt ->
    represents (cg_make nodes adjncy vws adjwgt false)
| rep_sorted xadj' edges' vw' ew' perm n' :
    wf_csr xadj' edges' vw' ew' -> sorted_by_degree_class xadj' n' ->
    length xadj' = length xadj -> length edges' = length adjncy -> length perm = n ->
    isomorphic_by (fun u => nth u perm 0) ug (user_graph xadj' edges' vw' ew') ->
    (forall x, In x vw' -> (1 <= x)%Z) -> (forall x, In x ew' -> (1 <= x)%Z) ->
    represents (sorted_csr xadj' edges' vw' ew' perm).

Definition perm_of (g : csr_graph) (u : nat) : nat := match cg_permutation g with [] => u | p => nth u p 0 end.

Lemma rep_iso g : represents g -> isomorphic_by (perm_of g) ug (cg_graph g) /\ cg_n g = n.
Proof.
  intros [nodes vws Fn Fv | xadj' edges' vw' ew' perm n' Hwf' Hs Hlx Hle Hlp Hiso Hpv Hpe].
  - split.
    + pose proof (cg_make_faithful nodes adjncy vws adjwgt false xadj vwgt Fn Fv Hwf Hvw Hew) as S.
      apply same_graph_iso. apply same_graph_sym. exact S.
    + unfold cg_n. simpl. destruct Fn as [_ ->]. auto.
  - split.
    + assert (isomorphic_by (fun u => nth u perm 0) ug (cg_graph (sorted_csr xadj' edges' vw' ew' perm))) as I.
      { apply (iso_trans (fun u => nth u perm 0) (fun u => u) ug (user_graph xadj' edges' vw' ew')); auto.
        apply same_graph_iso. apply same_graph_sym.
        pose proof (cg_make_faithful (sa_make xadj') edges' (sa_make vw') ew' true xadj' vw'
          (conj eq_refl eq_refl) (conj eq_refl eq_refl) Hwf' Hpv Hpe) as S. exact S. }
      unfold perm_of. change (cg_permutation (sorted_csr xadj' edges' vw' ew' perm)) with perm.
      destruct perm as [|p0 ps] eqn:E; auto. unfold n in Hlp. simpl in Hlp. lia.
    + unfold cg_n. simpl. unfold n. lia.
Qed.

Lemma rearranged_rep c f : represents (fc_graph f) -> 0 < pc_concurrency c ->
  length (pc_junk_edges c) = length adjncy -> length (pc_junk_weights c) = length adjwgt ->
  represents (fc_graph (fc_rearrange c f)).
Proof.
  intros Hr Hc Hj Hjw. unfold fc_rearrange. destruct (fc_was_rearranged f); auto. cbn [fc_graph].
  destruct (pc_degree_buckets c && negb (cg_sorted (fc_graph f))) eqn:E; auto.
  destruct Hr as [nodes vws Fn Fv | xadj' edges' vw' ew' perm n' Hwf' Hs Hlx Hle Hlp Hiso Hpv Hpe].
  - destruct (rearrange_spec (pc_concurrency c) (pc_junk_edges c) (pc_junk_weights c) nodes adjncy vws adjwgt false xadj vwgt
      Fn Fv Hwf Hc Hm Hj Hjw) as (xadj' & edges' & vw' & ew' & perm & n' & E1 & W & S & L1 & L2 & L3 & I & Iv & Ie).
    rewrite E1. apply (rep_sorted xadj' edges' vw' ew' perm n'); auto.
  - apply andb_true_iff in E as [_ E]. discriminate.
Qed.

(** One call, starting from a reachable state. *)
Lemma compute_partition_spec bits c f :
  represents (fc_graph f) -> valid_call (length adjncy) (length adjwgt) n c f ->
  let '(f', out, ret) := compute_partition bits c f in
  represents (fc_graph f') /\
  length out = n + (length (pc_out c) - n) /\
  (forall u, n <= u -> nth u out 0 = nth u (pc_out c) 0 \/ length (pc_out c) < n) /\
  (forall u, u < n -> nth u out 0 < pc_k c) /\
  ((- 2 ^ (bits - 1) <= cut_weight ug (fun u => nth u out 0%nat) < 2 ^ (bits - 1))%Z ->
     ret = Some (cut_weight ug (fun u => nth u out 0))) /\
  ((forall u, u < n -> gadj ug u = [] -> gvw ug u = 1%Z) ->
   (forall b, b < pc_k c -> (block_weight (cg_graph (fc_partitioner_input c f)) (fun u => nth u (pc_labels c) 0%nat) b
                             <= pc_max_block_weight c b)%Z) ->
   (total_weight ug <= sumn (pc_k c) (pc_max_block_weight c))%Z ->
   forall b, b < pc_k c -> Z.le (block_weight ug (fun u => nth u out 0) b) (pc_max_block_weight c b)).
Proof.
  intros Hrep (Hk & Hconc & Hj & Hjw & Hlab & Hlt & Hsched).
  unfold compute_partition. unfold fc_partitioner_input in *.
  pose proof (rearranged_rep c f Hrep Hconc Hj Hjw) as Hrep1.
  set (g1 := fc_graph (fc_rearrange c f)) in *.
  (* the final graph is g1 again, with a partition of all its nodes *)
  assert (exists part, fc_reintegrate c (fc_cut_off_isolated g1) = (g1, part) /\
    (forall u, u < n -> nth u part 0 < pc_k c) /\
    ((forall u, u < n -> gadj (cg_graph g1) u = [] -> gvw (cg_graph g1) u = 1%Z) ->
     (forall b, b < pc_k c -> (block_weight (cg_graph (fc_cut_off_isolated g1)) (fun u => nth u (pc_labels c) 0%nat) b
                               <= pc_max_block_weight c b)%Z) ->
     (total_weight (cg_graph g1) <= sumn (pc_k c) (pc_max_block_weight c))%Z ->
     forall b, b < pc_k c -> Z.le (block_weight (cg_graph g1) (fun u => nth u part 0) b) (pc_max_block_weight c b)))
    as (part & Ere & Hpart & Hbal).
  { destruct Hrep1 as [nodes vws Fn Fv | xadj' edges' vw' ew' perm n' Hwf' Hs Hlx Hle Hlp Hiso Hpv Hpe].
    - exists (pc_labels c). unfold fc_reintegrate, fc_cut_off_isolated in *. simpl cg_sorted in *. cbv iota in *.
      split; auto. assert (cg_n (cg_make nodes adjncy vws adjwgt false) = n) as En.
      { unfold cg_n; simpl. destruct Fn as [_ ->]. auto. }
      split.
      + intros u Hu. apply Hlt. apply nth_In. rewrite Hlab, En. auto.
      + intros _ Hb _. exact Hb.
    - unfold fc_cut_off_isolated in *.
      change (cg_sorted (sorted_csr xadj' edges' vw' ew' perm)) with true in *. cbv iota in *.
      pose proof (isolated_roundtrip xadj' edges' vw' ew' perm n' Hwf') as RT.
      assert ((N.of_nat (length edges') < 2 ^ 32)%N) as H32 by (change (2 ^ 32)%N with (2 * 2 ^ 31)%N; lia).
      specialize (RT H32 ltac:(lia) Hs). cbv zeta in RT.
      pose proof (removed_n xadj' edges' vw' ew' perm n' Hs) as RN. cbv zeta in RN.
      pose proof (removed_graph xadj' edges' vw' ew' perm n' Hwf' Hs Hpv Hpe) as RG. cbv zeta in RG.
      pose proof (count_isolated_sorted xadj' edges' vw' ew' perm n' Hs) as CI.
      pose proof (cg_make_faithful (sa_make xadj') edges' (sa_make vw') ew' true xadj' vw'
          (conj eq_refl eq_refl) (conj eq_refl eq_refl) Hwf' Hpv Hpe) as SG.
      change (cg_graph (cg_make (sa_make xadj') edges' (sa_make vw') ew' true)) with (cg_graph (sorted_csr xadj' edges' vw' ew' perm)) in SG.
      set (g := sorted_csr xadj' edges' vw' ew' perm) in *.
      assert (cg_n g = n) as En by (unfold cg_n; simpl; unfold n; lia).
      set (gr := cg_remove_isolated_nodes (count_isolated_nodes g) g) in *.
      assert (cg_sorted gr = true) as Esr.
      { unfold gr, cg_remove_isolated_nodes. destruct (count_isolated_nodes g =? 0); reflexivity. }
      unfold fc_reintegrate. rewrite Esr, RT.
      destruct Hs as (Hs1 & Hs2 & Hs3 & Hs4).
      assert (count_isolated_nodes g = cg_n g - n') as CI' by (rewrite CI, En, Hlx; auto).
      rewrite CI'. assert (n' <= cg_n g) as Hn' by lia.
      assert (forall u, u < n' -> nth u (pc_labels c) 0 < pc_k c) as Hlow.
      { intros u Hu. apply Hlt. apply nth_In. lia. }
      assert (forall b, b < pc_k c -> nth b (init_block_weights gr (pc_k c) (pc_labels c)) 0%Z
          = block_weight (prefix_graph n' (cg_graph g)) (fun u => nth u (pc_labels c) 0) b /\
          block_weight (cg_graph gr) (fun u => nth u (pc_labels c) 0) b
          = block_weight (prefix_graph n' (cg_graph g)) (fun u => nth u (pc_labels c) 0) b) as Hbw.
      { intros b Hb.
        assert (block_weight (cg_graph gr) (fun u => nth u (pc_labels c) 0) b
          = block_weight (prefix_graph n' (cg_graph g)) (fun u => nth u (pc_labels c) 0) b) as E2.
        { destruct RG as [[E1 E2] _]. destruct SG as [E3 E4]. unfold block_weight. rewrite E1. cbn [gn prefix_graph].
          apply sumn_ext. intros u Hu. rewrite E1 in E2. destruct (E2 u Hu) as [_ E2']. rewrite E2'.
          change (gvw (prefix_graph n' (cg_graph g)) u) with (gvw (cg_graph g) u).
          destruct (E4 u) as [_ ->]; auto. change (gn (cg_graph g)) with (cg_n g). lia. }
        split; auto. rewrite <- E2. apply init_block_weights_spec; auto. rewrite RN. auto. }
      assert (length (init_block_weights gr (pc_k c) (pc_labels c)) = pc_k c) as Lbw.
      { apply (init_block_weights_spec gr (pc_k c) (pc_labels c) 0); auto. rewrite RN. auto. }
      destruct (assign_isolated_account g (pc_k c) (pc_labels c) (init_block_weights gr (pc_k c) (pc_labels c)) n'
        (pc_max_block_weight c) Hk Hn' Lbw ltac:(lia) (fun b Hb => proj1 (Hbw b Hb)) Hlow) as (A1 & A2 & A3 & A4).
      eexists. split; [reflexivity|]. split.
      + intros u Hu. apply A3. lia.
      + intros Hunit Hb Hcap b Hbk.
        apply (assign_isolated_balanced g (pc_k c) (pc_labels c) (init_block_weights gr (pc_k c) (pc_labels c)) n'
          (pc_max_block_weight c) Hk Hn' Lbw ltac:(lia) (fun b Hb => proj1 (Hbw b Hb)) Hlow); auto.
        * intros u Hu. destruct SG as [E3 E4]. apply (Hunit u ltac:(lia)).
          destruct (E4 u) as [-> _]; [change (gn (cg_graph g)) with (cg_n g); lia|].
          rewrite user_graph_adj. specialize (Hs3 u ltac:(lia)). unfold degree_of in Hs3. rewrite Hs3. reflexivity.
        * intros b' Hb'. destruct (Hbw b' Hb') as [-> <-]. apply Hb. auto. }
  rewrite Ere.
  destruct (rep_iso g1 Hrep1) as [Hiso En].
  assert (forall u, u < n -> nth u (fc_write g1 part (pc_out c)) 0 = nth (perm_of g1 u) part 0) as Hout.
  { intros u Hu. unfold fc_write. rewrite app_nth1 by (rewrite map_length, seq_length; lia).
    rewrite nth_map_seq by lia. reflexivity. }
  destruct Hiso as (I1 & I2 & I3 & I4 & I5). cbn [gn cg_graph] in I1, I2, I3, I4, I5.
  assert (isomorphic_by (perm_of g1) ug (cg_graph g1)) as Hiso by (repeat split; auto).
  assert (closed_graph ug) as Hcl by (apply user_graph_closed; auto).
  split; [exact Hrep1|]. split; [|split; [|split; [|split]]].
  - unfold fc_write. rewrite app_length, map_length, seq_length, skipn_length. lia.
  - intros u Hu. destruct (Nat.lt_ge_cases (length (pc_out c)) n); auto. left. unfold fc_write.
    rewrite app_nth2 by (rewrite map_length, seq_length; lia). rewrite map_length, seq_length, nth_skipn. f_equal. lia.
  - intros u Hu. rewrite Hout by auto. apply Hpart. unfold maps_into in I2. apply (I2 u Hu).
  - intros Hrange.
    assert (cut_weight ug (fun u => nth u (fc_write g1 part (pc_out c)) 0) = cut_weight (cg_graph g1) (fun u => nth u part 0)) as Ecut.
    { rewrite (iso_cut (perm_of g1) ug (cg_graph g1) (fun u => nth u part 0) Hiso Hcl Hund).
      apply cut_weight_ext. intros u Hu. apply Hout. exact Hu. }
    rewrite Ecut in *. change (cg_adjacent_nodes g1) with (gadj (cg_graph g1)). apply edge_cut_correct; auto.
    + apply (iso_closed (perm_of g1) ug); auto.
    + apply (iso_undirected (perm_of g1) ug); auto.
    + change (gn (cg_graph g1)) with (cg_n g1). rewrite En. auto.
  - intros Hunit Hb Hcap b Hbk.
    assert (block_weight ug (fun u => nth u (fc_write g1 part (pc_out c)) 0) b = block_weight (cg_graph g1) (fun u => nth u part 0) b) as Ebw.
    { rewrite (iso_block_weight (perm_of g1) ug (cg_graph g1) (fun u => nth u part 0) b Hiso).
      apply block_weight_ext. intros u Hu. apply Hout. exact Hu. }
    rewrite Ebw. apply Hbal; auto.
    + intros v Hv Hadj. destruct (inj_surj n (perm_of g1) I2 I3 v Hv) as (u & Hu & <-).
      rewrite (I4 u Hu). apply Hunit; auto. specialize (I5 u Hu).       rewrite Hadj in I5. apply Permutation_nil in I5. destruct (gadj ug u); auto; discriminate.
    + rewrite (iso_total_weight (perm_of g1) ug (cg_graph g1) Hiso). auto.
Qed.

Lemma initial_rep (borrowed : bool) :
  represents (fc_graph (if borrowed then borrow_and_mutate_graph xadj adjncy vwgt adjwgt else copy_graph xadj adjncy vwgt adjwgt)).
Proof. destruct borrowed; apply rep_natural; split; reflexivity. Qed.

Lemma run_rep bits cs : forall f, represents (fc_graph f) -> valid_history (length adjncy) (length adjwgt) n bits cs f ->
  represents (fc_graph (run_calls bits cs f)).
Proof.
  induction cs as [|c cs IH]; intros f Hr Hv; auto. simpl in Hv. destruct Hv as [Hc Hv].
  unfold run_calls. cbn [fold_left]. apply IH; auto.
  pose proof (compute_partition_spec bits c f Hr Hc) as H. destruct (compute_partition bits c f) as [[f' out] ret]. apply H.
Qed.

Lemma facade_correct bits (borrowed : bool) cs c :
  let f0 := if borrowed then borrow_and_mutate_graph xadj adjncy vwgt adjwgt else copy_graph xadj adjncy vwgt adjwgt in
  let f := run_calls bits cs f0 in
  valid_history (length adjncy) (length adjwgt) n bits cs f0 -> valid_call (length adjncy) (length adjwgt) n c f ->
  let '(f', out, ret) := compute_partition bits c f in
  length out = n + (length (pc_out c) - n) /\
  (forall u, n <= u -> nth u out 0 = nth u (pc_out c) 0 \/ length (pc_out c) < n) /\
  (forall u, u < n -> nth u out 0 < pc_k c) /\
  ((- 2 ^ (bits - 1) <= cut_weight ug (fun u => nth u out 0%nat) < 2 ^ (bits - 1))%Z ->
     ret = Some (cut_weight ug (fun u => nth u out 0))) /\
  ((forall u, u < n -> gadj ug u = [] -> gvw ug u = 1%Z) ->
   (forall b, b < pc_k c -> (block_weight (cg_graph (fc_partitioner_input c f)) (fun u => nth u (pc_labels c) 0%nat) b
                             <= pc_max_block_weight c b)%Z) ->
   (total_weight ug <= sumn (pc_k c) (pc_max_block_weight c))%Z ->
   forall b, b < pc_k c -> Z.le (block_weight ug (fun u => nth u out 0) b) (pc_max_block_weight c b)).
Proof.
  intros f0 f Hh Hc.
  pose proof (compute_partition_spec bits c f (run_rep bits cs f0 (initial_rep borrowed) Hh) Hc) as H.
  destruct (compute_partition bits c f) as [[f' out] ret]. apply H.
Qed.
End Facade.
