(* Restatements of the facade theorem for the property files. *)
From Verif Require Import Lib.Prelude Lib.Count Spec.Graph Model.CsrModel Model.PermModel Model.FacadeModel
  Proofs.GraphFacts Proofs.CsrProofs Proofs.PermProofs Proofs.IsolatedProofs Proofs.FacadeProofs.

Section S.
Variables (xadj adjncy : list nat) (vwgt adjwgt : list Z) (bits : Z) (borrowed : bool) (cs : list pcall) (c : pcall).
Let f0 := if borrowed then borrow_and_mutate_graph xadj adjncy vwgt adjwgt else copy_graph xadj adjncy vwgt adjwgt.
Let f := run_calls bits cs f0.
Let n := length xadj - 1.
Hypothesis Hwf : wf_csr xadj adjncy vwgt adjwgt.
Hypothesis Hvw : forall x, In x vwgt -> (1 <= x)%Z.
Hypothesis Hew : forall x, In x adjwgt -> (1 <= x)%Z.
Hypothesis Hm : (N.of_nat (length adjncy) < 2 ^ 31)%N.
Hypothesis Hn : 0 < length xadj - 1.
Hypothesis Hund : undirected (user_graph xadj adjncy vwgt adjwgt).
Hypothesis Hh : valid_history (length adjncy) (length adjwgt) n bits cs f0.
Hypothesis Hc : valid_call (length adjncy) (length adjwgt) n c f.

Lemma facade_labels : n <= length (pc_out c) ->
  let out := snd (fst (compute_partition bits c f)) in
  length out = length (pc_out c) /\
  (forall u, u < n -> nth u out 0 < pc_k c) /\
  (forall u, n <= u -> nth u out 0 = nth u (pc_out c) 0).
Proof.
  intros Hlen. pose proof (facade_correct xadj adjncy vwgt adjwgt Hwf Hvw Hew Hm Hn Hund bits borrowed cs c Hh Hc) as H.
  cbv zeta in H. fold f0 in H. fold f in H. destruct (compute_partition bits c f) as [[f' out] ret].
  destruct H as (A & B & C & _). cbn [fst snd]. fold n in A, B, C. split; [lia|]. split; auto.
  intros u Hu. destruct (B u Hu); auto. lia.
Qed.

Lemma facade_cut :
  let out := snd (fst (compute_partition bits c f)) in
  let cut := cut_weight (user_graph xadj adjncy vwgt adjwgt) (fun u => nth u out 0) in
  (- 2 ^ (bits - 1) <= cut < 2 ^ (bits - 1))%Z ->
  snd (compute_partition bits c f) = Some cut.
Proof.
  pose proof (facade_correct xadj adjncy vwgt adjwgt Hwf Hvw Hew Hm Hn Hund bits borrowed cs c Hh Hc) as H.
  cbv zeta in H. fold f0 in H. fold f in H. destruct (compute_partition bits c f) as [[f' out] ret].
  destruct H as (A & B & C & D & _). exact D.
Qed.

Lemma facade_balance :
  (forall u, u < n -> gadj (user_graph xadj adjncy vwgt adjwgt) u = [] -> gvw (user_graph xadj adjncy vwgt adjwgt) u = 1%Z) ->
  (forall b, b < pc_k c ->
     Z.le (block_weight (cg_graph (fc_partitioner_input c f)) (fun u => nth u (pc_labels c) 0) b)
          (pc_max_block_weight c b)) ->
  (total_weight (user_graph xadj adjncy vwgt adjwgt) <= sumn (pc_k c) (pc_max_block_weight c))%Z ->
  let out := snd (fst (compute_partition bits c f)) in
  forall b, b < pc_k c -> Z.le (block_weight (user_graph xadj adjncy vwgt adjwgt) (fun u => nth u out 0) b) (pc_max_block_weight c b).
Proof.
  pose proof (facade_correct xadj adjncy vwgt adjwgt Hwf Hvw Hew Hm Hn Hund bits borrowed cs c Hh Hc) as H.
  cbv zeta in H. fold f0 in H. fold f in H. destruct (compute_partition bits c f) as [[f' out] ret].
  destruct H as (A & B & C & D & E). exact E.
Qed.
End S.

Lemma assign_isolated_nonlast g k part bw n' maxw :
  0 < k -> n' <= cg_n g -> length bw = k -> n' <= length part ->
  (forall b, b < k -> nth b bw 0%Z = block_weight (prefix_graph n' (cg_graph g)) (fun u => nth u part 0) b) ->
  (forall u, u < n' -> nth u part 0 < k) ->
  (forall b, b < k -> (nth b bw 0 <= maxw b)%Z) ->
  forall b, S b < k ->
  Z.le (block_weight (cg_graph g)
          (fun u => nth u (assign_isolated_nodes g k part bw (cg_n g - n') maxw) 0) b) (maxw b).
Proof.
  intros Hk Hn Hl Hp Hbw Hlt Hle b Hb.
  destruct (assign_isolated_account g k part bw n' maxw Hk Hn Hl Hp Hbw Hlt) as (_ & _ & _ & E).
  rewrite E by lia. apply assign_loop_nonlast; auto. apply Hle. lia.
Qed.

Lemma rearranged_isomorphic (borrowed : bool) conc junk junkw xadj adjncy vwgt adjwgt :
  wf_csr xadj adjncy vwgt adjwgt ->
  (forall x, In x vwgt -> (1 <= x)%Z) -> (forall x, In x adjwgt -> (1 <= x)%Z) ->
  (N.of_nat (length adjncy) < 2 ^ 31)%N -> 0 < conc ->
  length junk = length adjncy -> length junkw = length adjwgt ->
  let g' := rearrange_by_degree_buckets conc junk junkw (fc_graph (if borrowed then borrow_and_mutate_graph xadj adjncy vwgt adjwgt else copy_graph xadj adjncy vwgt adjwgt)) in
  isomorphic_by (fun u => nth u (cg_permutation g') 0) (user_graph xadj adjncy vwgt adjwgt) (cg_graph g') /\
  exists n', sorted_by_degree_class (sa_list (cg_nodes g')) n'.
Proof.
  intros Hwf Hv He Hm Hc Hj Hjw g'.
  assert (exists nodes vws, full nodes xadj /\ full vws vwgt /\
    fc_graph (if borrowed then borrow_and_mutate_graph xadj adjncy vwgt adjwgt else copy_graph xadj adjncy vwgt adjwgt)
    = cg_make nodes adjncy vws adjwgt false) as (nodes & vws & Fn & Fv & E).
  { destruct borrowed; eexists; eexists; (split; [|split; [|reflexivity]]); split; reflexivity. }
  destruct (rearrange_spec conc junk junkw nodes adjncy vws adjwgt false xadj vwgt
      Fn Fv Hwf Hc Hm Hj Hjw) as (xadj' & edges' & vw' & ew' & perm & n' & E1 & W & S & L1 & L2 & L3 & I & Iv & Ie).
  unfold g'. rewrite E, E1. split.
  - change (cg_permutation (sorted_csr xadj' edges' vw' ew' perm)) with perm.
    apply (iso_trans (fun u => nth u perm 0) (fun u => u) _ (user_graph xadj' edges' vw' ew')); auto.
    apply same_graph_iso, same_graph_sym.
    pose proof (cg_make_faithful (sa_make xadj') edges' (sa_make vw') ew' true xadj' vw'
          (conj eq_refl eq_refl) (conj eq_refl eq_refl) W (fun x Hx => Hv x (Iv x Hx)) (fun x Hx => He x (Ie x Hx))) as SG. exact SG.
  - exists n'. change (cg_nodes (sorted_csr xadj' edges' vw' ew' perm)) with (sa_make xadj'). rewrite sa_list_make. auto.
Qed.

Lemma iso_metrics f g h p :
  isomorphic_by f g h -> closed_graph g -> undirected g ->
  cut_weight g (fun u => p (f u)) = cut_weight h p /\
  (forall b, block_weight g (fun u => p (f u)) b = block_weight h p b) /\
  total_weight g = total_weight h.
Proof.
  intros H Hc Hu. split; [|split].
  - symmetry. apply iso_cut; auto.
  - intros b. symmetry. apply (iso_block_weight f); auto.
  - symmetry. apply (iso_total_weight f); auto.
Qed.
