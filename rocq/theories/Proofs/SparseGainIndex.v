(* The bucket index of the graphs the library partitions meets the precondition of the sparse gain cache. *)
From Verif Require Import Lib.Prelude Spec.Graph Spec.Gain Spec.SparseGainSpec Model.CsrModel Proofs.CsrProofs.

Lemma removed_buckets_length xadj edges vw ew perm : (forall d, In d (degrees_of xadj) -> (N.of_nat d < 2 ^ 32)%N) ->
  let g := cg_set_permutation perm (cg_make (sa_make xadj) edges (sa_make vw) ew true) in
  length (cg_buckets (cg_remove_isolated_nodes (count_isolated_nodes g) g)) = S num_degree_buckets.
Proof.
  intros Hd g.
  assert (cg_buckets g = prefix_sum (bucket_histogram (degrees_of xadj))) as EB by (unfold g; simpl; rewrite sa_list_make; reflexivity).
  assert (length (cg_buckets g) = S num_degree_buckets) as Hl by (rewrite EB, prefix_sum_length; apply bucket_histogram_nth; auto).
  unfold cg_remove_isolated_nodes. destruct (count_isolated_nodes g =? 0); [exact Hl|]. set (k := count_isolated_nodes g).
  match goal with |- length (cg_buckets (cg_set_buckets ?b _ _)) = _ => change (length b = S num_degree_buckets) end.
  change (cg_buckets (cg_update_total_node_weight _)) with (cg_buckets g). destruct (cg_buckets g) as [|b0 bs]; [exact Hl|]. cbn [length] in *. rewrite map_length. exact Hl.
Qed.

Lemma index_ordered xadj adjncy vwgt adjwgt perm n' h :
  wf_csr xadj adjncy vwgt adjwgt -> (N.of_nat (length adjncy) < 2 ^ 32)%N -> sorted_by_degree_class xadj n' -> 0 < n' ->
  let g := cg_set_permutation perm (cg_make (sa_make xadj) adjncy (sa_make vwgt) adjwgt true) in
  let g' := cg_remove_isolated_nodes (count_isolated_nodes g) g in
  gn h = n' -> (forall u, u < n' -> length (gadj h u) = cg_degree g' u) ->
  bucket_ordered h (fun b => nth b (cg_buckets g') 0) (cg_number_of_buckets g').
Proof.
  intros Hwf Hb Hs Hn g g' En Ed. assert (BB : nth 0 (cg_buckets g') 0 = 0 /\ nth (cg_number_of_buckets g') (cg_buckets g') 0 = n' /\ (forall i j, i <= j <= num_degree_buckets -> nth i (cg_buckets g') 0 <= nth j (cg_buckets g') 0))
    by exact (bucket_index_bounds xadj adjncy vwgt adjwgt perm n' Hwf Hb Hs Hn). destruct BB as (B0 & B1 & B2).
  assert (Bl : length (cg_buckets g') = S num_degree_buckets) by exact (removed_buckets_length xadj adjncy vwgt adjwgt perm (wf_degrees_small _ _ _ _ Hwf Hb)).
  assert (Hnb : cg_number_of_buckets g' <= num_degree_buckets).
  { destruct (Nat.lt_ge_cases num_degree_buckets (cg_number_of_buckets g')) as [C|C]; [|exact C]. rewrite nth_overflow in B1; lia. }
  assert (N33 : num_degree_buckets = 33) by reflexivity.
  assert (BI : forall b u, b < 32 -> u < n' -> (nth (S b) (cg_buckets g') 0 <= u < nth (S (S b)) (cg_buckets g') 0 <-> 2 ^ b <= cg_degree g' u < 2 ^ (S b)))
    by exact (fun b u => bucket_index_correct xadj adjncy vwgt adjwgt perm n' b u Hwf Hb Hs).
  split; [exact B0|]. split; [lia|]. split; [intros b Hlt; apply B2; lia|].
  intros b u Hlt Hu. assert (Hun : u < n'). { rewrite <- B1. eapply Nat.lt_le_trans; [apply Hu|]. apply B2. lia. }
  rewrite Ed by exact Hun. destruct b as [|b]; cbn [Nat.eqb].
  - destruct (Nat.eq_dec (cg_degree g' u) 0) as [|D]; [assumption|]. exfalso. set (l := Nat.log2 (cg_degree g' u)).
    destruct (Nat.lt_ge_cases l 32) as [L32|L32].
    + destruct (BI l u L32 Hun) as (_ & BI2). destruct (Nat.log2_spec (cg_degree g' u)) as (P1 & P2); [lia|]. specialize (BI2 (conj P1 P2)).
      pose proof (B2 1 (S l) ltac:(lia)). lia.
    + assert (Hsm : (N.of_nat (cg_degree g' u) < 2 ^ 32)%N).
      { assert (E : cg_degree g' u = degree_of xadj u).
        { unfold g', cg_remove_isolated_nodes. destruct (_ =? 0); reflexivity. }
        rewrite E. apply (wf_degrees_small _ _ _ _ Hwf Hb). unfold degrees_of, degree_of. apply in_map_iff. exists u. split; [reflexivity|]. apply in_seq. destruct Hs. lia. }
      assert (cg_degree g' u < 2 ^ 32). { assert (N.of_nat (cg_degree g' u) < N.of_nat (2 ^ 32))%N; [rewrite Nat2N.inj_pow; exact Hsm|]. apply Nat.nle_gt. intros C. apply (N.lt_irrefl (N.of_nat (cg_degree g' u))). eapply N.lt_le_trans; [eassumption|]. unfold N.le. rewrite <- Nat2N.inj_compare. apply Nat.compare_le_iff. exact C. }
      destruct (Nat.log2_spec (cg_degree g' u)) as (P1 & _); [lia|]. assert (2 ^ 32 <= 2 ^ l) by (apply Nat.pow_le_mono_r; lia). unfold l in *. lia.
  - replace (S b - 1) with b by lia. apply (BI b u); [lia|exact Hun|exact Hu].
Qed.
