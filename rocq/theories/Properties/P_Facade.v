(* C01, C02, C03, C05: what the caller of compute_partition observes. *)
From Verif Require Import Lib.Prelude Spec.Graph Model.CsrModel Model.PermModel Model.FacadeModel
  Proofs.GraphFacts Proofs.CsrProofs Proofs.PermProofs Proofs.IsolatedProofs Proofs.FacadeProofs
  Proofs.FacadeFacts Proofs.Decide.

(** The facade after handing over a graph (copied or borrowed). *)
Definition hand_over (borrowed : bool) (xadj adjncy : list nat) (vwgt adjwgt : list Z) : facade :=
  if borrowed then borrow_and_mutate_graph xadj adjncy vwgt adjwgt else copy_graph xadj adjncy vwgt adjwgt.

(** C01: after any history of calls on an undirected graph with positive weights, a further call
    writes every one of the n entries of the output span with a block below k, and nothing beyond,
    provided the partitioner labelled the graph it was given with blocks below k. *)
Theorem C01_labels_in_range : forall xadj adjncy vwgt adjwgt bits borrowed cs c,
  wf_csr xadj adjncy vwgt adjwgt ->
  (forall x, In x vwgt -> (1 <= x)%Z) -> (forall x, In x adjwgt -> (1 <= x)%Z) ->
  (N.of_nat (length adjncy) < 2 ^ 31)%N -> 0 < length xadj - 1 ->
  undirected (user_graph xadj adjncy vwgt adjwgt) ->
  let n := length xadj - 1 in
  let f := run_calls bits cs (hand_over borrowed xadj adjncy vwgt adjwgt) in
  valid_history (length adjncy) (length adjwgt) n bits cs (hand_over borrowed xadj adjncy vwgt adjwgt) ->
  valid_call (length adjncy) (length adjwgt) n c f -> n <= length (pc_out c) ->
  let out := snd (fst (compute_partition bits c f)) in
  length out = length (pc_out c) /\
  (forall u, u < n -> nth u out 0 < pc_k c) /\
  (forall u, n <= u -> nth u out 0 = nth u (pc_out c) 0).
Proof. exact facade_labels. Qed.
Print Assumptions C01_labels_in_range.

(** C02: ... and returns the cut of the partition that it wrote, in terms of the caller's graph. *)
Theorem C02_returned_value_is_cut : forall xadj adjncy vwgt adjwgt bits borrowed cs c,
  wf_csr xadj adjncy vwgt adjwgt ->
  (forall x, In x vwgt -> (1 <= x)%Z) -> (forall x, In x adjwgt -> (1 <= x)%Z) ->
  (N.of_nat (length adjncy) < 2 ^ 31)%N -> 0 < length xadj - 1 ->
  undirected (user_graph xadj adjncy vwgt adjwgt) ->
  let n := length xadj - 1 in
  let f := run_calls bits cs (hand_over borrowed xadj adjncy vwgt adjwgt) in
  valid_history (length adjncy) (length adjwgt) n bits cs (hand_over borrowed xadj adjncy vwgt adjwgt) ->
  valid_call (length adjncy) (length adjwgt) n c f ->
  let out := snd (fst (compute_partition bits c f)) in
  let cut := cut_weight (user_graph xadj adjncy vwgt adjwgt) (fun u => nth u out 0) in
  (- 2 ^ (bits - 1) <= cut < 2 ^ (bits - 1))%Z ->
  snd (compute_partition bits c f) = Some cut.
Proof. exact facade_cut. Qed.
Print Assumptions C02_returned_value_is_cut.

(** C03: if isolated nodes have unit weight, the blocks as computed by the partitioner respect their
    limits and the limits add up to at least the total weight, then all blocks of the result (which
    includes the isolated nodes) respect their limits. *)
Theorem C03_isolated_nodes_keep_balance : forall xadj adjncy vwgt adjwgt bits borrowed cs c,
  wf_csr xadj adjncy vwgt adjwgt ->
  (forall x, In x vwgt -> (1 <= x)%Z) -> (forall x, In x adjwgt -> (1 <= x)%Z) ->
  (N.of_nat (length adjncy) < 2 ^ 31)%N -> 0 < length xadj - 1 ->
  undirected (user_graph xadj adjncy vwgt adjwgt) ->
  let g := user_graph xadj adjncy vwgt adjwgt in
  let f := run_calls bits cs (hand_over borrowed xadj adjncy vwgt adjwgt) in
  valid_history (length adjncy) (length adjwgt) (gn g) bits cs (hand_over borrowed xadj adjncy vwgt adjwgt) ->
  valid_call (length adjncy) (length adjwgt) (gn g) c f ->
  (forall u, u < gn g -> gadj g u = [] -> gvw g u = 1%Z) ->
  (forall b, b < pc_k c ->
     Z.le (block_weight (cg_graph (fc_partitioner_input c f)) (fun u => nth u (pc_labels c) 0) b)
          (pc_max_block_weight c b)) ->
  (total_weight g <= sumn (pc_k c) (pc_max_block_weight c))%Z ->
  let out := snd (fst (compute_partition bits c f)) in
  forall b, b < pc_k c -> Z.le (block_weight g (fun u => nth u out 0) b) (pc_max_block_weight c b).
Proof. exact facade_balance. Qed.
Print Assumptions C03_isolated_nodes_keep_balance.

(** C03 without the unit weight assumption: only the last block can become overloaded. *)
Theorem C03_only_last_block_overloaded_partial : forall g k part bw n' maxw,
  0 < k -> n' <= cg_n g -> length bw = k -> n' <= length part ->
  (forall b, b < k -> nth b bw 0%Z = block_weight (prefix_graph n' (cg_graph g)) (fun u => nth u part 0) b) ->
  (forall u, u < n' -> nth u part 0 < k) ->
  (forall b, b < k -> (nth b bw 0 <= maxw b)%Z) ->
  forall b, S b < k ->
  Z.le (block_weight (cg_graph g)
          (fun u => nth u (assign_isolated_nodes g k part bw (cg_n g - n') maxw) 0) b) (maxw b).
Proof. exact assign_isolated_nonlast. Qed.
Print Assumptions C03_only_last_block_overloaded_partial.

(** C03 fails for weighted isolated nodes: the limits leave room for all of them, but the greedy
    assignment never returns to a block it has skipped. *)
Theorem C03_weighted_isolated_refuted : exists g k part bw maxw num_isolated,
  let part' := assign_isolated_nodes g k part bw num_isolated maxw in
  (total_weight (cg_graph g) <= sumn k maxw)%Z /\
  (forall b, b < k -> (nth b bw 0 <= maxw b)%Z) /\
  (exists fit, (forall u, u < cg_n g - num_isolated -> fit u = nth u part 0) /\
     forall b, b < k -> (block_weight (cg_graph g) fit b <= maxw b)%Z) /\
  Z.lt (maxw (k - 1)) (block_weight (cg_graph g) (fun u => nth u part' 0) (k - 1)).
Proof.
  exists (cg_make (sa_make [0; 1; 2; 2; 2; 2]) [1; 0] (sa_make [2; 1; 3; 2; 2]%Z) [] true), 2, [0; 0], [3; 0]%Z, (fun _ => 5%Z), 3.
  split; [|split; [|split]].
  - vm_compute. discriminate.
  - intros b Hb. do 2 (destruct b; [vm_compute; discriminate|]). lia.
  - exists (fun u => if u <? 2 then 0 else if u =? 3 then 0 else 1). split.
    + intros u Hu. vm_compute in Hu. do 2 (destruct u; [reflexivity|]). lia.
    + intros b Hb. do 2 (destruct b; [vm_compute; discriminate|]). lia.
  - vm_compute. reflexivity.
Qed.
Print Assumptions C03_weighted_isolated_refuted.

(** A graph with 6 nodes, two of them isolated: nodes 1 and 4; 0-2 (weight 7), 0-3 (1), 0-5 (2), 3-5 (3). *)
Definition ex_xadj := [0; 3; 3; 4; 6; 6; 8].
Definition ex_adjncy := [2; 3; 5; 0; 0; 5; 0; 3].
Definition ex_adjwgt := [7; 1; 2; 7; 1; 3; 2; 3]%Z.
Definition ex_call : pcall :=
  mkPCall true 2 (fun _ => 3%Z) 4 (repeat 99 8) (repeat 99%Z 8) [0; 1; 1; 0] 2
    [(1, [3; 4; 5]); (0, [0; 1; 2])] (repeat 77 8).
Definition ex_call2 : pcall :=
  mkPCall false 3 (fun _ => 3%Z) 2 (repeat 98 8) (repeat 98%Z 8) [2; 0; 1; 1] 1 [(0, [0; 1; 2; 3; 4; 5])] (repeat 66 6).
Example C01_C02_C03_ex :
  let f0 := hand_over true ex_xadj ex_adjncy [] ex_adjwgt in
  let f := run_calls 32 [ex_call] f0 in
  wf_csr ex_xadj ex_adjncy [] ex_adjwgt /\ undirected (user_graph ex_xadj ex_adjncy [] ex_adjwgt) /\
  valid_history 8 8 6 32 [ex_call] f0 /\ valid_call 8 8 6 ex_call2 f /\
  compute_partition 32 ex_call f0 = (f, [1; 0; 0; 1; 1; 0; 77; 77], Some 12%Z) /\
  snd (fst (compute_partition 32 ex_call2 f)) = [0; 0; 2; 1; 0; 1] /\
  snd (compute_partition 32 ex_call2 f) = Some 10%Z.
Proof.
  split; [apply check_wf_ok; reflexivity|]. split; [apply check_undirected_ok; reflexivity|].
  assert (valid_schedule 2 6 [(1, [3; 4; 5]); (0, [0; 1; 2])]) as V1.
  { split; [intros t ch [E|[E|[]]]; injection E as <- _; lia|].
    apply (Permutation_app_comm [3; 4; 5] [0; 1; 2]). }
  split; [|split; [|split; [|split]]].
  - split; [|exact I]. split; [vm_compute; lia|]. split; [vm_compute; lia|]. split; [reflexivity|]. split; [reflexivity|].
    split; [reflexivity|]. split; [|exact V1]. intros x Hx. simpl in Hx. simpl. lia.
  - split; [vm_compute; lia|]. split; [vm_compute; lia|]. split; [reflexivity|]. split; [reflexivity|].
    split; [reflexivity|]. split; [|split; [|apply Permutation_refl]].
    + intros x Hx. simpl in Hx. simpl. lia.
    + intros t ch [E|[]]. injection E as <- _. simpl. lia.
  - vm_compute. reflexivity.
  - vm_compute. reflexivity.
  - vm_compute. reflexivity.
Qed.

(** C05: reordering by degree buckets yields an isomorphic graph (via the reported permutation) whose
    nodes are grouped by degree classes with isolated nodes last; whatever the number of workers and
    the contents of uninitialised memory. *)
Theorem C05_rearranged_graph_isomorphic : forall (borrowed : bool) conc junk junkw xadj adjncy vwgt adjwgt,
  wf_csr xadj adjncy vwgt adjwgt ->
  (forall x, In x vwgt -> (1 <= x)%Z) -> (forall x, In x adjwgt -> (1 <= x)%Z) ->
  (N.of_nat (length adjncy) < 2 ^ 31)%N -> 0 < conc ->
  length junk = length adjncy -> length junkw = length adjwgt ->
  let g' := rearrange_by_degree_buckets conc junk junkw (fc_graph (hand_over borrowed xadj adjncy vwgt adjwgt)) in
  isomorphic_by (fun u => nth u (cg_permutation g') 0) (user_graph xadj adjncy vwgt adjwgt) (cg_graph g') /\
  exists n', sorted_by_degree_class (sa_list (cg_nodes g')) n'.
Proof. exact rearranged_isomorphic. Qed.
Print Assumptions C05_rearranged_graph_isomorphic.
Example C05_rearranged_graph_isomorphic_ex :
  let g' := rearrange_by_degree_buckets 4 (repeat 99 8) (repeat 99%Z 8)
              (fc_graph (hand_over true ex_xadj ex_adjncy [] ex_adjwgt)) in
  cg_permutation g' = [1; 4; 0; 2; 5; 3] /\ sa_list (cg_nodes g') = [0; 1; 4; 6; 8; 8; 8] /\
  cg_edges g' = [1; 3; 2; 0; 3; 1; 2; 1].
Proof. vm_compute. auto. Qed.

(** C05, a consequence: cuts and block weights are the same in both numberings. *)
Theorem C05_isomorphism_preserves_metrics : forall f g h p,
  isomorphic_by f g h -> closed_graph g -> undirected g ->
  cut_weight g (fun u => p (f u)) = cut_weight h p /\
  (forall b, block_weight g (fun u => p (f u)) b = block_weight h p b) /\
  total_weight g = total_weight h.
Proof. exact iso_metrics. Qed.
Print Assumptions C05_isomorphism_preserves_metrics.
