(* C47: 2-way FM refinement of initial bipartitions. *)
From Verif Require Import Lib.Prelude Spec.Graph Spec.InitialSpec Model.InitialFmModel Proofs.InitialFmProofs Proofs.InitialExamples.

(** C47. For every undirected graph, every bipartition (balanced or not), every order of the nodes, every random bit, tie
    and stopping decision: the refinement ends without a violated precondition, returns a bipartition with exact block
    weights that is not more overloaded than the given one, and either is the given one or has a smaller cut. If it
    reports an improvement, the cut is smaller; if it reports none (and makes more than one round at most), the
    bipartition is unchanged. *)
Theorem C47_two_way_fm : forall g (limit perfect : nat -> Z) iters rcs abt lab bw,
  closed_graph g -> undirected g -> nonneg_edges g -> loop_free g -> bipartition g lab bw ->
  (forall i, legal_order (gn g) (rc_chunks (rcs i)) (rc_perms (rcs i))) ->
  exists lab' bw' improved, fm_refine g limit perfect iters rcs abt lab bw = Some (lab', bw', improved) /\
    bipartition g lab' bw' /\ (overload limit g lab' <= overload limit g lab)%Z /\
    (lab' = lab \/ (cut_of g lab' < cut_of g lab)%Z) /\
    (improved = true -> (cut_of g lab' < cut_of g lab)%Z) /\ (iters <> 1 -> improved = false -> lab' = lab).
Proof.
  intros g limit perfect iters rcs abt lab bw H1 H2 H3 H4 B Ho. exact (refine_ok g limit perfect H1 H2 H3 H4 iters rcs abt lab bw B Ho).
Qed.
Print Assumptions C47_two_way_fm.

(** One round: the number it returns is the change of the cut. *)
Theorem C47_round : forall g (limit perfect : nat -> Z) rc lab bw,
  closed_graph g -> undirected g -> nonneg_edges g -> loop_free g -> bipartition g lab bw ->
  legal_order (gn g) (rc_chunks rc) (rc_perms rc) ->
  exists lab' bw' d, fm_round g limit perfect (init_weighted_degrees g) rc lab bw = Some (lab', bw', d) /\
    bipartition g lab' bw' /\ cut_of g lab' = (cut_of g lab + d)%Z /\ (d <= 0)%Z /\
    (overload limit g lab' <= overload limit g lab)%Z /\ (d = 0%Z -> lab' = lab).
Proof.
  intros g limit perfect rc lab bw H1 H2 H3 H4 B Ho. exact (round_ok g limit perfect H1 H2 H3 H4 rc lab bw B Ho).
Qed.
Print Assumptions C47_round.

(** A path of four nodes whose every edge is cut: the cut decreases from 11 to 5. *)
Example C47_ex :
  closed_graph path4 /\ undirected path4 /\ nonneg_edges path4 /\ loop_free path4 /\ bipartition path4 [0; 1; 0; 1] [2; 2]%Z /\
  legal_order 4 (rc_chunks in_order) (rc_perms in_order) /\
  cut_of path4 [0; 1; 0; 1] = 11%Z /\
  fm_refine path4 limit2 perfect2 3 (fun _ => in_order) (fun _ => false) [0; 1; 0; 1] [2; 2]%Z = Some ([0; 0; 0; 1], [3; 1]%Z, true) /\
  cut_of path4 [0; 0; 0; 1] = 5%Z.
Proof. exact fm_example. Qed.

(** Finding: the documentation of the acceptance rule says that it accepts "the first cut that is balanced in case the
    initial cut is not balanced". It does not: a bipartition that is overloaded stays overloaded, in every execution,
    although moving one node (here: node 0) would balance it. *)
Theorem C47_balance_refuted :
  exists g limit perfect lab bw, closed_graph g /\ undirected g /\ nonneg_edges g /\ loop_free g /\ bipartition g lab bw /\
    (0 < overload limit g lab)%Z /\ overload limit g (upd 0 1 lab) = 0%Z /\
    forall iters rcs abt, (forall i, legal_order (gn g) (rc_chunks (rcs i)) (rc_perms (rcs i))) ->
      exists lab' bw' improved, fm_refine g limit perfect iters rcs abt lab bw = Some (lab', bw', improved) /\ (0 < overload limit g lab')%Z.
Proof. exact fm_unbalanced. Qed.
Print Assumptions C47_balance_refuted.
