(* C54: restricted v-cycles. *)
From Verif Require Import Lib.Prelude Spec.Induced Spec.Level Spec.ExtendSpec Spec.LpSpec Model.SubgraphModel Model.ExtendModel Model.DeepModel
  Model.LpClusterModel Model.VcycleModel Spec.VcycleSpec Proofs.ExtendCases Proofs.VcycleProofs Proofs.VcycleExamples.

(** C54. Projecting communities to the coarse graph: if merged nodes share their community, every coarse node has the
    community of all its nodes, for every order of the parallel stores. *)
Theorem C54_communities_of_coarse_nodes : forall st fine, length (c_map st) = length (c_g st) -> (forall x, In x (c_map st) -> x < c_nc st) ->
  Permutation (c_stores st) (seq 0 (length (c_g st))) ->
  (forall u v, u < length (c_g st) -> v < length (c_g st) -> nth u (c_map st) 0 = nth v (c_map st) 0 -> nth u fine 0 = nth v fine 0) ->
  length (project_down st fine) = c_nc st /\
  forall u, u < length (c_g st) -> nth (nth u (c_map st) 0) (project_down st fine) 0 = nth u fine 0.
Proof. exact project_down_ok. Qed.
Print Assumptions C54_communities_of_coarse_nodes.

(** C54. One restricted v-cycle: the new partition has one label in [0, k) per node, and every new block lies in one block
    of the previous cycle; with as many blocks as before, the partition is the previous one. For every schedule, memory and
    bipartitioner. Missing (hence _partial): the coarsening must only merge nodes of one community (part of [steps_ok]),
    which the default configuration does not guarantee; see C54_two_hop_refuted. *)
Theorem C54_restricted_cycle_partial : forall ub k factor threads last_lvl nthreads choices tid inner ck c refine_after steps gc mems comm,
  2 <= k -> (N.of_nat k < 2 ^ 31)%N -> 1 <= c -> (factor = 0 \/ exists j, 1 <= j /\ factor = 2 ^ j) ->
  (forall lvl g kp, choice_ok g kp (choices lvl g kp)) -> (forall b, tid b < nthreads) -> length mems = nthreads ->
  (forall m, In m mems -> lazy_mem_ok (lg_is_nw gc) (lg_is_ew gc) m) ->
  lg_ok gc -> levels_ok c weights_carry gc (rev (map level_of steps)) ->
  steps_ok gc comm steps -> restricted steps gc comm inner -> level_ok ck k -> (forall x, In x comm -> x < ck) ->
  exists mems' part tr,
    vcycle (ext_lazy ub k factor threads last_lvl nthreads choices tid) inner ck c k refine_after steps gc mems comm =
      Some (nth 0 (map c_g steps) gc, mems', part, k, true, tr) /\
    refines comm part k /\ (ck = k -> part = comm).
Proof. exact vcycle_ok. Qed.
Print Assumptions C54_restricted_cycle_partial.

Example C54_ex : steps_ok coarse2 ex_comm ex_steps /\ restricted ex_steps coarse2 ex_comm join_inner /\
  levels_ok 2 weights_carry coarse2 (rev (map level_of ex_steps)) /\ lg_ok coarse2 /\ level_ok 2 5 /\
  lazy_mem_ok (lg_is_nw coarse2) (lg_is_ew coarse2) free_smem /\
  match vcycle (ext_lazy 0 5 0 1 9 1 any_choice (fun _ => 0)) join_inner 2 2 5 true ex_steps coarse2 [free_smem] ex_comm with
  | Some (_, _, part, kp, _, tr) => Some (part, kp, tr)
  | None => None
  end = Some ([3; 3; 2; 0], 5, [5; 2]).
Proof. exact ex_vcycle. Qed.

(** C54. Any number of restricted v-cycles: the final blocks lie in the blocks of the first cycle. *)
Theorem C54_restricted_cycles_partial : forall c g refine_after cycles, 1 <= c -> forall ck comm, labelled g ck comm -> cycles_ok c g cycles ck ->
  exists part, vcycles c refine_after cycles comm ck = Some (part, last (map cy_k cycles) ck) /\ refines comm part (last (map cy_k cycles) ck).
Proof. exact vcycles_ok. Qed.
Print Assumptions C54_restricted_cycles_partial.

Example C54_ex_cycles : cycles_ok 2 coarse4 [ex_cycle 4; ex_cycle 5] 2 /\ labelled coarse4 2 [1; 1; 0; 0] /\
  option_map fst (vcycles 2 true [ex_cycle 4; ex_cycle 5] [1; 1; 0; 0] 2) = Some [4; 3; 2; 0].
Proof. exact ex_cycles. Qed.

(** Finding. Two-hop matching (default) merges nodes of different communities. Here a clustering that the clusterer
    produces for the blocks of the previous cycle is contracted; the restricted cycle with the same number of blocks then
    returns another partition, which does not refine the previous one and has a larger cut. *)
Theorem C54_two_hop_refuted :
  exists g maxw comm s ev map gc part mems tr,
    lg_ok g /\ symmetric g /\ seq_run g maxw comm true s /\ schedule g ev /\ l_cl (finish (Some true) (Some true) g maxw ev ev s) = map /\
    lg_ok gc /\ levels_ok 1 weights_carry gc [Level g map] /\ length comm = length g /\
    vcycle (ext_lazy 0 2 0 1 9 1 any_choice (fun _ => 0)) no_refine 2 1 2 false [CStep g map (length gc) (seq 0 (length g)) 0] gc [free_smem] comm =
      Some (g, mems, part, 2, true, tr) /\
    ~ refines comm part 2 /\ (lg_cut g comm < lg_cut g part)%Z.
Proof. exact hop_refuted. Qed.
Print Assumptions C54_two_hop_refuted.
