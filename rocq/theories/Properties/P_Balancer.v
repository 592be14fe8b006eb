(* C20: the greedy balancer. [overload lim m b] is the amount by which the stored weight of block [b] exceeds its limit;
   [exact_block_weights] (Spec/Graph.v) says that the stored weights are the weights of the blocks given by the labels. *)
From Verif Require Import Lib.Prelude Spec.Graph Model.BlockWeightModel Model.BalancerModel Proofs.BalancerTop Proofs.BalancerStuck Proofs.BalancerDone Proofs.BalancerCases.
Local Open Scope Z_scope.

(** For every graph, every number of threads [T], every order in which the nodes of the overloaded blocks reach the
    queues and every schedule [es]: the run is free of errors (no node is inserted into the queues twice); no block is
    ever more overloaded than at the start, in particular a block within its limit stays within it; the total overload
    never exceeds the initial one; only nodes of overloaded blocks move; and when all tasks have ended, the stored block
    weights are exact and the balancer reports success if and only if every block respects its limit. *)
Theorem C20_balancer_safe : forall g k lim perf, closed_graph g -> (forall u, (u < gn g)%nat -> 0 <= gvw g u) ->
  forall T m order es, exact_block_weights g (m_label m) (m_weight m) -> length (m_weight m) = k ->
  Permutation (map fst order) (overloaded_nodes g lim m) ->
  exists s0 s, init_bal g k lim T m order = Some s0 /\ b_run g k lim perf es s0 = Some s /\
    (forall b, (b < k)%nat -> overload lim (b_mem s) b <= overload lim m b) /\
    total_overload k lim (b_mem s) <= total_overload k lim m /\
    (forall u, (u < gn g)%nat -> nth u (m_label (b_mem s)) 0%nat <> nth u (m_label m) 0%nat -> 0 < overload lim m (nth u (m_label m) 0%nat)) /\
    (b_finished s = true ->
       exact_block_weights g (m_label (b_mem s)) (m_weight (b_mem s)) /\ length (m_weight (b_mem s)) = k /\
       (b_returns k lim m s = true <->
          forall b, (b < k)%nat -> block_weight g (fun u => nth u (m_label (b_mem s)) 0%nat) b <= lim b)).
Proof. exact balancer_safe. Qed.
Print Assumptions C20_balancer_safe.

Example C20_balancer_safe_ex : closed_graph (bal_graph [2; 2; 1; 1]) /\ (forall u, (u < 4)%nat -> 0 <= gvw (bal_graph [2; 2; 1; 1]) u) /\
  exact_block_weights (bal_graph [2; 2; 1; 1]) (m_label bal_ok_mem) (m_weight bal_ok_mem) /\
  map fst bal_ok_order = overloaded_nodes (bal_graph [2; 2; 1; 1]) (fun _ => 4) bal_ok_mem /\
  match init_bal (bal_graph [2; 2; 1; 1]) 2 (fun _ => 4) 2 bal_ok_mem bal_ok_order with
  | Some s0 => b_pq s0 = [[2]; []]%nat /\
      match b_run (bal_graph [2; 2; 1; 1]) 2 (fun _ => 4) (fun _ => 3) bal_ok_es s0 with
      | Some s => b_mem s = mkMem [0; 0; 1; 1]%nat [4; 2] /\ b_finished s = true /\ b_returns 2 (fun _ => 4) bal_ok_mem s = true
      | None => False
      end
  | None => False
  end.
Proof.
  split; [apply bal_closed|]. split; [intros [|[|[|[|u]]]] Hu; cbn; lia|]. split; [exact bal_ok_exact|]. split; [reflexivity|]. vm_compute. repeat split.
Qed.

(** If the limits are not negative, the balancer only returns with success: whenever all tasks have ended, no block is above
    its limit. (The queue of a block always holds enough weight to remove its overload.) *)
Theorem C20_returns_only_balanced : forall g k lim perf, closed_graph g -> (forall u, (u < gn g)%nat -> 0 <= gvw g u) -> (forall b, (b < k)%nat -> 0 <= lim b) ->
  forall T m order es s0 s, exact_block_weights g (m_label m) (m_weight m) -> length (m_weight m) = k ->
  Permutation (map fst order) (overloaded_nodes g lim m) ->
  init_bal g k lim T m order = Some s0 -> b_run g k lim perf es s0 = Some s -> b_finished s = true ->
  b_returns k lim m s = true /\ forall b, (b < k)%nat -> block_weight g (fun u => nth u (m_label (b_mem s)) 0%nat) b <= lim b.
Proof. exact balancer_returns_true. Qed.
Print Assumptions C20_returns_only_balanced.
(** The run of [C20_balancer_safe_ex] meets the hypotheses: block 0 has weight 5 > 4 at the start. *)
Example C20_returns_only_balanced_ex : overload (fun _ => 4) bal_ok_mem 0 = 1 /\ exists s0 s,
  init_bal (bal_graph [2; 2; 1; 1]) 2 (fun _ => 4) 2 bal_ok_mem bal_ok_order = Some s0 /\
  b_run (bal_graph [2; 2; 1; 1]) 2 (fun _ => 4) (fun _ => 3) bal_ok_es s0 = Some s /\ b_finished s = true.
Proof. split; [reflexivity|]. eexists. eexists. split; [vm_compute; reflexivity|]. split; vm_compute; reflexivity. Qed.

(** If no node of any overloaded block fits into any other block, the balancer never comes to an end, whatever the
    schedule: a node that could not be moved is inserted again and again (greedy_balancer.cc:182-186, :202, :154). *)
Theorem C20_no_room_no_return : forall g k lim perf, closed_graph g -> (forall u, (u < gn g)%nat -> 0 <= gvw g u) ->
  forall m a, (a < k)%nat -> 0 < overload lim m a ->
  (forall u to, (u < gn g)%nat -> 0 < overload lim m (nth u (m_label m) 0%nat) -> (to < k)%nat -> to <> nth u (m_label m) 0%nat ->
     lim to < wt m to + gvw g u) ->
  forall T order es s0 s, exact_block_weights g (m_label m) (m_weight m) -> length (m_weight m) = k ->
  Permutation (map fst order) (overloaded_nodes g lim m) -> (exists u, (u < gn g)%nat /\ nth u (m_label m) 0%nat = a) ->
  init_bal g k lim T m order = Some s0 -> b_run g k lim perf es s0 = Some s -> b_finished s = false.
Proof. exact balancer_stuck. Qed.
Print Assumptions C20_no_room_no_return.

(** Finding: the balancer does not always return. There is a partition with sensible limits (a partition within the limits
    exists) from which no schedule, with any number of threads, brings it to an end. *)
Theorem C20_return_refuted : exists g k lim perf m,
  closed_graph g /\ (forall u, (u < gn g)%nat -> 0 <= gvw g u) /\ exact_block_weights g (m_label m) (m_weight m) /\ length (m_weight m) = k /\
  (exists p, (forall u, (u < gn g)%nat -> (p u < k)%nat) /\ forall b, (b < k)%nat -> block_weight g p b <= lim b) /\
  (forall b, (b < k)%nat -> 0 < perf b <= lim b) /\
  forall T order, Permutation (map fst order) (overloaded_nodes g lim m) ->
    exists s0, init_bal g k lim T m order = Some s0 /\ forall es s, b_run g k lim perf es s0 = Some s -> b_finished s = false.
Proof. exact termination_refuted. Qed.
Print Assumptions C20_return_refuted.

(** The hypotheses of [C20_no_room_no_return] hold for node weights 5 5 1 1, blocks {0,1} and {2,3}, limit 6. *)
Example C20_no_room_no_return_ex : 0 < overload (fun _ => 6) bal_stuck_mem 0 /\
  (forall u to, (u < 4)%nat -> 0 < overload (fun _ => 6) bal_stuck_mem (nth u (m_label bal_stuck_mem) 0%nat) -> (to < 2)%nat ->
     to <> nth u (m_label bal_stuck_mem) 0%nat -> 6 < wt bal_stuck_mem to + gvw (bal_graph [5; 5; 1; 1]) u) /\
  exact_block_weights (bal_graph [5; 5; 1; 1]) (m_label bal_stuck_mem) (m_weight bal_stuck_mem).
Proof.
  split; [reflexivity|]. split; [|exact bal_stuck_exact].
  intros [|[|[|[|u]]]] [|[|to]] Hu Ho Ht Hne; cbn in *; lia.
Qed.
