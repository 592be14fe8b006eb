(* C15, C16: weights of blocks and clusters under concurrent moves. *)
From Verif Require Import Lib.Prelude Spec.Graph Model.BlockWeightModel Proofs.BlockWeightProofs Proofs.BlockWeightExamples.
Local Open Scope Z_scope.

(** Any number of threads start and execute moves (limited, unlimited, or label propagation joins) in any
    interleaving: whenever all of them are idle again, every label is a valid block and every stored block
    weight is the total weight of the nodes of that block. *)
Theorem C15_block_weights_exact : forall g lim ops s s',
  sys_steps (gvw g) lim ops s s' -> quiescent s -> quiescent s' ->
  exact_block_weights g (m_label (s_mem s)) (m_weight (s_mem s)) ->
  exact_block_weights g (m_label (s_mem s')) (m_weight (s_mem s')) /\
  length (m_weight (s_mem s')) = length (m_weight (s_mem s)).
Proof. exact conc_exact. Qed.
Print Assumptions C15_block_weights_exact.

(** Threads that only move nodes with a limit never lift a stored block weight above the limit of that block
    (or above its initial weight, if the block was overloaded), at any moment of any interleaving. *)
Theorem C15_moves_respect_limit : forall g lim s s',
  sys_steps (gvw g) lim (fun o => o = OpMove) s s' -> quiescent s ->
  length (m_label (s_mem s)) = gn g -> (forall u, (u < gn g)%nat -> 0 <= gvw g u) ->
  forall b, nth b (m_weight (s_mem s')) 0 <= Z.max (nth b (m_weight (s_mem s)) 0) (lim b).
Proof. exact conc_move_limit. Qed.
Print Assumptions C15_moves_respect_limit.

(** Two threads swap nodes between two blocks, step by step interleaved. *)
Example C15_ex : exists s',
  sys_steps (gvw ex_g) ex_lim (fun o => o = OpMove) ex_s s' /\ quiescent ex_s /\ quiescent s' /\
  exact_block_weights ex_g (m_label (s_mem ex_s)) (m_weight (s_mem ex_s)) /\ m_label (s_mem s') <> m_label (s_mem ex_s).
Proof.
  exists (mkSys (mkMem [0; 1; 1; 0]%nat [3; 4]) [Idle; Idle]).
  split; [apply (run_sched_steps _ _ _ (firstn 12 ex_sched)); [|exact ex_run]|].
  - intros i o u to H. repeat (destruct H as [H|H]; [try discriminate; injection H; intros; subst; reflexivity|]). destruct H.
  - split; [intros t [<-|[<-|[]]]; reflexivity|]. split; [intros t [<-|[<-|[]]]; reflexivity|].
    split; [exact ex_exact|discriminate].
Qed.

(** The initial weights are exact for every distribution of the nodes to worker threads, and for every
    order of the atomic additions used for very large k. *)
Theorem C15_initial_weights_par : forall g label k chunks,
  length label = gn g -> (forall u, (u < gn g)%nat -> (nth u label 0 < k)%nat) ->
  Permutation (concat chunks) (seq 0 (gn g)) ->
  exact_block_weights g label (init_weights_par (gvw g) label k chunks).
Proof. exact init_par_exact. Qed.
Print Assumptions C15_initial_weights_par.

Theorem C15_initial_weights_seq : forall g label k order,
  length label = gn g -> (forall u, (u < gn g)%nat -> (nth u label 0 < k)%nat) ->
  Permutation order (seq 0 (gn g)) ->
  exact_block_weights g label (init_weights_seq (gvw g) label k order).
Proof. exact init_seq_exact. Qed.
Print Assumptions C15_initial_weights_seq.

Example C15_initial_weights_ex :
  Permutation (concat [[2; 0]; []; [3; 1]])%nat (seq 0 (gn ex_g)) /\
  init_weights_par (gvw ex_g) [0; 0; 1; 1]%nat 2 [[2; 0]; []; [3; 1]]%nat = [3; 4].
Proof.
  split; [|reflexivity]. cbn. apply (Permutation_cons_app [0; 1]%nat [3]%nat). apply (Permutation_cons_app []%nat [1; 3]%nat).
  apply perm_swap.
Qed.

(** Clusters: the weights are exact at quiescence ... *)
Theorem C16_cluster_weights_exact : forall g lim s s',
  sys_steps (gvw g) lim (fun o => o = OpCluster) s s' -> quiescent s -> quiescent s' ->
  exact_block_weights g (m_label (s_mem s)) (m_weight (s_mem s)) ->
  exact_block_weights g (m_label (s_mem s')) (m_weight (s_mem s')) /\
  length (m_weight (s_mem s')) = length (m_weight (s_mem s)).
Proof. exact (fun g lim s s' => conc_exact g lim _ s s'). Qed.
Print Assumptions C16_cluster_weights_exact.

(** ... and with T threads and node weights of at most M no cluster exceeds its limit by more than
    (T - 1) * M; with one thread not at all. *)
Theorem C16_cluster_weight_overshoot : forall g lim M s s',
  sys_steps (gvw g) lim (fun o => o = OpCluster) s s' -> quiescent s ->
  length (m_label (s_mem s)) = gn g -> 0 <= M -> (forall u, (u < gn g)%nat -> 0 <= gvw g u <= M) ->
  (1 <= length (s_threads s))%nat ->
  forall b, nth b (m_weight (s_mem s')) 0 <=
    Z.max (nth b (m_weight (s_mem s)) 0) (lim b + (Z.of_nat (length (s_threads s)) - 1) * M).
Proof. exact conc_cluster_limit. Qed.
Print Assumptions C16_cluster_weight_overshoot.

Example C16_ex :
  sys_steps (gvw lp_g) lp_lim (fun o => o = OpCluster) lp_s lp_end /\ quiescent lp_s /\ quiescent lp_end /\
  exact_block_weights lp_g (m_label (s_mem lp_s)) (m_weight (s_mem lp_s)) /\
  nth 2 (m_weight (s_mem lp_end)) 0 = lp_lim 2 + (Z.of_nat (length (s_threads lp_s)) - 1) * 1.
Proof.
  split; [apply (run_sched_steps _ _ _ lp_sched); [|exact lp_run]|].
  - intros i o u to H. repeat (destruct H as [H|H]; [try discriminate; injection H; intros; subst; reflexivity|]). destruct H.
  - split; [intros t [<-|[<-|[]]]; reflexivity|]. split; [intros t [<-|[<-|[]]]; reflexivity|]. split; [exact lp_exact|reflexivity].
Qed.

(** The hard limit itself does not hold: two threads can overload a cluster. *)
Theorem C16_hard_limit_refuted : exists g lim s s',
  quiescent s /\ exact_block_weights g (m_label (s_mem s)) (m_weight (s_mem s)) /\
  (forall b, (b < length (m_weight (s_mem s)))%nat -> nth b (m_weight (s_mem s)) 0 <= lim b) /\
  length (s_threads s) = 2%nat /\
  sys_steps (gvw g) lim (fun o => o = OpCluster) s s' /\ quiescent s' /\
  exists b, block_weight g (fun u => nth u (m_label (s_mem s')) 0%nat) b > lim b.
Proof. exact lp_refuted. Qed.
Print Assumptions C16_hard_limit_refuted.
