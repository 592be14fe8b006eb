(* What a legal environment of a complete partitioning call is (for the statements about Model/PipelineModel.v). *)
From Verif Require Import Lib.Prelude Spec.Graph Spec.Quotient Spec.Induced Spec.Level Spec.ExtendSpec Model.CsrModel Model.PermModel Model.FacadeModel
  Model.UnbufModel Model.SubgraphModel Model.ExtendModel Model.DeepModel Model.PipelineModel.

(** A coarsening step: cluster labels are node numbers; parallel loops visit every node once; buffers and rating maps have
    admissible sizes. *)
Definition step_ok (s : cstep) : Prop :=
  0 < st_thr s /\ st_thr s <= st_mapsize s /\
  forall g, 0 < gn g ->
    (forall u, u < gn g -> nth u (st_clustering s g) 0 < gn g) /\
    Permutation (st_order0 s g) (seq 0 (gn g)) /\ Permutation (st_order1 s g) (seq 0 (gn g)) /\
    Permutation (st_order2 s g) (seq 0 (gn g)) /\ length (st_garbage s g) = gn g.

(** The partitioner's environment for k blocks: initial partitioning labels all nodes with an admissible number of blocks,
    bipartitioners return labels 0 and 1, refinement keeps the number of nodes and the range of labels; the parameters
    are admissible. *)
Definition env_ok (e : penv) (k : nat) : Prop :=
  (forall s, In s (pe_steps e) -> step_ok s) /\
  (forall g, labelled g (snd (pe_initial e g)) (fst (pe_initial e g)) /\ level_ok (snd (pe_initial e g)) k) /\
  1 <= pe_c e /\ (pe_factor e = 0 \/ exists j, 1 <= j /\ pe_factor e = 2 ^ j) /\
  (forall lvl g kp, choice_ok g kp (pe_choices e lvl g kp)) /\ (forall b, pe_tid e b < pe_nthreads e) /\
  (forall lvl ph g kp part, labelled g kp part -> labelled g kp (pe_refine e lvl ph g kp part)).

(** Some edge does not have weight 1. *)
Definition edge_weighted (g : graph) : Prop := exists u v w, u < gn g /\ In (v, w) (gadj g u) /\ w <> 1%Z.

(** Coarsening an edge-weighted graph never gives a graph without edge weights. *)
Fixpoint edge_weights_stay (g : graph) (lvs : list (list nat * graph)) : Prop :=
  match lvs with [] => True | (_, h) :: rest => (edge_weighted g -> edge_weighted h) /\ edge_weights_stay h rest end.

(** A call in a state: everything but the labels is as in [valid_call]; the contraction limit C is such that n / C fits. *)
Definition legal_call (m ewn n : nat) (e : penv) (c : pcall) (f : facade) : Prop :=
  2 <= pc_k c /\ (N.of_nat (pc_k c) < 2 ^ 31)%N /\ 0 < pc_concurrency c /\
  length (pc_junk_edges c) = m /\ length (pc_junk_weights c) = ewn /\
  valid_schedule (pc_threads c) n (pc_schedule c) /\
  env_ok e (pc_k c) /\ (N.of_nat (n / pe_c e) <= 2 ^ 31)%N /\
  forall lvs, coarsen_loop (pe_threshold e) (pe_steps e) true (cg_graph (fc_partitioner_input c f)) = Ok lvs ->
    edge_weights_stay (cg_graph (fc_partitioner_input c f)) lvs.

Fixpoint legal_history (m ewn n : nat) (bits : Z) (cs : list (penv * pcall)) (f : facade) : Prop :=
  match cs with
  | [] => True
  | (e, c) :: rest => legal_call m ewn n e c f /\
      forall r, full_call bits e c f = Ok r -> legal_history m ewn n bits rest (fst (fst r))
  end.
