(* Model of a complete call of compute_partition with the deep multilevel partitioner: preprocessing, coarsening by
   clustering and contraction, initial partitioning, uncoarsening with refinement and extension, postprocessing. The
   clustering algorithm, the initial partitioner, the refinement algorithms and the bipartitioner are arbitrary functions;
   threads interleave arbitrarily. Lazy subgraph memory (the default), no communities (v-cycles), no compression. *)
From Verif Require Import Lib.Prelude Spec.Graph Spec.Induced Model.CsrModel Model.PermModel Model.FacadeModel Model.UnbufModel
  Model.SubgraphModel Model.ExtendModel Model.DeepModel.

(** What the environment decides in one coarsening step: the clustering, the orders in which parallel loops visit nodes,
    uninitialised memory, the sizes of buffers and the interleaving of the contraction, the hash function of the rating
    map, the number of threads, and whether the coarsener reports that the graph shrank (a floating-point comparison of
    the two sizes, cluster_coarsener.cc:123-124). *)
Record cstep := mkStep {
  st_clustering : graph -> list nat;
  st_order0 : graph -> list nat; st_order1 : graph -> list nat; st_order2 : graph -> list nat; st_garbage : graph -> list nat;
  st_single : bool; st_maxn : nat; st_maxe : nat; st_threads : nat; st_mapsize : nat; st_thr : nat; st_hash : nat -> nat;
  st_evs : graph -> list uevent; st_sched : graph -> nat -> list sevent * list cevent; st_shrunk : graph -> graph -> bool }.

(** cluster_coarsener.cc:53-133 ClusteringCoarsener::coarsen: mapping and coarse graph. *)
Definition coarsen_step (s : cstep) (g : graph) : out (list nat * graph) :=
  match contract_clustering_unbuffered (st_maxn s) (st_maxe s) (st_threads s) (st_mapsize s) (st_thr s) (st_hash s) g
          (st_clustering s g) (st_order0 s g) (st_order1 s g) (st_order2 s g) (st_garbage s g) (st_single s) (st_evs s g) (st_sched s g) with
  | Ok (mapping, (nodes, edges, nw, ew)) => Ok (mapping, user_graph nodes edges nw ew)
  | Ub => Ub
  | Bad => Bad
  end.

(** deep_multilevel.cc:69-158 the coarsening loop. [Bad]: the script of the environment ends too early or is no legal
    interleaving. *)
Fixpoint coarsen_loop (threshold : nat) (steps : list cstep) (shrunk : bool) (g : graph) : out (list (list nat * graph)) :=
  if shrunk && (threshold <? gn g) then
    match steps with
    | [] => Bad
    | s :: rest =>
      match coarsen_step s g with
      | Ok (mapping, h) =>
        match coarsen_loop threshold rest (st_shrunk s g h) h with
        | Ok lvs => Ok ((mapping, h) :: lvs)
        | Ub => Ub
        | Bad => Bad
        end
      | Ub => Ub
      | Bad => Bad
      end
    end
  else Ok [].

(** A graph as a plain list (see Spec/Induced.v). *)
Definition lgraph_of (g : graph) : lgraph := map (fun u => (gvw g u, gadj g u)) (seq 0 (gn g)).

(** The hierarchy as uncoarsening visits it, from coarse to fine. *)
Fixpoint finer_levels (g : graph) (lvs : list (list nat * graph)) : list level :=
  match lvs with
  | [] => []
  | (mapping, h) :: rest => finer_levels h rest ++ [Level (lgraph_of g) mapping]
  end.
Fixpoint coarsest_of (g : graph) (lvs : list (list nat * graph)) : graph :=
  match lvs with [] => g | (_, h) :: rest => coarsest_of h rest end.

(** Everything else the environment decides in one call of the partitioner, and the parameters: coarsening script and
    threshold (deep_multilevel.cc:160-173), initial partitioning (:175-248), contraction limit C, extension parameters,
    number of threads, bipartitioner with orders of loops, refinement. *)
Record penv := mkPenv {
  pe_steps : list cstep; pe_threshold : nat;
  pe_initial : lgraph -> list nat * nat;
  pe_c : nat; pe_ub : N; pe_factor : nat; pe_threads : nat; pe_nthreads : nat; pe_refine_after : bool;
  pe_choices : nat -> lgraph -> nat -> choice; pe_tid : nat -> nat;
  pe_refine : nat -> nat -> lgraph -> nat -> list nat -> list nat }.

(** deep_multilevel.cc:83-84 _last_initial_partitioning_level: the level after which the subgraph memories are cleared;
    0 if no coarse graph is too small for k blocks. *)
Fixpoint last_ip_level (c k lvl : nat) (lvs : list (list nat * graph)) : nat :=
  match lvs with
  | [] => 0
  | (_, h) :: rest =>
    match k_for_n (gn h) c k with
    | Some kc => if kc <? k then lvl else last_ip_level c k (S lvl) rest
    | None => 0
    end
  end.

(** deep_multilevel.cc:54-67 partition(): the labels for the graph [g]. *)
Definition deep_partition (e : penv) (k : nat) (g : graph) : out (list nat) :=
  match coarsen_loop (pe_threshold e) (pe_steps e) true g with
  | Ub => Ub
  | Bad => Bad
  | Ok lvs =>
    let g0 := lgraph_of (coarsest_of g lvs) in
    let (part0, kp0) := pe_initial e g0 in
    match uncoarsen (ext_lazy (pe_ub e) k (pe_factor e) (pe_threads e) (last_ip_level (pe_c e) k 0 lvs) (pe_nthreads e) (pe_choices e) (pe_tid e))
            (pe_refine e) (pe_c e) k (pe_refine_after e) (finer_levels g lvs) g0 (repeat free_smem (pe_nthreads e)) part0 kp0 with
    | None => Ub
    | Some (_, _, part, _, _, _) => Ok part
    end
  end.

(** The call with the labels that the partitioner computed. *)
Definition with_labels (c : pcall) (labels : list nat) : pcall :=
  mkPCall (pc_degree_buckets c) (pc_k c) (pc_max_block_weight c) (pc_concurrency c) (pc_junk_edges c) (pc_junk_weights c)
    labels (pc_threads c) (pc_schedule c) (pc_out c).

(** kaminpar.cc:314-421 compute_partition with the deep multilevel partitioner (kaminpar.cc:370-382). [pc_labels] of the
    call is not used. *)
Definition full_call (bits : Z) (e : penv) (c : pcall) (f : facade) : out (facade * list nat * option Z) :=
  match deep_partition e (pc_k c) (cg_graph (fc_partitioner_input c f)) with
  | Ok labels => Ok (compute_partition bits (with_labels c labels) f)
  | Ub => Ub
  | Bad => Bad
  end.

(** The facade after a sequence of calls. *)
Fixpoint full_calls (bits : Z) (cs : list (penv * pcall)) (f : facade) : out facade :=
  match cs with
  | [] => Ok f
  | (e, c) :: rest =>
    match full_call bits e c f with
    | Ok (f', _, _) => full_calls bits rest f'
    | Ub => Ub
    | Bad => Bad
    end
  end.
