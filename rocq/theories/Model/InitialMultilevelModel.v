(* The multilevel bipartitioner: coarsening, pool, uncoarsening with refinement
   (kaminpar-shm/initial_partitioning/initial_multilevel_bipartitioner.cc, sequential_graph_hierarchy.cc,
   initial_bipartitioner_worker_pool.h).

   Not modelled: the timings; the partition arrays taken from the memory cache may be longer than the graph has nodes,
   only the entries of its nodes are represented. *)
From Verif Require Import Lib.Prelude Spec.Graph Model.InitialFmModel Model.InitialFlatModel Model.InitialPoolModel
  Model.RatingMapModel Model.InitialCoarsenModel.

(** partitioned_graph.h:306-312 init_block_weights_seq. *)
Fixpoint add_weights (g : graph) (us : list nat) (lab : list nat) (bw : list Z) : option (list Z) :=
  match us with
  | [] => Some bw
  | u :: r =>
      match nth_error lab u with
      | None => None
      | Some b => match nth_error bw b with
                  | None => None
                  | Some x => add_weights g r lab (upd b (x + gvw g u)%Z bw)
                  end
      end
  end.

(** sequential_graph_hierarchy.cc:73-75: partition[u] = coarse_p_graph.block(c_mapping[u]). *)
Fixpoint project_labels (mapping coarse : list nat) (us : list nat) : option (list nat) :=
  match us with
  | [] => Some []
  | u :: r =>
      match nth_error mapping u with
      | None => None
      | Some c => match nth_error coarse c with
                  | None => None
                  | Some b => match project_labels mapping coarse r with Some l => Some (b :: l) | None => None end
                  end
      end
  end.

(** sequential_graph_hierarchy.cc:51-99 pop with k = 2: the block weights live in an array [cached] from the memory cache,
    which is cleared (and enlarged if it is too short), then the constructor adds the node weights. *)
Definition pop (g : graph) (mapping coarse : list nat) (cached : list Z) : option (list nat * list Z) :=
  match project_labels mapping coarse (seq 0 (gn g)) with
  | None => None
  | Some lab =>
      let zero := repeat 0%Z (length cached) in
      let zero := if length zero <? 2 then repeat 0%Z 2 else zero in
      match add_weights g (seq 0 (gn g)) lab zero with Some bw => Some (lab, bw) | None => None end
  end.

(** What the environment decides: for coarsening; for the runs of the pool on a graph with a given number of nodes; the
    choices of the refinement on a level with a given number of nodes; the cached block weight array on a level. *)
Record menv := mkMenv {
  me_coarsen : cenv; me_pool : nat -> nat -> nat -> run_env;
  me_rounds : nat -> nat -> nat -> rchoice; me_abort : nat -> nat -> bool; me_cached : nat -> list Z }.

(** kaminpar.h InitialPartitioningContext: contraction limit, pool, refinement (None: disabled), refine_pool_partition. *)
Record mconfig := mkMconfig { mc_limit : nat; mc_pool : pool_config; mc_fm : option nat; mc_refine_pool : bool }.

Section Multilevel.
Variable bits : Z.                                   (* width of the weight field of a cluster *)
Variables limit perfect : nat -> Z.
Variable imb : graph -> list Z -> Z.
Variable emax : Z.
Variable cfg : mconfig.
Variable env : menv.

(** initial_refiner.cc, initial_fm_refiner.cc refine on the level [lvl]. *)
Definition level_refine (g : graph) (lvl : nat) (p : list nat * list Z) : option (list nat * list Z) :=
  match mc_fm cfg with
  | None => Some p
  | Some iters =>
      match fm_refine g limit perfect iters (me_rounds env (gn g) lvl) (me_abort env lvl) (fst p) (snd p) with
      | Some (lab, bw, _) => Some (lab, bw)
      | None => None
      end
  end.

(** initial_multilevel_bipartitioner.cc:159-177 uncoarsen: from the coarsest level to [g], which is level [lvl]. *)
Fixpoint uncoarsen (g : graph) (lvl : nat) (levels : list (list nat * graph)) (p : list nat * list Z)
  : option (list nat * list Z) :=
  match levels with
  | [] => Some p
  | (mapping, h) :: rest =>
      match uncoarsen h (S lvl) rest p with
      | None => None
      | Some (coarse, _) =>
          match pop g mapping coarse (me_cached env lvl) with
          | None => None
          | Some q => level_refine g lvl q
          end
      end
  end.

Fixpoint last_graph (g : graph) (levels : list (list nat * graph)) : graph :=
  match levels with [] => g | (_, h) :: rest => last_graph h rest end.

(** initial_multilevel_bipartitioner.cc:54-109 initialize and partition; [co] and [old]: what earlier uses left in the
    coarsener and in the arrays of the pool; [mcw]: the maximum cluster weight. The result: the bipartition, the
    bipartition of the coarsest graph by the pool, the hierarchy, the coarsener. *)
Definition multilevel (mcw : Z) (g : graph) (co : coarsener) (old : list nat * list Z)
  : option ((list nat * list Z) * (list nat * list Z) * list (list nat * graph) * coarsener) :=
  match coarsen_loop bits mcw (gn g) (me_coarsen env) (mc_limit cfg) 0 g (init_coarsener g co) with
  | None => None
  | Some (levels, co') =>
      let c := last_graph g levels in
      match pool_bipartition c limit perfect (imb c) emax (mc_pool cfg) (me_pool env (gn c)) old with
      | None => None
      | Some po =>
          match (if mc_refine_pool cfg then level_refine c (length levels) (po_best po) else Some (po_best po)) with
          | None => None
          | Some p =>
              match uncoarsen g 0 levels p with
              | Some q => Some (q, po_best po, levels, co')
              | None => None
              end
          end
      end
  end.
End Multilevel.

(* ------------------------------------------------------------------ objects that are reused *)
(** initial_coarsener.cc:22, initial_coarsener.h: a new coarsener. *)
Definition new_coarsener : coarsener := mkCo ([], 0, mkFra [] []) (mkFra [] []) [] false false.

(** One call of the worker pool: the subgraph and its two-block context, the maximum cluster weight, the decisions of the
    environment. *)
Record call := mkCall { ca_graph : graph; ca_limit : nat -> Z; ca_perfect : nat -> Z; ca_mcw : Z; ca_env : menv }.

(** An idle bipartitioner of a thread: its coarsener, and the partition arrays of its pool (of which only the best pair is
    represented). *)
Definition worker : Type := coarsener * (list nat * list Z).

(** initial_bipartitioner_worker_pool.h:48-92 bipartition (without the copy into owned memory), :98-112 get and put, for
    one thread whose stack of idle bipartitioners is [idle_workers]. *)
Definition worker_bipartition (bits : Z) (imb : graph -> list Z -> Z) (emax : Z) (cfg : mconfig)
    (c : call) (idle_workers : list worker) : option (list nat * list worker) :=
  if gn (ca_graph c) =? 0 then Some ([], idle_workers)
  else
    let '((co, old), rest) := match idle_workers with [] => ((new_coarsener, ([], [])), []) | w :: r => (w, r) end in
    match multilevel bits (ca_limit c) (ca_perfect c) imb emax cfg (ca_env c) (ca_mcw c) (ca_graph c) co old with
    | None => None
    | Some (q, best, _, co') => Some (fst q, (co', best) :: rest)
    end.
Fixpoint worker_calls (bits : Z) (imb : graph -> list Z -> Z) (emax : Z) (cfg : mconfig)
    (cs : list call) (idle_workers : list worker) : option (list (list nat)) :=
  match cs with
  | [] => Some []
  | c :: r =>
      match worker_bipartition bits imb emax cfg c idle_workers with
      | None => None
      | Some (lab, ws) => match worker_calls bits imb emax cfg r ws with Some ls => Some (lab :: ls) | None => None end
      end
  end.
