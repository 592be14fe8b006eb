(* Model of a v-cycle of the deep multilevel partitioner: kaminpar-shm/partitioning/deep/vcycle_deep_multilevel.cc:70-165,
   the communities of kaminpar-shm/coarsening/cluster_coarsener.cc and of deep_multilevel.cc, and the restriction of
   kaminpar-shm/refinement/lp/lp_refiner.cc to communities. Only block counts for which
   complete_partial_extend_partition (helper.cc:469-606) returns immediately (powers of two, or k). *)
From Verif Require Import Lib.Prelude Spec.Induced Model.DeepModel.

(** One coarsening step: the finer graph, the mapping to [c_nc] coarse nodes, the order in which the parallel loop of
    project_down stores, and what the fresh array contains. *)
Record cstep := CStep { c_g : lgraph; c_map : list nat; c_nc : nat; c_stores : list nat; c_junk : nat }.

(** cluster_contraction_preprocessing.h:38-42 project_down: node u stores its community to its coarse node; the last
    store remains. *)
Definition project_down (st : cstep) (fine : list nat) : list nat :=
  fold_left (fun coarse u => upd (nth u (c_map st) 0) (nth u fine 0) coarse) (c_stores st) (repeat (c_junk st) (c_nc st)).

(** cluster_coarsener.cc:45-48 current_communities, :107-118, :168-190: the communities of all levels, finest first. *)
Fixpoint comm_levels (comm : list nat) (steps : list cstep) : list (list nat) :=
  comm :: match steps with [] => [] | st :: rest => comm_levels (project_down st comm) rest end.

Definition level_of (st : cstep) : level := Level (c_g st) (c_map st).

(** lp_refiner.cc:106-108 accept_neighbor, label_propagation.h:483-494, :572-589, :668-683: all executions of the label
    propagation refinement with communities. Every move takes a node to a block in which it saw a neighbour of its own
    community at some point (h lists all earlier partitions); which block is chosen, and whether the weights allow it, is
    arbitrary. *)
Inductive restricted_run (g : lgraph) (comm part : list nat) : list (list nat) -> list nat -> Prop :=
| rr_start : restricted_run g comm part [part] part
| rr_move h p u v x q : restricted_run g comm part h p -> u < length g ->
    In (v, x) (lg_adj g u) -> nth u comm 0 = nth v comm 0 -> In q h ->
    restricted_run g comm part (upd u (nth v q 0) p :: h) (upd u (nth v q 0) p).

(** deep_multilevel.cc:316-330 refine with restrict_vcycle_refinement: nothing happens as long as there is one block per
    community. *)
Definition vrefine (ck : nat) (inner : nat -> nat -> lgraph -> nat -> list nat -> list nat) (lvl ph : nat) (g : lgraph) (kp : nat) (part : list nat) : list nat :=
  if kp =? ck then part else inner lvl ph g kp part.

(** One v-cycle with the communities [comm] (the blocks of the previous cycle, [ck] of them): initial partition by
    communities (deep_multilevel.cc:252-263), then uncoarsening. [steps] are the coarsening steps, finest first; [gc] is
    the coarsest graph. *)
Definition vcycle {M} (ext : nat -> lgraph -> M -> list nat -> nat -> nat -> option (M * list nat))
    (inner : nat -> nat -> lgraph -> nat -> list nat -> list nat) (ck c k : nat) (refine_after : bool)
    (steps : list cstep) (gc : lgraph) (mems : M) (comm : list nat) : option (lgraph * M * list nat * nat * bool * list nat) :=
  uncoarsen ext (vrefine ck inner) c k refine_after (rev (map level_of steps)) gc mems (last (comm_levels comm steps) []) ck.

(** What one further v-cycle does with the communities it is given: its number of blocks, the coarsening (steps and coarsest
    graph), the initial memory and the refinement. *)
Record cycle {M} := Cycle { cy_k : nat; cy_steps : list nat -> list cstep; cy_gc : list nat -> lgraph; cy_mem : list nat -> M;
  cy_ext : nat -> lgraph -> M -> list nat -> nat -> nat -> option (M * list nat);
  cy_inner : list nat -> nat -> nat -> lgraph -> nat -> list nat -> list nat }.
Arguments cycle M : clear implicits.

(** vcycle_deep_multilevel.cc:98-161 the loop over the cycles after the first one: the blocks of a cycle are the communities
    of the next. The limits of block weights are modelled in ContextModel.v. *)
Fixpoint vcycles {M} (c : nat) (refine_after : bool) (cycles : list (cycle M)) (comm : list nat) (ck : nat) : option (list nat * nat) :=
  match cycles with
  | [] => Some (comm, ck)
  | cy :: rest =>
      match vcycle (cy_ext cy) (cy_inner cy comm) ck c (cy_k cy) refine_after (cy_steps cy comm) (cy_gc cy comm) (cy_mem cy comm) comm with
      | Some (_, _, part, _, _, _) => vcycles c refine_after rest part (cy_k cy)
      | None => None
      end
  end.
