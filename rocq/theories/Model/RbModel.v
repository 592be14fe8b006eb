(* Model of the recursive bipartitioning mode and of the k-way mode
   (kaminpar-shm/partitioning/rb/rb_multilevel.cc, kaminpar-shm/partitioning/kway/kway_multilevel.cc). *)
From Verif Require Import Lib.Prelude Spec.Induced Model.MathModel Model.SubgraphModel Model.ExtendModel Model.DeepModel.

(** ** Uncoarsening *)

(** rb_multilevel.cc:102-114 and kway_multilevel.cc:64-78: refine the partition of the coarsest graph, then project and
    refine on every finer level. [lvs] lists the levels from the coarsest to the finest; the refiner is an arbitrary
    function of the number of remaining levels, the graph and the partition. [None]: out of bounds. *)
Fixpoint multilevel (refine : nat -> lgraph -> list nat -> list nat) (lvs : list level) (g : lgraph) (part : list nat)
  : option (list nat) :=
  let part1 := refine (length lvs) g part in
  match lvs with
  | [] => Some part1
  | lv :: rest =>
    match project part1 (lv_map lv) with
    | None => None
    | Some part2 => multilevel refine rest (lv_g lv) part2
    end
  end.

(** ** Recursive bipartitioning *)

(** What the environment decides during one run: the coarsening of a subgraph (coarsest graph and levels), the initial
    bipartition, the refinement, the order of the fetch-adds of the extraction, the order in which the two subgraphs
    are constructed, and the contents of fresh memory. A run asks for every (block, number of blocks) once. *)
Record rb_env := RbEnv {
  e_levels : lgraph -> nat -> nat -> lgraph * list level;
  e_pool : lgraph -> nat -> nat -> list nat;
  e_refine : nat -> nat -> nat -> lgraph -> list nat -> list nat;
  e_order : lgraph -> nat -> nat -> list nat;
  e_build : lgraph -> nat -> nat -> list nat;
  e_junk : lgraph -> nat -> nat -> nat -> nat;
  e_junkz : lgraph -> nat -> nat -> nat -> Z }.

(** rb_multilevel.cc:82-117 bipartition. *)
Definition rb_bipartition (e : rb_env) (g : lgraph) (b kp : nat) : option (list nat) :=
  let '(gc, lvs) := e_levels e g b kp in
  multilevel (e_refine e b kp) lvs gc (e_pool e gc b kp).

(** subgraph_extractor.h:48-84 SubgraphMemory(p_graph): fresh memory for the graph and k blocks, with weight arrays
    only if the graph is weighted. *)
Definition graph_memory (g : lgraph) (k : nat) (junk : nat -> nat) (junkz : nat -> Z) : smem :=
  let nw := if lg_is_nw g then length g else 0 in
  Smem (map junk (seq 0 (length g + k))) (map junk (seq 0 (lg_m g)))
       (map junkz (seq 0 (if nw =? 0 then 0 else nw + k))) (map junkz (seq 0 (if lg_is_ew g then lg_m g else 0))).

(** rb_multilevel.cc:49-80 partition_recursive: labels and number of blocks. The two recursive calls run in parallel on
    disjoint data. [fuel] bounds the recursion depth ([None] if exceeded or on an out-of-bounds access). *)
Fixpoint rb_recursive (ub : N) (e : rb_env) (bip : lgraph -> nat -> nat -> option (list nat)) (k fuel : nat)
    (g : lgraph) (b kp : nat) : option (list nat * nat) :=
  match fuel with
  | O => None
  | S f =>
    match bip g b kp with
    | None => None
    | Some side =>
      if kp * 2 <? k then
        match extract_subgraphs ub g side 2 2 (e_order e g b kp) (e_build e g b kp)
                (graph_memory g 2 (e_junk e g b kp) (e_junkz e g b kp)) with
        | Some (mem, mapping, [v0; v1], _, _) =>
          match read_view mem v0, read_view mem v1 with
          | Some g0, Some g1 =>
            match rb_recursive ub e bip k f g0 (2 * b) (kp * 2), rb_recursive ub e bip k f g1 (2 * b + 1) (kp * 2) with
            | Some (p0, k0), Some (p1, k1) =>
              match block_offsets ub 2 (k0 + k1) k with
              | Some offs => option_map (fun p => (p, k0 + k1)) (copy_subgraph_partitions side mapping offs [p0; p1])
              | None => None
              end
            | _, _ => None
            end
          | _, _ => None
          end
        | _ => None
        end
      else Some (side, 2)
    end
  end.

(** Outcome of a call: an exception, undefined behaviour, or a partition. *)
Inductive rb_result := RbThrow | RbUndefined | RbPartition (labels : list nat) (blocks : nat).

(** rb_multilevel.cc:25-47 constructor and partition(). [top]: the refinement of the final partition
    (rb_enable_kway_toplevel_refinement), if enabled. *)
Definition rb_partition (ub : N) (e : rb_env) (top : option (lgraph -> list nat -> list nat)) (k : nat) (g : lgraph) : rb_result :=
  if is_power_of_2 (N.of_nat k) then
    match rb_recursive ub e (rb_bipartition e) k (S k) g 0 1 with
    | Some (p, kp) => RbPartition (match top with Some r => r g p | None => p end) kp
    | None => RbUndefined
    end
  else RbThrow.

(** ** The k-way mode *)

(** subgraph_extractor.h:38-46 SubgraphMemory(n, k, m) with weight arrays. *)
Definition full_memory (g : lgraph) (k : nat) (junk : nat -> nat) (junkz : nat -> Z) : smem :=
  Smem (map junk (seq 0 (length g + k))) (map junk (seq 0 (lg_m g)))
       (map junkz (seq 0 (if length g =? 0 then 0 else length g + k))) (map junkz (seq 0 (lg_m g))).

(** kway_multilevel.cc:128-160 initial_partition: a bipartition of the coarsest graph, extended to k blocks. *)
Definition kway_initial (ub : N) (pool : lgraph -> list nat) (k factor threads : nat) (choices : nat -> choice)
    (junk : nat -> nat) (junkz : nat -> Z) (g : lgraph) : option (list nat) :=
  option_map snd (extend_partition ub g k factor threads choices (full_memory g k junk junkz) (pool g) 2 k).

(** kway_multilevel.cc:40-43 partition(): [lvs] is the outcome of coarsening, [gc] the coarsest graph. *)
Definition kway_partition (ub : N) (pool : lgraph -> list nat) (refine : nat -> lgraph -> list nat -> list nat)
    (k factor threads : nat) (choices : nat -> choice) (junk : nat -> nat) (junkz : nat -> Z)
    (gc : lgraph) (lvs : list level) : option (list nat) :=
  match kway_initial ub pool k factor threads choices junk junkz gc with
  | None => None
  | Some part => multilevel refine lvs gc part
  end.
