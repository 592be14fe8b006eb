(* Model of concurrent moves of nodes between weighted groups: blocks of a PartitionedGraph
   (kaminpar-shm/datastructures/partitioned_graph.h) and clusters of the label propagation
   (kaminpar-shm/label_propagation.h). The shared memory is the array of labels (one per node) and the array
   of group weights; every atomic access is one step, threads interleave arbitrarily (sequentially
   consistent). Weights are unbounded integers. *)
From Verif Require Import Lib.Prelude.
Local Open Scope Z_scope.

(** Position of a thread inside one of the three operations. [u] moves from group [from] to group [to];
    [mx] is the limit passed by the caller, [nw] the local variable new_weight. *)
Inductive pc :=
| Idle
| MLoad (u from to : nat) (mx : Z)        (* move_block_weight: about to load the weight *)
| MTest (u from to : nat) (mx nw : Z)     (* about to test the loop condition *)
| MCas (u from to : nat) (mx nw : Z)      (* about to compare-exchange *)
| WSub (u from to : nat)                  (* weight added to [to]; about to subtract from [from] *)
| WStore (u from to : nat)                (* weights done; about to store the label *)
| BSub (u from to : nat)                  (* set_block<true>: about to subtract *)
| BAdd (u from to : nat)                  (* set_block<true>: about to add *)
| LTest (u from to : nat) (mx : Z)        (* move_cluster_weight: about to read and compare *)
| LAdd (u from to : nat).                 (* move_cluster_weight: about to add *)

Record mem := mkMem { m_label : list nat; m_weight : list Z }.

Definition add_weight (b : nat) (d : Z) (m : mem) : mem :=
  mkMem (m_label m) (upd b (nth b (m_weight m) 0 + d) (m_weight m)).

(** One step of a thread that is inside an operation; [vw] are the node weights.
    partitioned_graph.h:123-137 move, :152-165 set_block, :179-197 move_block_weight;
    label_propagation.h:817-841 try_node_move (weight check, weight move, label store), :2134-2147
    move_cluster_weight. An idle thread does not step here. *)
Definition thread_step (vw : nat -> Z) (t : pc) (m : mem) : option (pc * mem) :=
  match t with
  | Idle => None
  | MLoad u from to mx => Some (MTest u from to mx (nth to (m_weight m) 0), m)
  | MTest u from to mx nw => Some (if nw + vw u <=? mx then MCas u from to mx nw else Idle, m)
  | MCas u from to mx nw =>
      if nth to (m_weight m) 0 =? nw
      then Some (WSub u from to, mkMem (m_label m) (upd to (nw + vw u) (m_weight m)))
      else Some (MTest u from to mx (nth to (m_weight m) 0), m)
  | WSub u from to => Some (WStore u from to, add_weight from (- vw u) m)
  | WStore u from to => Some (Idle, mkMem (upd u to (m_label m)) (m_weight m))
  | BSub u from to => Some (BAdd u from to, add_weight from (- vw u) m)
  | BAdd u from to => Some (WStore u from to, add_weight to (vw u) m)
  | LTest u from to mx => Some (if nth to (m_weight m) 0 + vw u <=? mx then LAdd u from to else Idle, m)
  | LAdd u from to => Some (WSub u from to, add_weight to (vw u) m)
  end.

(** The node a thread is working on. *)
Definition pc_node (t : pc) : option nat :=
  match t with
  | Idle => None
  | MLoad u _ _ _ | MTest u _ _ _ _ | MCas u _ _ _ _ | WSub u _ _ | WStore u _ _
  | BSub u _ _ | BAdd u _ _ | LTest u _ _ _ | LAdd u _ _ => Some u
  end.

(** The operations a thread may start. *)
Inductive opkind := OpMove | OpSetBlock | OpCluster.

(** Entry of an operation on node [u] that currently has label [from]. try_node_move and move are only
    called for a target different from the current label. *)
Definition start_pc (o : opkind) (u from to : nat) (mx : Z) : pc :=
  match o with
  | OpMove => MLoad u from to mx
  | OpSetBlock => BSub u from to
  | OpCluster => LTest u from to mx
  end.

(** Whole system: memory and one position per thread. [lim] gives the limit of every group, [ops] the kinds
    of operations used in this phase of the algorithm. *)
Record sys := mkSys { s_mem : mem; s_threads : list pc }.

Inductive sys_step (vw : nat -> Z) (lim : nat -> Z) (ops : opkind -> Prop) : sys -> sys -> Prop :=
| ss_start i o u to m ths :
    (* an idle thread picks a node no other thread is working on, and a target *)
    ops o -> (i < length ths)%nat -> nth i ths Idle = Idle ->
    (u < length (m_label m))%nat -> (to < length (m_weight m))%nat -> nth u (m_label m) 0%nat <> to ->
    (forall t, In t ths -> pc_node t <> Some u) ->
    sys_step vw lim ops (mkSys m ths)
      (mkSys m (upd i (start_pc o u (nth u (m_label m) 0%nat) to (lim to)) ths))
| ss_run i m ths t' m' :
    (i < length ths)%nat -> thread_step vw (nth i ths Idle) m = Some (t', m') ->
    sys_step vw lim ops (mkSys m ths) (mkSys m' (upd i t' ths)).

Inductive sys_steps (vw : nat -> Z) (lim : nat -> Z) (ops : opkind -> Prop) : sys -> sys -> Prop :=
| ss_refl s : sys_steps vw lim ops s s
| ss_trans s s' s'' : sys_steps vw lim ops s s' -> sys_step vw lim ops s' s'' -> sys_steps vw lim ops s s''.

Definition quiescent (s : sys) : Prop := forall t, In t (s_threads s) -> t = Idle.

(** partitioned_graph.h:273-304 init_block_weights_par, k < 65536: every worker sums up its own nodes
    ([chunks] are the nodes processed by each worker), then the workers' arrays are added. *)
Definition local_weights (vw : nat -> Z) (label : list nat) (k : nat) (nodes : list nat) : list Z :=
  fold_left (fun ws u => upd (nth u label 0%nat) (nth (nth u label 0%nat) ws 0 + vw u) ws) nodes (repeat 0 k).
Definition init_weights_par (vw : nat -> Z) (label : list nat) (k : nat) (chunks : list (list nat)) : list Z :=
  map (fun b => zsum (map (fun nodes => nth b (local_weights vw label k nodes) 0) chunks)) (seq 0 k).
(** :277-282 (k >= 65536, atomic additions in any order) and :306-312 init_block_weights_seq. *)
Definition init_weights_seq (vw : nat -> Z) (label : list nat) (k : nat) (order : list nat) : list Z :=
  local_weights vw label k order.
