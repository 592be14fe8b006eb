(* What the distributed partitioner reports: kaminpar-dist/metrics.cc, distributed_partitioned_graph.cc (block weights), the totals
   of distributed_csr_graph.cc and the result of dkaminpar.cc compute_partition. Sums in 64-bit integers are unbounded. A
   reduction over all ranks (MPI_Allreduce with MPI_SUM) is the sum, in any order. *)
From Verif Require Import Lib.Prelude Model.GridModel Model.DistGraphModel.

Section Rank.
Variable d : dcsr.
Variable part : list nat.    (* blocks of the own nodes and of the ghosts *)
(** metrics.cc:26-31: an edge counts if its end is in another block. *)
Definition edge_term (bu : nat) (e : nat * Z) : option Z := bind (nth_error part (fst e)) (fun bv => Some (if bu =? bv then 0%Z else snd e)).
(** metrics.cc:24-32, for one node. *)
Definition node_term (u : nat) : option Z :=
  bind (nth_error part u) (fun bu => bind (dadj d u) (fun nbs => bind (traverse (edge_term bu) nbs) (fun l => Some (zsum l)))).
(** metrics.cc:20-36 local_edge_cut. *)
Definition local_edge_cut : option Z := bind (traverse node_term (seq 0 (dn d))) (fun l => Some (zsum l)).
(** distributed_partitioned_graph.cc:23-29: the own nodes are added to the weights of their blocks. *)
Fixpoint add_block_weights (us : list nat) (bw : list Z) : option (list Z) :=
  match us with
  | [] => Some bw
  | u :: t =>
      bind (nth_error part u) (fun b => bind (dnode_weight (dc_nw d) u) (fun w =>
      bind (nth_error bw b) (fun x => add_block_weights t (upd b (x + w)%Z bw))))
  end.
Definition local_block_weights (k : nat) : option (list Z) := add_block_weights (seq 0 (dn d)) (repeat 0%Z k).
End Rank.

(** metrics.cc:38-43 edge_cut: all ranks. *)
Definition dist_edge_cut (ds : list dcsr) (parts : list (list nat)) : option Z :=
  bind (traverse (fun x => local_edge_cut (fst x) (snd x)) (combine ds parts)) (fun l => Some (Z.quot (zsum l) 2)).
(** dkaminpar.cc:369-375: the result of compute_partition; the cut is stored in a local EdgeWeight of [bits] bits. *)
Definition reported_cut (bits : Z) (ds : list dcsr) (parts : list (list nat)) : option Z := bind (dist_edge_cut ds parts) (fun c => Some (narrow bits c)).
(** distributed_partitioned_graph.cc:31-41: the weights of all ranks are added. *)
Definition dist_block_weights (k : nat) (ds : list dcsr) (parts : list (list nat)) : option (list Z) :=
  bind (traverse (fun x => local_block_weights (fst x) (snd x) k) (combine ds parts)) (fun l =>
  Some (map (fun b => zsum (map (fun row => nth b row 0%Z) l)) (seq 0 k))).

(** parallel/algorithm.h accumulate over values of [bits] bits, in some order: the sum of non-negative values overflows if it does
    not fit (undefined behaviour, [None]). *)
Definition accumulate (bits : Z) (l : list Z) : option Z := if (zsum l <? 2 ^ (bits - 1))%Z then Some (zsum l) else None.
(** distributed_csr_graph.cc:85-99: the total and maximum of one rank; the constructor runs before the weights of the ghosts are known. *)
Definition local_total_node_weight (bits : Z) (d : dcsr) : option Z :=
  match dc_nw d with [] => Some (Z.of_nat (dn d)) | _ => accumulate bits (firstn (dn d) (dc_nw d)) end.
Definition local_max_node_weight (d : dcsr) : option Z :=
  match dc_nw d with [] => Some 1%Z | _ => match firstn (dn d) (dc_nw d) with [] => None | x :: t => Some (fold_left Z.max t x) end end.
(** :102-105. *)
Definition global_total (f : dcsr -> option Z) (ds : list dcsr) : option Z := bind (traverse f ds) (fun l => Some (zsum l)).
Definition global_max (f : dcsr -> option Z) (ds : list dcsr) : option Z :=
  bind (traverse f ds) (fun l => match l with [] => None | x :: t => Some (fold_left Z.max t x) end).
(** metrics.cc:67-79 num_imbalanced_blocks and :63-65 is_feasible, for the block weights [bw] and the limits [mx]. *)
Definition num_imbalanced_blocks (bw mx : list Z) : nat := length (filter (fun p => (snd p <? fst p)%Z) (combine bw mx)).
Definition is_feasible (bw mx : list Z) : bool := num_imbalanced_blocks bw mx =? 0.
(** dkaminpar.cc:345-355 without rearrangement: the blocks written for the own nodes. *)
Definition written_partition (d : dcsr) (part : list nat) : option (list nat) := traverse (nth_error part) (seq 0 (dn d)).
