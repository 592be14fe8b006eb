(* kaminpar-dist/algorithms/independent_set.cc, border_nodes.cc: border nodes of a distributed partitioned graph. One rank.
   The score of a node is an arbitrary function of its global number and the seed, below the marker of nodes that are not on the border. Threads take turns
   in any order; one step of a thread looks at one neighbour (the entry of a ghost is only ever overwritten by its score). *)
From Verif Require Import Lib.Prelude Model.DistGraphModel Model.HemModel.

Section Border.
Variables (d : dcsr) (blk : list nat) (sc : nat -> Z) (top : Z).   (* blocks of own nodes and ghosts, compute_score :27-32, kNoBorderNode :37 *)

(** distributed_partitioned_graph.h:196-206 check_border_node: the loop stops at the first neighbour in another block. *)
Definition on_border (u : nat) : bool := existsb (fun e => negb (nth u blk 0 =? nth (fst e) blk 0)) (row d u).
(** independent_set.cc:42-53. *)
Definition first_score (u : nat) : Z := if dis_ghost d u then (-1)%Z else if on_border u then sc (glob d u) else top.
(** The scores, the next neighbour of every node whose loop (:59-84) has begun and not ended, the result. *)
Record scan := Scan { sn_score : list Z; sn_next : list (option nat); sn_out : list nat }.
(** :60-62: nodes whose score is the marker have nothing to do. *)
Definition scan_start : scan :=
  let s := map first_score (seq 0 (dn d + dghost_n d)) in
  Scan s (map (fun u => if (nth u s 0 =? top)%Z then None else Some 0) (seq 0 (dn d))) [].
(** :64-83, one step for node [u]. *)
Definition scan_step (s : scan) (u : nat) : scan :=
  match nth u (sn_next s) None with
  | None => s
  | Some i =>
    match nth_error (row d u) i with
    | None => Scan (sn_score s) (upd u None (sn_next s)) (sn_out s ++ [u])
    | Some (v, _) =>
      let score := if (nth v (sn_score s) 0 <? 0)%Z then upd v (sc (glob d v)) (sn_score s) else sn_score s in
      if (nth v score 0 <=? nth u score 0)%Z then Scan score (upd u None (sn_next s)) (sn_out s)
      else Scan score (upd u (Some (S i)) (sn_next s)) (sn_out s)
    end
  end.
(** The call returned [out]: some schedule has ended all loops. *)
Definition border_set (out : list nat) : Prop :=
  exists sched, let s := fold_left scan_step sched scan_start in (forall u, nth u (sn_next s) None = None) /\ sn_out s = out.
(** border_nodes.cc:16-32. *)
Definition border_nodes : list nat := filter on_border (seq 0 (dn d)).
End Border.
