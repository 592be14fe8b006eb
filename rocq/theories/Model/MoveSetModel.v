(* kaminpar-dist/refinement/balancer/clusters.{h,cc}: the move sets ("clusters") of the cluster balancer, which moves groups of nodes of overloaded
   blocks on distributed graphs. One rank. Not modelled: overflow, the strategy greedy-batch-prefix, the priority queues of the balancer.
   Reads out of range give a default and writes out of range do nothing, except where [option] is used. *)
From Coq Require Import Sorting.Sorted.
From Verif Require Import Lib.Prelude Model.DistGraphModel Model.HemModel.

Section Rank.
Variables (d : dcsr) (k : nat).   (* the graph of the rank, the number of blocks *)

(** clusters.h:231-237: _node_to_cluster (None: kInvalidNodeID), _clusters, _cluster_indices, _cluster_conns, _ghost_node_indices, _ghost_node_edges. *)
Record sets := Sets { ms_of : list (option nat); ms_nodes : list nat; ms_idx : list nat; ms_conn : list Z; ms_gidx : list nat; ms_gedge : list (nat * Z) }.
(** clusters.h:91-98 nodes, 108-110 conn, 112-114 block, 124-126 num_clusters. *)
Definition num_sets (s : sets) : nat := length (ms_idx s) - 1.
Definition nodes_of (s : sets) (c : nat) : list nat := map (fun i => nth i (ms_nodes s) 0) (seq (nth c (ms_idx s) 0) (nth (S c) (ms_idx s) 0 - nth c (ms_idx s) 0)).
Definition conn (s : sets) (c b : nat) : Z := nth (c * k + b) (ms_conn s) 0%Z.
Definition block_of (s : sets) (blk : list nat) (c : nat) : nat := nth (nth (nth c (ms_idx s) 0) (ms_nodes s) 0) blk 0.
(** clusters.h:100-102. *)
Definition gain (s : sets) (blk : list nat) (c to : nat) : Z := (conn s c to - conn s c (block_of s blk c))%Z.

(** A sequence of updates conns[i] += w. *)
Definition add_to (l : list Z) (x : nat * Z) : list Z := upd (fst x) (nth (fst x) l 0 + snd x)%Z l.
Definition add_all (ups : list (nat * Z)) (l : list Z) : list Z := fold_left add_to ups l.

(** ** clusters.cc:463-495 build_singleton_clusters; [over]: which blocks are overloaded, [blk]: the blocks of own nodes and ghosts. *)
Record building := Building { bu_of : list (option nat); bu_nodes : list nat; bu_idx : list nat; bu_conn : list Z; bu_next : nat }.
Definition singleton_step (over : nat -> bool) (blk : list nat) (s : building) (u : nat) : building :=
  if over (nth u blk 0) then
    Building (bu_of s ++ [Some (bu_next s)]) (bu_nodes s ++ [u]) (bu_idx s ++ [bu_next s])
      (add_all (map (fun e => (bu_next s * k + nth (fst e) blk 0, snd e)) (row d u)) (bu_conn s ++ repeat 0%Z k)) (S (bu_next s))
  else Building (bu_of s ++ [None]) (bu_nodes s) (bu_idx s) (bu_conn s) (bu_next s).
Definition singletons (over : nat -> bool) (blk : list nat) : building :=
  let s := fold_left (singleton_step over blk) (seq 0 (dn d)) (Building [] [] [] [] 0) in
  Building (bu_of s) (bu_nodes s) (bu_idx s ++ [bu_next s]) (bu_conn s) (bu_next s).

(** ** clusters.cc:517-570 build_local_clusters; [cl]: the clusters of the own nodes (local identifiers). [None]: back() of an empty vector (:570). *)
Definition count_step (over : nat -> bool) (blk cl : list nat) (s : list nat * list nat) (u : nat) : list nat * list nat :=
  if over (nth u blk 0) then (upd (nth u cl 0) 1 (fst s), upd (nth u cl 0) (S (nth (nth u cl 0) (snd s) 0)) (snd s)) else s.
Definition local_step (over : nat -> bool) (blk cl to_set : list nat) (s : building * list nat) (u : nat) : building * list nat :=
  let b := fst s in let pos := snd s in
  if over (nth u blk 0) then
    let m := nth (nth u cl 0) to_set 0 - 1 in let p := nth (nth u cl 0) pos 0 in
    (Building (upd u (Some m) (bu_of b)) (upd p u (bu_nodes b)) (upd (S m) (S p) (bu_idx b))
       (add_all (flat_map (fun e => if dis_ghost d (fst e) || negb (nth (fst e) cl 0 =? nth u cl 0) then [(m * k + nth (fst e) blk 0, snd e)] else []) (row d u)) (bu_conn b)) (bu_next b),
     upd (nth u cl 0) (S p) pos)
  else (Building (upd u None (bu_of b)) (bu_nodes b) (bu_idx b) (bu_conn b) (bu_next b), pos).
Definition running_sums (l : list nat) : list nat := map (fun i => list_sum (firstn (S i) l)) (seq 0 (length l)).
Definition starts (l : list nat) : list nat := map (fun i => list_sum (firstn i l)) (seq 0 (length l)).
(** [junk]: the contents of new memory (nodes, indices, sets of nodes). *)
Definition local_sets (over : nat -> bool) (blk cl : list nat) (junk : list (option nat) * list nat * list nat) : option building :=
  let n := dn d in
  let c := fold_left (count_step over blk cl) (seq 0 n) (repeat 0 n, repeat 0 n) in
  let to_set := running_sums (fst c) in
  let '(of0, nodes0, idx0) := junk in
  let s := fold_left (local_step over blk cl to_set) (seq 0 n) (Building of0 nodes0 (upd 0 0 idx0) (repeat 0%Z (n * k)) 0, starts (snd c)) in
  match rev to_set with
  | [] => None
  | last :: _ => Some (Building (bu_of (fst s)) (bu_nodes (fst s)) (firstn (S last) (bu_idx (fst s))) (bu_conn (fst s)) last)
  end.

(** ** clusters.cc:92-131 init_ghost_node_adjacency. *)
(** :97-105, fast_reset_array.h:36-51: the edges of one set; (used entries, data). *)
Definition touch (s : list nat * list Z) (e : nat * Z) : list nat * list Z :=
  if dis_ghost d (fst e) then
    let g := fst e - dn d in
    ((if (nth g (snd s) 0 =? 0)%Z then fst s ++ [g] else fst s), add_to (snd s) (g, snd e))
  else s.
(** :107-110: (ghost, (weight, set)). *)
Definition set_triples (nodes : list nat) (c : nat) : list (nat * (Z * nat)) :=
  let s := fold_left touch (flat_map (row d) nodes) ([], repeat 0%Z (dghost_n d)) in
  map (fun g => (g, (nth g (snd s) 0%Z, c))) (fst s).
Definition triples (s : building) : list (nat * (Z * nat)) :=
  flat_map (fun c => set_triples (nodes_of (Sets (bu_of s) (bu_nodes s) (bu_idx s) (bu_conn s) [] []) c) c) (seq 0 (length (bu_idx s) - 1)).
(** :124-126 and :129-131: indices[prev + 1] = edges.size() for prev .. to - 1. *)
Definition fill (to size : nat) (s : list nat * nat) : list nat * nat :=
  (fold_left (fun l p => upd (S p) size l) (seq (snd s) (to - snd s)) (fst s), Nat.max (snd s) to).
(** :123-127 one triple; (indices, prev_ghost, edges). *)
Definition ghost_step (s : (list nat * nat) * list (nat * Z)) (t : nat * (Z * nat)) : (list nat * nat) * list (nat * Z) :=
  (fill (fst t) (length (snd s)) (fst s), snd s ++ [(snd (snd t), fst (snd t))]).
(** :117-131: [ts]: the sorted triples, [junk]: new memory. The array of edges is first resized (pairs are set to zero), then appended to. *)
Definition ghost_arrays (ts : list (nat * (Z * nat))) (junk : list nat) : list nat * list (nat * Z) :=
  let s := fold_left ghost_step ts ((upd 0 0 junk, 0), repeat (0, 0%Z) (length ts)) in
  (fst (fill (dghost_n d) (length (snd s)) (fst s)), snd s).
(** :38-80 the constructor, for any order of triples of the same ghost (std::sort). *)
Definition constructed (b : building) (s : sets) : Prop :=
  exists ts junk, Permutation ts (triples b) /\ StronglySorted (fun x y => fst x <= fst y) ts /\ length junk = dghost_n d + 1 /\
    s = Sets (bu_of b) (bu_nodes b) (bu_idx b) (bu_conn b) (fst (ghost_arrays ts junk)) (snd (ghost_arrays ts junk)).

(** ** clusters.h:128-148 move_ghost_node (the handler does not change the sets). *)
Definition move_ghost (s : sets) (ghost from to : nat) : sets :=
  let g := ghost - dn d in
  let es := map (fun i => nth i (ms_gedge s) (0, 0%Z)) (seq (nth g (ms_gidx s) 0) (nth (S g) (ms_gidx s) 0 - nth g (ms_gidx s) 0)) in
  Sets (ms_of s) (ms_nodes s) (ms_idx s) (add_all (flat_map (fun e => [(fst e * k + from, (- snd e)%Z); (fst e * k + to, snd e)]) es) (ms_conn s)) (ms_gidx s) (ms_gedge s).
(** clusters.h:159-178 move_cluster. *)
Definition move_set (s : sets) (c from to : nat) : sets :=
  let ups := flat_map (fun u => flat_map (fun e : nat * Z =>
      if dis_ghost d (fst e) then [] else
      match nth (fst e) (ms_of s) None with
      | None => []
      | Some c' => if c' =? c then [] else [(c' * k + from, (- snd e)%Z); (c' * k + to, snd e)]
      end) (row d u)) (nodes_of s c) in
  Sets (ms_of s) (ms_nodes s) (ms_idx s) (add_all ups (ms_conn s)) (ms_gidx s) (ms_gedge s).

(** ** cluster_balancer.cc:716-730, 775-778: the sets together with the partition. *)
Inductive move := OwnSet (c to : nat) | Ghost (ghost to : nat).
Definition perform (s : sets * list nat) (m : move) : sets * list nat :=
  match m with
  | OwnSet c to => (move_set (fst s) c (block_of (fst s) (snd s) c) to, fold_left (fun l u => upd u to l) (nodes_of (fst s) c) (snd s))
  | Ghost g to => (move_ghost (fst s) g (nth g (snd s) 0) to, upd g to (snd s))
  end.
Definition perform_all (ms : list move) (s : sets * list nat) : sets * list nat := fold_left perform ms s.
End Rank.
