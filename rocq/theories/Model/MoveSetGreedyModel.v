(* kaminpar-dist/refinement/balancer/clusters.cc:244-457: the strategy greedy-batch-prefix for the move sets of the cluster balancer. One rank.
   Not modelled: overflow, _cur_block_conn (only the stopping policy reads it, which is an arbitrary function here), the tie-breaking of the heap of
   frontier nodes (the first of the nodes of maximum key is taken). *)
From Verif Require Import Lib.Prelude Model.DistGraphModel Model.HemModel Model.MoveSetModel.

Section Greedy.
Variables (d : dcsr) (k : nat) (blk : list nat).
Variables (bw lim : list Z) (maxw : Z).   (* block weights, their limits, max_cluster_weight *)
Variable stop : nat -> nat -> bool.        (* should_stop() for a set after a number of steps *)

(** :434-453: _node_to_cluster, _clusters, _cluster_indices, _conns, _cur_pos, _cur_cluster, _cur_block, _cur_conns (keys), _cur_weight, _best_prefix_pos,
    _best_prefix_conn. *)
Record greedy := Greedy { gr_of : list (option nat); gr_nodes : list nat; gr_idx : list nat; gr_conn : list Z; gr_pos : nat; gr_set : nat; gr_block : option nat;
  gr_keys : list Z; gr_weight : Z; gr_bpos : nat; gr_bconn : Z }.
(** The largest key (BinaryMaxHeap::peek_key). *)
Definition peek_key (keys : list Z) : Z := fold_right Z.max (-1)%Z keys.
(** :342-356, one edge of the new node: keys of the other blocks. *)
Definition key_step (of_ : list (option nat)) (set : nat) (block : nat) (weight : Z) (keys : list Z) (e : nat * Z) : list Z :=
  if negb (dis_ghost d (fst e)) && (match nth (fst e) of_ None with Some c => c =? set | None => false end) then keys else
  let bv := nth (fst e) blk 0 in
  if bv =? block then keys
  else if (nth bv bw 0 + weight <=? nth bv lim 0)%Z then upd bv (nth bv keys 0 + snd e)%Z keys
  else if (0 <? nth bv keys 0)%Z then upd bv (-1)%Z keys
  else keys.
(** :331-365 add_to_cluster. *)
Definition add_node (s : greedy) (u : nat) : greedy :=
  let block := match gr_block s with Some b => b | None => nth u blk 0 end in
  let weight := (gr_weight s + wt d u)%Z in
  let of_ := upd u (Some (gr_set s)) (gr_of s) in
  let keys := fold_left (key_step of_ (gr_set s) block weight) (row d u) (gr_keys s) in
  let best := (gr_bconn s <=? peek_key keys)%Z in
  Greedy of_ (upd (gr_pos s) u (gr_nodes s)) (gr_idx s) (gr_conn s) (S (gr_pos s)) (gr_set s) (Some block) keys weight
    (if best then S (gr_pos s) else gr_bpos s) (if best then peek_key keys else gr_bconn s).
(** :314-322: the frontier, (node, key). *)
Definition push (of_ : list (option nat)) (bu : nat) (fr : list (nat * Z)) (e : nat * Z) : list (nat * Z) :=
  if negb (dis_ghost d (fst e)) && (match nth (fst e) of_ None with None => true | Some _ => false end) && (nth (fst e) blk 0 =? bu) then
    if existsb (fun x => fst x =? fst e) fr then map (fun x => if fst x =? fst e then (fst x, (snd x + snd e)%Z) else x) fr else fr ++ [e]
  else fr.
Definition peek (fr : list (nat * Z)) : option (nat * Z) :=
  fold_left (fun b x => match b with None => Some x | Some y => if (snd y <? snd x)%Z then Some x else b end) fr None.
(** :306-324, the loop of grow_cluster. [None]: more steps than nodes (excluded: every step adds another node). *)
Fixpoint grow (fuel steps : nat) (fr : list (nat * Z)) (s : greedy) : option greedy :=
  match peek fr with
  | None => Some s
  | Some (u, _) =>
    if (gr_weight s <? maxw)%Z && negb (stop (gr_set s) steps) then
      match fuel with
      | 0 => None
      | S fuel => let s' := add_node s u in
          grow fuel (S steps) (fold_left (push (gr_of s') (nth u blk 0)) (row d u) (filter (fun x => negb (fst x =? u)) fr)) s'
      end
    else Some s
  end.
(** :367-399 finish_cluster. *)
Definition finish (s : greedy) : greedy :=
  let of_ := fold_left (fun l p => upd (nth p (gr_nodes s) 0) None l) (seq (gr_bpos s + 1) (gr_pos s - (gr_bpos s + 1))) (gr_of s) in
  let c := gr_set s in
  let zeroed := fold_left (fun l b => upd (c * k + b) 0%Z l) (seq 0 k) (gr_conn s) in
  let start := nth c (gr_idx s) 0 in
  let ups := flat_map (fun p => flat_map (fun e : nat * Z =>
      if negb (dis_ghost d (fst e)) && (match nth (fst e) of_ None with Some c' => c' =? c | None => false end) then [] else [(c * k + nth (fst e) blk 0, snd e)]) (row d (nth p (gr_nodes s) 0)))
    (seq start (gr_bpos s - start)) in
  Greedy of_ (gr_nodes s) (upd (S c) (gr_bpos s) (gr_idx s)) (add_all ups zeroed) (gr_bpos s) (S c) None (repeat 0%Z k) 0%Z (gr_bpos s) 0%Z.
(** :291-301 build, :401-402 finalize; [junk]: fresh memory (nodes, indices, connections). *)
Definition greedy_step (s : option greedy) (u : nat) : option greedy :=
  match s with
  | None => None
  | Some s =>
    if (nth (nth u blk 0%nat) lim 0 <? nth (nth u blk 0%nat) bw 0)%Z && (match nth u (gr_of s) None with None => true | Some _ => false end) then
      match grow (dn d) 0 [(u, 0%Z)] s with Some s => Some (finish s) | None => None end
    else Some s
  end.
Definition greedy_sets (junk : list nat * list nat * list Z) : option building :=
  let '(nodes0, idx0, conn0) := junk in
  match fold_left greedy_step (seq 0 (dn d)) (Some (Greedy (repeat None (dn d)) nodes0 (upd 0 0 idx0) conn0 0 0 None (repeat 0%Z k) 0%Z 0 0%Z)) with
  | None => None
  | Some s => Some (Building (gr_of s) (gr_nodes s) (firstn (S (gr_set s)) (gr_idx s)) (gr_conn s) (gr_set s))
  end.
End Greedy.
