(* Model of the flat initial bipartitioners of kaminpar-shm/initial_partitioning: initial_flat_bipartitioner.{h,cc},
   initial_random_bipartitioner.cc, initial_bfs_bipartitioner.cc with seed_node_utils.cc, initial_ggg_bipartitioner.cc.
   Weights are mathematical integers; random numbers are oracles.

   Simplifications: kaminpar-common's Marker is an array of flags (C30); the BinaryMinHeap of the greedy graph growing
   algorithm is the array of its keys (C28, InitialFmModel). [None] is an access outside of an array, a full queue, a
   violated KASSERT, or that a loop did not end within its fuel. *)
From Verif Require Import Lib.Prelude Spec.Graph Model.InitialFmModel.

(** queue.h: contents between head and tail, and the number of push_tail() since the last clear(). *)
Notation queue := (list nat * nat)%type.
Definition nilq : queue := ([], 0).

Section Flat.
Variable g : graph.
Variables limit perfect : nat -> Z.   (* _p_ctx->max_block_weight, perfectly_balanced_block_weight *)

(** _partition (None = kInvalidBlockID) and _block_weights. *)
Definition fstate := (list (option nat) * list Z)%type.

(** initial_flat_bipartitioner.h:52-57 set_block. *)
Definition flat_set (u b : nat) (s : fstate) : option fstate :=
  let (p, bw) := s in
  match nth_error p u with
  | Some None => Some (upd u (Some b) p, upd b (nth b bw 0 + gvw g u)%Z bw)
  | _ => None
  end.
(** initial_flat_bipartitioner.h:59-67 change_block. *)
Definition flat_change (u b : nat) (s : fstate) : option fstate :=
  let (p, bw) := s in
  match nth_error p u with
  | Some (Some _) =>
      let bw1 := upd b (nth b bw 0 + gvw g u)%Z bw in
      Some (upd u (Some b) p, upd (1 - b) (nth (1 - b) bw1 0 - gvw g u)%Z bw1)
  | _ => None
  end.
(** initial_flat_bipartitioner.h:45-50 add_to_smaller_block. *)
Definition add_to_smaller (u : nat) (s : fstate) : option fstate :=
  let delta1 := (nth 0 (snd s) 0 - perfect 0)%Z in
  let delta2 := (nth 1 (snd s) 0 - perfect 1)%Z in
  flat_set u (if (delta1 <? delta2)%Z then 0 else 1) s.

(** initial_random_bipartitioner.cc:18-29 fill_bipartition; [rnd u] is random_index(0, 2). *)
Definition random_node (rnd : nat -> bool) (u : nat) (s : fstate) : option fstate :=
  let block := if rnd u then 1 else 0 in
  if (nth block (snd s) 0 + gvw g u <? perfect block)%Z then flat_set u block s else add_to_smaller u s.
Fixpoint random_fill (rnd : nat -> bool) (us : list nat) (s : fstate) : option fstate :=
  match us with
  | [] => Some s
  | u :: r => match random_node rnd u s with Some s' => random_fill rnd r s' | None => None end
  end.

(** queue.h:110-113 push_tail, for a queue of capacity n. *)
Definition push_tail (u : nat) (q : queue) : option queue :=
  if snd q <? gn g then Some (fst q ++ [u], S (snd q)) else None.
(** marker.h:44-59 set. *)
Definition mset (u : nat) (m : list bool) : option (list bool) := if u <? length m then Some (upd u true m) else None.

(** seed_node_utils.cc:32-41 (and initial_bfs_bipartitioner.cc:155-162): queue the neighbours that are not marked. *)
Fixpoint queue_unmarked (skip : nat -> bool) (l : list (nat * Z)) (q : queue) (m : list bool) (cnt : nat)
  : option (queue * list bool * nat) :=
  match l with
  | [] => Some (q, m, cnt)
  | (v, _) :: r =>
      if skip v || nth v m false then queue_unmarked skip r q m cnt
      else match push_tail v q, mset v m with
           | Some q', Some m' => queue_unmarked skip r q' m' (S cnt)
           | _, _ => None
           end
  end.

(** marker.h:53-64 first_unmarked_element, of the elements below n (n if all are marked). *)
Fixpoint first_false (m : list bool) : nat :=
  match m with [] => 0 | b :: r => if b then S (first_false r) else 0 end.

(** seed_node_utils.cc:28-50: the loop of find_furthest_away_node; [rem], [next]: nodes left in this level, in the next
    level. Result: last node, distance (+1), marks. *)
Fixpoint far_loop (fuel : nat) (q : queue) (m : list bool) (dist last rem next : nat) : option (nat * nat * list bool) :=
  match fst q with
  | [] => Some (last, dist, m)
  | u :: r =>
      match fuel with
      | 0 => None
      | S f =>
          match queue_unmarked (fun _ => false) (gadj g u) (r, snd q) m next with
          | None => None
          | Some (q', m', next') =>
              match rem with
              | 0 => None
              | S rem' => if rem' =? 0 then far_loop f q' m' (S dist) u next' 0
                          else far_loop f q' m' dist u rem' next'
              end
          end
      end
  end.
(** seed_node_utils.cc:18-63 find_furthest_away_node; distance [None] is infinity. *)
Definition furthest_node (start : nat) : option (nat * option nat) :=
  match push_tail start nilq, mset start (repeat false (gn g)) with
  | Some q, Some m =>
      match far_loop (gn g) q m 0 start 1 0 with
      | None => None
      | Some (last, dist, m') =>
          match dist with
          | 0 => None
          | S d => if first_false m' <? gn g then Some (first_false m', None) else Some (last, Some d)
          end
      end
  | _, _ => None
  end.
(** distance > best_distance, distance == best_distance, with infinity. *)
Definition dist_gt (a b : option nat) : bool :=
  match a, b with None, Some _ => true | Some x, Some y => y <? x | _, None => false end.
Definition dist_eq (a b : option nat) : bool :=
  match a, b with None, None => true | Some x, Some y => x =? y | _, _ => false end.
(** seed_node_utils.cc:74-97 find_far_away_nodes; [rnd i] is random_index(0, n) and the random bit of iteration [i]. *)
Fixpoint far_away (iters i : nat) (rnd : nat -> nat * bool) (best : option nat) (pair : nat * nat) : option (nat * nat) :=
  match iters with
  | 0 => Some pair
  | S it =>
      let u := fst (rnd i) mod gn g in
      match furthest_node u with
      | None => None
      | Some (v, d) =>
          if dist_gt d best || (dist_eq d best && snd (rnd i)) then far_away it (S i) rnd d (u, v)
          else far_away it (S i) rnd best pair
      end
  end.

(** initial_bfs_bipartitioner.cc:22-68: the block selection strategies. *)
Inductive strategy := alternating | lighter | sequential | longer_queue | shorter_queue.
Definition select_next (st : strategy) (active : nat) (bw : list Z) (q0 q1 : queue) : nat :=
  match st with
  | alternating => 1 - active
  | lighter => if (nth 0 bw 0 <? nth 1 bw 0)%Z then 0 else 1
  | sequential => if (nth 0 bw 0 <? perfect 0)%Z then 0 else 1
  | longer_queue => if length (fst q0) <? length (fst q1) then 1 else 0
  | shorter_queue => if length (fst q0) <? length (fst q1) then 0 else 1
  end.

(** The state of the loop: partition and block weights, the queues, the marks 0, 1 and kMarkAssigned, the active block. *)
Record bstate := mkB { b_fs : fstate; b_q : list queue; b_m : list (list bool); b_done : list bool; b_active : nat }.

(** initial_bfs_bipartitioner.cc:130-163: assign the node [u] that was taken from the queue of block [active] and queue
    its neighbours; [qs]: the queues without u. *)
Definition bfs_assign (u active : nat) (qs : list queue) (s : bstate) : option bstate :=
  let weight := nth active (snd (b_fs s)) 0%Z in
  let active := if (weight + gvw g u <=? limit active)%Z then active else 1 - active in
  match flat_set u active (b_fs s), mset u (b_done s) with
  | Some fs, Some dn =>
      match queue_unmarked (fun v => nth v dn false) (gadj g u) (nth active qs nilq) (nth active (b_m s) []) 0 with
      | Some (q', m', _) => Some (mkB fs (upd active q' qs) (upd active m' (b_m s)) dn active)
      | None => None
      end
  | _, _ => None
  end.
(** initial_bfs_bipartitioner.cc:122-165: take a node from the active queue ([s]: the state after the queue was refilled),
    assign it unless it was assigned before, select the next block. *)
Definition bfs_pop (st : strategy) (s : bstate) : option bstate :=
  let active := b_active s in
  match nth active (b_q s) nilq with
  | ([], _) => None
  | (u :: r, c) =>
      let s1 := mkB (b_fs s) (upd active (r, c) (b_q s)) (b_m s) (b_done s) active in
      match (if nth u (b_done s) false then Some s1 else bfs_assign u active (b_q s1) s1) with
      | Some s' => Some (mkB (b_fs s') (b_q s') (b_m s') (b_done s')
                          (select_next st (b_active s') (snd (b_fs s')) (nth 0 (b_q s') nilq) (nth 1 (b_q s') nilq)))
      | None => None
      end
  end.
(** initial_bfs_bipartitioner.cc:110-121: one iteration of the loop; an empty queue is refilled with the first node that
    was not assigned yet, unless it was in this queue before. *)
Definition bfs_step (st : strategy) (s : bstate) : option bstate :=
  let active := b_active s in
  match fst (nth active (b_q s) nilq) with
  | [] =>
      let v := first_false (b_done s) in
      if nth v (nth active (b_m s) []) false
      then Some (mkB (b_fs s) (b_q s) (b_m s) (b_done s) (1 - active))
      else match push_tail v (nth active (b_q s) nilq), mset v (nth active (b_m s) []) with
           | Some q', Some m' => bfs_pop st (mkB (b_fs s) (upd active q' (b_q s)) (upd active m' (b_m s)) (b_done s) active)
           | _, _ => None
           end
  | _ :: _ => bfs_pop st s
  end.
(** initial_bfs_bipartitioner.cc:110-166: the loop of fill_bipartition. *)
Fixpoint bfs_loop (fuel : nat) (st : strategy) (s : bstate) : option fstate :=
  if first_false (b_done s) <? gn g
  then match fuel with
       | 0 => None
       | S f => match bfs_step st s with Some s' => bfs_loop f st s' | None => None end
       end
  else Some (b_fs s).
(** initial_bfs_bipartitioner.cc:92-167 fill_bipartition, after the start nodes were found. *)
Definition bfs_fill (st : strategy) (start : nat * nat) (fs : fstate) : option fstate :=
  match push_tail (fst start) nilq, push_tail (snd start) nilq,
        mset (fst start) (repeat false (gn g)), mset (snd start) (repeat false (gn g)) with
  | Some q0, Some q1, Some m0, Some m1 => bfs_loop (2 * gn g) st (mkB fs [q0; q1] [m0; m1] (repeat false (gn g)) 0)
  | _, _, _, _ => None
  end.

(** initial_ggg_bipartitioner.cc:96-108 compute_gain. *)
Definition ggg_gain (p : list (option nat)) (u : nat) : Z :=
  zsum (map (fun e => match nth u p None, nth (fst e) p None with
                      | Some a, Some b => if a =? b then snd e else (- snd e)%Z
                      | _, _ => 0%Z
                      end) (gadj g u)).
Definition in_v2 (p : list (option nat)) (u : nat) : bool := match nth u p None with Some b => b =? 1 | None => false end.
(** initial_ggg_bipartitioner.cc:72-92: the visit of one neighbour [v] of [u]. The test reads the block of u. *)
Definition ggg_neighbor (u : nat) (p : list (option nat)) (qm : heap * list bool) (e : nat * Z) : option (heap * list bool) :=
  let (q, m) := qm in
  let (v, w) := e in
  if in_v2 p u then Some (q, m)
  else if nth v m false
       then match nth v q None with Some k => Some (upd v (Some (k - 2 * w)%Z) q, m) | None => None end
       else match push v (ggg_gain p v) q, mset v m with Some q', Some m' => Some (q', m') | _, _ => None end.
Fixpoint ggg_neighbors (u : nat) (p : list (option nat)) (qm : heap * list bool) (l : list (nat * Z)) : option (heap * list bool) :=
  match l with
  | [] => Some qm
  | e :: r => match ggg_neighbor u p qm e with Some qm' => ggg_neighbors u p qm' r | None => None end
  end.
(** initial_ggg_bipartitioner.cc:60-93: the inner loop; [tie] chooses among minimal elements. *)
Fixpoint ggg_inner (fuel : nat) (tie : nat) (q : heap) (m : list bool) (fs : fstate) : option (heap * list bool * fstate) :=
  if is_empty q then Some (q, m, fs)
  else match fuel with
       | 0 => None
       | S f =>
           match peek tie q with
           | None => None
           | Some (u, _) =>
               match flat_change u 1 fs with
               | None => None
               | Some fs' =>
                   if (perfect 1 <=? nth 1 (snd fs') 0)%Z then Some (remove u q, m, fs')
                   else match ggg_neighbors u (fst fs') (remove u q, m) (gadj g u) with
                        | Some (q', m') => ggg_inner f tie q' m' fs'
                        | None => None
                        end
               end
           end
       end.
(** initial_ggg_bipartitioner.cc:43-55: at most five random attempts to find a node that is not marked, otherwise the
    first one. *)
Fixpoint ggg_start (tries : nat) (rnd : nat -> nat) (i : nat) (m : list bool) : nat :=
  let s := rnd i mod gn g in
  if nth s m false then match tries with 0 => first_false m | S t => ggg_start t rnd (S i) m end else s.
(** initial_ggg_bipartitioner.cc:40-94: the outer loop; [rnd i]: the random numbers and ties of iteration [i]. *)
Fixpoint ggg_outer (fuel : nat) (rnd : nat -> (nat -> nat) * nat) (i : nat) (q : heap) (m : list bool) (fs : fstate) : option fstate :=
  match fuel with
  | 0 => None
  | S f =>
      let s := ggg_start 4 (fst (rnd i)) 0 m in
      if gn g <=? s then Some fs
      else match push s (ggg_gain (fst fs) s) q, mset s m with
           | Some q1, Some m1 =>
               match ggg_inner (gn g) (snd (rnd i)) q1 m1 fs with
               | None => None
               | Some (q2, m2, fs') =>
                   if (nth 1 (snd fs') 0 <? perfect 1)%Z then ggg_outer f rnd (S i) q2 m2 fs' else Some fs'
               end
           | _, _ => None
           end
  end.
(** initial_ggg_bipartitioner.cc:29-95 fill_bipartition. *)
Definition ggg_fill (rnd : nat -> (nat -> nat) * nat) (fs : fstate) : option fstate :=
  ggg_outer (S (gn g)) rnd 0 (repeat None (gn g)) (repeat false (gn g))
    (repeat (Some 0) (gn g), upd 0 (sumn (gn g) (gvw g)) (snd fs)).

(** initial_pool_bipartitioner.cc:62-76: the algorithms, with the random numbers they use. *)
Inductive algorithm :=
| ABfs (st : strategy) (iters : nat) (rnd : nat -> nat * bool)
| AGgg (rnd : nat -> (nat -> nat) * nat)
| ARandom (rnd : nat -> bool).
Definition fill (a : algorithm) (fs : fstate) : option fstate :=
  match a with
  | ABfs st iters rnd => match far_away iters 0 rnd (Some 0) (0, 0) with Some start => bfs_fill st start fs | None => None end
  | AGgg rnd => ggg_fill rnd fs
  | ARandom rnd => random_fill rnd (seq 0 (gn g)) fs
  end.
(** The labels of a complete partition. *)
Fixpoint labels (p : list (option nat)) : option (list nat) :=
  match p with
  | [] => Some []
  | Some b :: r => match labels r with Some l => Some (b :: l) | None => None end
  | None :: _ => None
  end.
(** initial_flat_bipartitioner.cc:26-60 bipartition. *)
Definition flat_bipartition (a : algorithm) : option (list nat * list Z) :=
  if gn g =? 0 then Some ([], [0; 0]%Z)
  else match fill a (repeat None (gn g), [0; 0]%Z) with
       | Some (p, bw) => match labels p with Some l => Some (l, bw) | None => None end
       | None => None
       end.
End Flat.
