(* kaminpar-dist/refinement/lp/lp_refiner.cc: one chunk of the distributed (batched) label propagation refiner. The label propagation
   on every rank is an oracle: it proposes any blocks for the nodes of the chunk; so is the random generator. Weights and gains are
   unbounded. A sum over all ranks (MPI_Allreduce) is the sum. [None]: an access out of bounds, or ranks that disagree on whether
   to enter a collective operation (they would wait for each other forever). *)
From Verif Require Import Lib.Prelude Model.GridModel Model.DistGraphModel.

(** A rank: blocks of own nodes and ghosts, _next_partition ([None]: kInvalidBlockID), the global block weights. *)
Record lpst := Lp { lp_part : list nat; lp_next : list (option nat); lp_bw : list Z }.
(** What a rank keeps during an attempt: the moves (node, old block), the changes of the block weights, the two arrays. *)
Record lpmv := Mv { mv_moves : list (nat * nat); mv_delta : list Z; mv_part : list nat; mv_next : list (option nat) }.

Section Refiner.
Variable k : nat.
Variable ignore : bool.        (* ignore_probabilities *)
Variable mx : nat -> Z.        (* max_cluster_weight *)

(** block_weight_deltas[b] += x. *)
Definition add_delta (b : nat) (x : Z) (l : list Z) : option (list Z) := bind (nth_error l b) (fun y => Some (upd b (y + x)%Z l)).
(** :231-281 the loop of perform_moves over the nodes [us] of this rank; the threads work on different nodes, so the order does not
    matter. [coin]: the random decisions. *)
Fixpoint try_moves (d : dcsr) (coin : nat -> bool) (us : list nat) (s : lpmv) : option lpmv :=
  match us with
  | [] => Some s
  | u :: t =>
      bind (nth_error (mv_part s) u) (fun from =>
      bind (nth_error (mv_next s) u) (fun nx =>
      match nx with
      | None => try_moves d coin t s
      | Some b =>
          if b =? from then try_moves d coin t s
          else if ignore || coin u then
            bind (dnode_weight (dc_nw d) u) (fun w =>
            bind (add_delta from (- w)%Z (mv_delta s)) (fun d1 =>
            bind (add_delta b w d1) (fun d2 =>
            try_moves d coin t (Mv (mv_moves s ++ [(u, from)]) d2 (upd u b (mv_part s)) (upd u None (mv_next s))))))
          else try_moves d coin t s
      end))
  end.
(** :284 the allreduce. *)
Definition sum_deltas (l : list (list Z)) : list Z := map (fun b => zsum (map (fun row => nth b row 0%Z) l)) (seq 0 k).
(** :287-295. *)
Definition feasible (bw dl : list Z) : bool :=
  ignore || forallb (fun b => negb ((mx b <? nth b bw 0 + nth b dl 0)%Z && (0 <? nth b dl 0)%Z)) (seq 0 k).
(** :307-317. *)
Fixpoint revert (moves : list (nat * nat)) (part : list nat) (next : list (option nat)) : option (list nat * list (option nat)) :=
  match moves with
  | [] => Some (part, next)
  | (u, from) :: t => bind (nth_error part u) (fun b => bind (store u (Some b) next) (fun next' => bind (store u from part) (fun part' => revert t part' next')))
  end.
(** :306-327: the decision of one rank. *)
Definition conclude (dl : list Z) (bw : list Z) (s : lpmv) : option (bool * lpst) :=
  if feasible bw dl then Some (true, Lp (mv_part s) (mv_next s) (map (fun b => (nth b bw 0 + nth b dl 0)%Z) (seq 0 k)))
  else bind (revert (mv_moves s) (mv_part s) (mv_next s)) (fun r => Some (false, Lp (fst r) (snd r) bw)).
(** :207-330 perform_moves on all ranks; [us r], [coin r]: nodes of the chunk and decisions of rank r. *)
Definition perform_moves (ds : list dcsr) (us : nat -> list nat) (coin : nat -> nat -> bool) (sts : list lpst) : option (list (bool * lpst)) :=
  bind (traverse (fun r => bind (nth_error ds r) (fun d => bind (nth_error sts r) (fun s =>
          try_moves d (coin r) (us r) (Mv [] (repeat 0%Z k) (lp_part s) (lp_next s))))) (seq 0 (length ds))) (fun ms =>
  let dl := sum_deltas (map mv_delta ms) in
  traverse (fun p => conclude dl (lp_bw (fst p)) (snd p)) (combine sts ms)).
(** :190-195 the attempts; every rank leaves the loop after an attempt that it finds feasible. *)
Fixpoint attempts (ds : list dcsr) (us : nat -> list nat) (coins : list (nat -> nat -> bool)) (sts : list lpst) : option (list lpst) :=
  match coins with
  | [] => Some sts
  | c :: t =>
      bind (perform_moves ds us c sts) (fun rs =>
      if forallb fst rs then Some (map snd rs)
      else if existsb fst rs then None
      else attempts ds us t (map snd rs))
  end.
End Refiner.

(** :144-160: the label propagation of a rank may propose blocks for the nodes of the chunk [lo, hi). *)
Definition proposes (k lo hi : nat) (s s' : lpst) : Prop :=
  lp_part s' = lp_part s /\ lp_bw s' = lp_bw s /\ length (lp_next s') = length (lp_next s) /\
  (forall u, u < lo \/ hi <= u -> nth_error (lp_next s') u = nth_error (lp_next s) u) /\
  (forall u, lo <= u < hi -> exists b, nth_error (lp_next s') u = Some (Some b) /\ b < k).
(** :201-203, 335-377 synchronize_state and the line after it, on rank q: [msgs] are the messages that arrive, in the order in which
    they are handled. *)
Definition is_none {A} (x : option A) : bool := match x with None => true | Some _ => false end.
Definition moved_filter (s : lpst) (_ u : nat) : bool := match nth_error (lp_next s) u with Some x => is_none x | None => false end.
Fixpoint reset_next (us : list nat) (part : list nat) (next : list (option nat)) : option (list (option nat)) :=
  match us with
  | [] => Some next
  | u :: t => bind (nth_error part u) (fun b => bind (store u (Some b) next) (fun n' => reset_next t part n'))
  end.
Definition synchronize (d : dcsr) (lo hi : nat) (msgs : list (nat * (nat * nat))) (s : lpst) : option lpst :=
  bind (receive_values d (lp_part s) msgs) (fun part =>
  bind (reset_next (seq lo (hi - lo)) part (lp_next s)) (fun next => Some (Lp part next (lp_bw s)))).
(** The send buffers for the moves (filter and message of synchronize_state; that building a message clears the mark of its node does
    not change the filter for other nodes). *)
Definition move_buffers (P : nat) (d : dcsr) (threads lo hi : nat) (s : lpst) (bufs : list (list (nat * nat))) : Prop :=
  buffers_outcome P d (fun u => u) (moved_filter s) (value_message (lp_part s) 0) threads lo hi bufs.

(** :138-205 process_chunk: what may happen. If no rank proposes a move, all return early (:164-167; the reported number of moves is
    taken to be the number of nodes with a new block). *)
Definition unchanged (s : lpst) (lo hi : nat) : Prop := forall u, lo <= u < hi -> nth_error (lp_next s) u = option_map Some (nth_error (lp_part s) u).
Inductive chunk (k : nat) (ignore : bool) (mx : nat -> Z) (ds : list dcsr) (lo hi threads : nat -> nat) : list lpst -> list lpst -> Prop :=
| chunk_early sts sts1 : length sts = length ds -> length sts1 = length ds ->
    (forall r s s1, nth_error sts r = Some s -> nth_error sts1 r = Some s1 -> proposes k (lo r) (hi r) s s1 /\ unchanged s1 (lo r) (hi r)) ->
    chunk k ignore mx ds lo hi threads sts sts1
| chunk_moves sts sts1 sts2 sts3 coins bufs msgs : length sts = length ds -> length sts1 = length ds ->
    (forall r s s1, nth_error sts r = Some s -> nth_error sts1 r = Some s1 -> proposes k (lo r) (hi r) s s1) ->
    attempts k ignore mx ds (fun r => seq (lo r) (hi r - lo r)) coins sts1 = Some sts2 ->
    (forall r d s, nth_error ds r = Some d -> nth_error sts2 r = Some s -> move_buffers (length ds) d (threads r) (lo r) (hi r) s (bufs r)) ->
    length sts3 = length ds ->
    (forall q d s, nth_error ds q = Some d -> nth_error sts2 q = Some s ->
       Permutation (msgs q) (inbox (length ds) bufs q) /\ synchronize d (lo q) (hi q) (msgs q) s = nth_error sts3 q) ->
    chunk k ignore mx ds lo hi threads sts sts3.
(** :118-132: chunks and iterations, each with the ranges that the ranks compute (math::compute_local_range). *)
Inductive refine (k : nat) (ignore : bool) (mx : nat -> Z) (ds : list dcsr) : list lpst -> list lpst -> Prop :=
| refine_done sts : refine k ignore mx ds sts sts
| refine_chunk lo hi threads sts sts1 sts2 :
    (forall r d, nth_error ds r = Some d -> lo r <= hi r <= dn d /\ 0 < threads r) ->
    chunk k ignore mx ds lo hi threads sts sts1 -> refine k ignore mx ds sts1 sts2 -> refine k ignore mx ds sts sts2.
(** :104-116 and the base class' initialize: _next_partition is the current partition of the own nodes. *)
Definition lp_start (d : dcsr) (part : list nat) (bw : list Z) : lpst := Lp part (map (fun b => Some b) (firstn (dn d) part)) bw.
