(* Reordering of a distributed graph before partitioning: kaminpar-dist/graphutils/rearrangement.cc, kaminpar-shm/graphutils/permutator.h
   (with ghost nodes), kaminpar-common/parallel/loops.h (chunked_for) and the part of kaminpar-dist/dkaminpar.cc that hands the blocks
   back in the caller's order. Every rank sorts its own nodes; ghosts keep their local identifiers but get new global ones. Graphs are
   not compressed (a compressed graph is not reordered). [None]: an array is accessed out of bounds, or an iterator to the end is
   dereferenced. *)
From Verif Require Import Lib.Prelude Model.GridModel Model.MathModel Model.CsrModel Model.PermModel Model.DistGraphModel Model.DistMetricsModel.
Open Scope nat_scope.

(** permutator.h:110-122 with put_deg0_at_end = false (rearrangement.cc:43-44): isolated nodes come first. *)
Definition dist_bucket (deg : nat) : nat := if deg =? 0 then 0 else bucket_of_degree deg.
(** permutator.h:134-145 and rearrangement.cc:41-51: (old_to_new, new_to_old) of one rank. *)
Definition degree_order (concurrency : nat) (nodes : list nat) : list nat * list nat :=
  permutation_by_buckets concurrency (length nodes - 1) num_degree_buckets (fun u => dist_bucket (nth (S u) nodes 0 - nth u nodes 0)).

(** ** rearrangement.cc:53-92 rearrange_by_coloring *)

(** :59: the largest colour of a node or ghost plus one; std::max_element of an empty range is its end. *)
Definition num_local_colors (coloring : list nat) : option nat :=
  match coloring with [] => None | c :: t => Some (S (fold_left Nat.max t c)) end.
(** :60: the maximum over all ranks. *)
Definition num_colors (colorings : list (list nat)) : option nat :=
  bind (traverse num_local_colors colorings) (fun l => Some (fold_left Nat.max l 0)).
(** :69-72: an atomic increment per node, in some order. *)
Fixpoint count_colors (coloring us sizes : list nat) : option (list nat) :=
  match us with
  | [] => Some sizes
  | u :: t => bind (nth_error coloring u) (fun c => bind (nth_error sizes c) (fun x => count_colors coloring t (upd c (S x) sizes)))
  end.
(** :77-83: an atomic decrement per node, in some order; state: color_sizes, old_to_new, new_to_old. *)
Record placed := Placed { pl_sizes : list nat; pl_o2n : list nat; pl_n2o : list nat }.
Fixpoint place_nodes (coloring us : list nat) (s : placed) : option placed :=
  match us with
  | [] => Some s
  | u :: t =>
      bind (nth_error coloring u) (fun c => bind (nth_error (pl_sizes s) c) (fun x =>
      match x with
      | O => None
      | S i => bind (store u i (pl_o2n s)) (fun o2n => bind (store i u (pl_n2o s)) (fun n2o => place_nodes coloring t (Placed (upd c i (pl_sizes s)) o2n n2o)))
      end))
  end.
(** :63-84; [order1], [order2]: the orders of the two loops. (A StaticArray of this size is zero-initialised.) *)
Definition color_order (colors n : nat) (coloring order1 order2 : list nat) : option placed :=
  bind (count_colors coloring order1 (repeat 0 (colors + 1))) (fun counts => place_nodes coloring order2 (Placed (prefix_sum counts) (repeat 0 n) (repeat 0 n))).

(** ** rearrangement.cc:94-178 rearrange_by_permutation *)

(** permutator.h:165-215 build_permuted_graph with has_ghost_nodes = true: as PermModel.build_permuted_graph, but ghosts keep their
    identifiers and the array of node weights has room for them. [junk_*]: fresh memory of the sizes of the old arrays. *)
Definition build_permuted_part (nodes edges : list nat) (nw ew : list Z) (o2n n2o : list nat) (junk_edges : list nat) (junk_nw junk_ew : list Z)
    : list nat * list nat * list Z * list Z :=
  let n := length nodes - 1 in
  let is_node_weighted := length nodes <=? length nw + 1 in
  let is_edge_weighted := length ew =? length edges in
  let degs := map (fun u => let o := nth u n2o 0 in nth (S o) nodes 0 - nth o nodes 0) (seq 0 n) in
  let new_nw := if is_node_weighted then map (fun u => nth (nth u n2o 0) nw 0%Z) (seq 0 n) ++ skipn n junk_nw else junk_nw in
  let starts := prefix_sum degs in
  let old_edges u := let o := nth u n2o 0 in seq (nth o nodes 0) (nth (S o) nodes 0 - nth o nodes 0) in
  let target v := if v <? n then nth v o2n 0 else v in
  let '(new_nodes, new_edges, new_ew) :=
    fold_left (fun '(ns, es, ws) u =>
        let '(p, es') := copy_backwards (map (fun e => target (nth e edges 0)) (old_edges u)) (nth u ns 0) es in
        let ws' := if is_edge_weighted
                   then snd (copy_backwards (map (fun e => nth e ew 0%Z) (old_edges u)) (nth u ns 0) ws)
                   else ws in
        (upd u p ns, es', ws'))
      (seq 0 n) (starts, junk_edges, junk_ew) in
  (new_nodes ++ [last starts 0], new_edges, new_nw, new_ew).
(** rearrangement.cc:129-134: the weights of the ghosts are copied. *)
Definition copy_ghost_weights (n total : nat) (old new : list Z) : option (list Z) :=
  match new with
  | [] => Some []
  | _ => fold_left (fun s u => bind s (fun a => bind (nth_error old u) (fun w => store u w a))) (seq n (total - n)) (Some new)
  end.
(** :142-147: every node sends its old and its new local identifier to every rank that has a neighbour of it. *)
Definition label_message (o2n : list nat) (s u pe : nat) : nat * nat := value_message o2n 0 s u pe.
(** :154-163: the receiver handles one message of rank [pe]; state: the new map of the ghosts, the global identifiers of the ghosts. *)
Definition receive_label (d : dcsr) (s : option (list (nat * nat) * list nat)) (m : nat * (nat * nat)) : option (list (nat * nat) * list nat) :=
  bind s (fun s => bind (doffset d (fst m)) (fun o =>
  bind (afind (o + fst (snd m) + 1) (gh_map (dc_ghosts d))) (fun ghost =>
  bind (store (ghost - dn d) (o + snd (snd m)) (snd s)) (fun gl => Some (ainsert (o + snd (snd m) + 1) ghost (fst s), gl))))).
(** :94-178 for one rank; [msgs]: the messages in the order in which they are handled. *)
Definition rearrange_rank (d : dcsr) (o2n n2o junk_edges : list nat) (junk_nw junk_ew : list Z) (msgs : list (nat * (nat * nat))) : option dcsr :=
  let '(nodes, edges, nw0, ew) := build_permuted_part (dc_nodes d) (dc_edges d) (dc_nw d) (dc_ew d) o2n n2o junk_edges junk_nw junk_ew in
  bind (copy_ghost_weights (dn d) (dn d + dghost_n d) (dc_nw d) nw0) (fun nw =>
  bind (fold_left (receive_label d) msgs (Some ([], gh_global (dc_ghosts d)))) (fun s =>
  Some (Dcsr (dc_rank d) (dc_dist d) (dc_edist d) nodes edges nw ew (Ghosts (snd s) (gh_owner (dc_ghosts d)) (fst s))))).

(** ** loops.h:26-67 chunked_for: what the body for the range [a, a + len) of a parallel loop over all elements of [bufs] does *)

(** :40-45: the first buffer for the range; state: start of the buffer, number of the buffer. *)
Fixpoint find_buffer {X} (bufs : list (list X)) (cur offset b : nat) : option (nat * nat) :=
  match bufs with
  | [] => None
  | x :: t => if offset + length x <? cur then find_buffer t cur (offset + length x) (S b) else Some (offset, b)
  end.
(** :49-53: further buffers until [cur] is inside. *)
Fixpoint skip_buffers {X} (bufs : list (list X)) (cur offset b : nat) : option (nat * nat) :=
  match bufs with
  | [] => None
  | x :: t => if length x <=? cur - offset then skip_buffers t cur (offset + length x) (S b) else Some (offset, b)
  end.
(** :48-65. *)
Fixpoint chunk_loop {X} (bufs : list (list X)) (len cur offset b : nat) : option (list (nat * X)) :=
  match len with
  | O => Some []
  | S len' =>
      bind (skip_buffers (skipn b bufs) cur offset b) (fun p =>
      bind (nth_error bufs (snd p)) (fun buf => bind (nth_error buf (cur - fst p)) (fun x =>
      bind (chunk_loop bufs len' (S cur) (fst p) (snd p)) (fun r => Some ((snd p, x) :: r)))))
  end.
Definition chunked_range {X} (bufs : list (list X)) (a len : nat) : option (list (nat * X)) :=
  bind (find_buffer bufs a 0 0) (fun p => chunk_loop bufs len a (fst p) (snd p)).

(** ** All ranks, and the caller's view (dkaminpar.cc:279-376) *)

(** dkaminpar.h GraphOrdering. *)
Inductive ordering := Natural | DegreeBuckets | Coloring.

(** The orders that the ranks may compute. Coloring: for the colourings [col] of own nodes and ghosts. *)
Definition order_outcome (P : nat) (d : nat -> dcsr) (ord : ordering) (o2n n2o : nat -> list nat) : Prop :=
  match ord with
  | Natural => False
  | DegreeBuckets => forall r, r < P -> exists conc, 0 < conc /\ degree_order conc (dc_nodes (d r)) = (o2n r, n2o r)
  | Coloring => exists col colors, num_colors (map col (seq 0 P)) = Some colors /\
      forall r, r < P -> length (col r) = dn (d r) + dghost_n (d r) /\
        exists order1 order2 s, Permutation order1 (seq 0 (dn (d r))) /\ Permutation order2 (seq 0 (dn (d r))) /\
          color_order colors (dn (d r)) (col r) order1 order2 = Some s /\ o2n r = pl_o2n s /\ n2o r = pl_n2o s
  end.
(** The graphs that the ranks may end up with: any number of threads, any interleaving of the threads that fill the send buffers, any
    order in which the messages are handled. *)
Definition rearrange_outcome (P : nat) (d : nat -> dcsr) (o2n n2o : nat -> list nat) (d' : nat -> dcsr) : Prop :=
  exists threads bufs, (forall r, r < P -> 0 < threads r /\ buffers_outcome P (d r) (fun u => u) (fun _ _ => true) (label_message (o2n r)) (threads r) 0 (dn (d r)) (bufs r)) /\
    forall r, r < P -> exists junk_edges junk_nw junk_ew msgs, length junk_edges = length (dc_edges (d r)) /\ length junk_nw = length (dc_nw (d r)) /\
      length junk_ew = length (dc_ew (d r)) /\ Permutation msgs (inbox P bufs r) /\
      rearrange_rank (d r) (o2n r) (n2o r) junk_edges junk_nw junk_ew msgs = Some (d' r).

(** dkaminpar.h: the state of a dKaMinPar object, on all ranks: graph, permutation stored with it, _was_rearranged. *)
Record dfacade := Dfacade { df_graph : nat -> dcsr; df_perm : nat -> list nat; df_rearranged : bool }.
(** dkaminpar.cc:274-277. *)
Definition df_import (d : nat -> dcsr) : dfacade := Dfacade d (fun _ => []) false.
(** dkaminpar.cc:316-332 (:175 set_permutation): the state after the reordering in compute_partition. *)
Inductive prepare (P : nat) (ord : ordering) (f : dfacade) : dfacade -> Prop :=
| prepare_keep : df_rearranged f = true \/ ord = Natural -> prepare P ord f f
| prepare_sort o2n n2o d' : df_rearranged f = false -> order_outcome P (df_graph f) ord o2n n2o -> rearrange_outcome P (df_graph f) o2n n2o d' ->
    prepare P ord f (Dfacade d' o2n true).
(** A history of calls; the caller may change the order between them. *)
Inductive prepares (P : nat) : list ordering -> dfacade -> dfacade -> Prop :=
| prepares_nil f : prepares P [] f f
| prepares_cons ord t f f' f'' : prepare P ord f f' -> prepares P t f' f'' -> prepares P (ord :: t) f f''.
(** dkaminpar.cc:345-355: the blocks that one rank writes; [part]: blocks of the nodes of the graph that was partitioned. *)
Definition written_blocks (f : dfacade) (r : nat) (part : list nat) : option (list nat) :=
  match df_perm f r with
  | [] => written_partition (df_graph f r) part
  | perm => traverse (fun u => bind (nth_error perm u) (nth_error part)) (seq 0 (dn (df_graph f r)))
  end.
