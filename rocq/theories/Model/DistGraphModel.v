(* Distributed graphs: kaminpar-dist/dkaminpar.cc (import_graph from arrays), datastructures/ghost_node_mapper.h (GhostNodeMapper),
   datastructures/distributed_csr_graph.h, graphutils/communication.h (sparse_alltoall_interface_to_pe) and
   graphutils/synchronization.h. Rank r owns the nodes dist[r], ..., dist[r + 1] - 1 and keeps a copy ("ghost") of every neighbour
   that another rank owns. Identifiers are natural numbers: the conversions to 32-bit local identifiers and edge numbers
   (dkaminpar.cc:194-197, :231, :238) are not modelled, every rank is assumed to have fewer than 2^32 local nodes, ghosts and edges.
   tbb::concurrent_hash_map and the growt table are modelled as maps. [None]: an array is accessed out of bounds, or, for a step
   of a parallel loop, the step cannot be taken. *)
From Verif Require Import Lib.Prelude Model.GridModel Model.MathModel.
Open Scope nat_scope.

(** Conversion to a signed integer of [bits] bits (implicit in dkaminpar.cc:249, :256). NodeWeight and EdgeWeight have 32 bits
    unless KAMINPAR_64BIT_LOCAL_WEIGHTS is set (dkaminpar.h:43-50), the caller's arrays have 64. *)
Definition narrow (bits : Z) (x : Z) : Z := ((x + 2 ^ (bits - 1)) mod 2 ^ bits - 2 ^ (bits - 1))%Z.

Fixpoint afind {V} (k : nat) (l : list (nat * V)) : option V :=
  match l with
  | [] => None
  | (k', v) :: t => if k' =? k then Some v else afind k t
  end.
Fixpoint aset {V} (k : nat) (v : V) (l : list (nat * V)) : list (nat * V) :=
  match l with
  | [] => []
  | (k', x) :: t => if k' =? k then (k', v) :: t else (k', x) :: aset k v t
  end.
(** An array write. *)
Definition store {X} (i : nat) (x : X) (l : list X) : option (list X) := if i <? length l then Some (upd i x l) else None.

(** ** dkaminpar.cc:233-243: the parallel loop that translates the edges *)

(** How far the iteration of the loop for an edge is. *)
Inductive task := Ready | Locked | Numbered (id : nat) | Finished.
(** The map of the ghost nodes ([None]: the entry is locked by the iteration that inserted it), the next ghost node, the
    iterations, the translated edges. *)
Record imp := Imp { im_map : list (nat * option nat); im_next : nat; im_tasks : list task; im_edges : list nat }.

Section Import.
Variables from to : nat.       (* the nodes of this rank *)
Variable adj : list nat.       (* adjncy *)

(** One step of the iteration for edge [e]. dkaminpar.cc:236-241, ghost_node_mapper.h:240-252: an iteration that finds its node in
    the map waits until the entry is unlocked. (Its second access to the entry, by [find], is merged with the first one.) *)
Definition import_step (e : nat) (s : imp) : option imp :=
  bind (nth_error adj e) (fun v =>
  match nth_error (im_tasks s) e with
  | Some Ready =>
      if (from <=? v) && (v <? to) then
        bind (store e (v - from) (im_edges s)) (fun es => Some (Imp (im_map s) (im_next s) (upd e Finished (im_tasks s)) es))
      else
        match afind v (im_map s) with
        | None => Some (Imp ((v, None) :: im_map s) (im_next s) (upd e Locked (im_tasks s)) (im_edges s))
        | Some None => None
        | Some (Some id) => bind (store e id (im_edges s)) (fun es => Some (Imp (im_map s) (im_next s) (upd e Finished (im_tasks s)) es))
        end
  | Some Locked => Some (Imp (im_map s) (S (im_next s)) (upd e (Numbered (im_next s)) (im_tasks s)) (im_edges s))
  | Some (Numbered id) =>
      bind (store e id (im_edges s)) (fun es =>
      Some (Imp (aset v (Some id) (im_map s)) (im_next s) (upd e Finished (im_tasks s)) es))
  | _ => None
  end).
(** A schedule: which iteration steps next. *)
Fixpoint import_run (sched : list nat) (s : imp) : option imp :=
  match sched with
  | [] => Some s
  | e :: t => bind (import_step e s) (import_run t)
  end.
(** ghost_node_mapper.h:235-238, dkaminpar.cc:234; [junk]: fresh memory. *)
Definition import_start (junk : list nat) : imp := Imp [] (to - from) (repeat Ready (length adj)) junk.
End Import.

(** ** ghost_node_mapper.h:259-291 finalize *)

(** std::upper_bound: the first position with a larger value, or the end. *)
Fixpoint first_above (value : nat) (l : list nat) : nat :=
  match l with
  | [] => 0
  | x :: t => if value <? x then 0 else S (first_above value t)
  end.
(** :272-275. *)
Definition find_owner (dist : list nat) (g : nat) : nat := S (first_above g (tl dist)) - 1.
(** growt's insert: an existing entry is kept. *)
Definition ainsert {V} (k : nat) (v : V) (l : list (nat * V)) : list (nat * V) :=
  match afind k l with Some _ => l | None => (k, v) :: l end.
Record ghosts := Ghosts { gh_global : list nat; gh_owner : list nat; gh_map : list (nat * nat) }.
(** :266-289, for one entry. *)
Definition final_entry (n : nat) (dist : list nat) (s : option ghosts) (x : nat * nat) : option ghosts :=
  bind s (fun s =>
  bind (store (snd x - n) (fst x) (gh_global s)) (fun gl =>
  bind (store (snd x - n) (find_owner dist (fst x)) (gh_owner s)) (fun ow =>
  Some (Ghosts gl ow (ainsert (fst x + 1) (snd x) (gh_map s)))))).
(** [order]: the entries of the map in the order in which the parallel loop visits them. *)
Definition finalize (n : nat) (dist : list nat) (next : nat) (order : list (nat * nat)) : option ghosts :=
  fold_left (final_entry n dist) order (Some (Ghosts (repeat 0 (next - n)) (repeat 0 (next - n)) [])).
(** The entries of the map after the loop over the edges. *)
Definition entries (m : list (nat * option nat)) : list (nat * nat) :=
  flat_map (fun x => match snd x with Some i => [(fst x, i)] | None => [] end) m.

(** ** distributed_csr_graph.h: the graph of one rank *)
Record dcsr := Dcsr { dc_rank : nat; dc_dist : list nat; dc_edist : list nat; dc_nodes : list nat; dc_edges : list nat;
  dc_nw : list Z; dc_ew : list Z; dc_ghosts : ghosts }.

(** dkaminpar.cc:200-216: every rank contributes its number of edges; exclusive prefix sum over size + 1 entries ([x]: the last
    entry of the fresh array). *)
Definition exclusive_scan (l : list nat) : list nat := firstn (length l) (displs l).
Definition edge_distribution (ms : list nat) (x : nat) : list nat := exclusive_scan (ms ++ [x]).
(** dkaminpar.cc:194-273: the graph of rank [rank]. [s]: the state after the loop over the edges; [order]: see [finalize]; [fresh]:
    fresh memory of the weights. *)
Definition import_graph (bits : Z) (fresh : nat -> Z) (rank : nat) (dist edist xadj : list nat) (vwgt adjwgt : list Z)
    (s : imp) (order : list (nat * nat)) : option dcsr :=
  bind (nth_error dist rank) (fun from =>
  bind (nth_error dist (rank + 1)) (fun to =>
  let n := to - from in
  bind (nth_error xadj n) (fun m =>
  bind (slice xadj 0 (n + 1)) (fun nodes =>
  bind (match adjwgt with [] => Some [] | _ => slice adjwgt 0 m end) (fun ew =>
  bind (match vwgt with [] => Some [] | _ => bind (slice vwgt 0 n) (fun vw => Some (map (narrow bits) vw ++ map fresh (seq n (im_next s)))) end) (fun nw =>
  bind (finalize n dist (im_next s) order) (fun gh =>
  Some (Dcsr rank dist edist nodes (im_edges s) nw (map (narrow bits) ew) gh)))))))).

Section Access.
Variable d : dcsr.
(** :88-94 the constructor; :128-131, 133-135. *)
Definition dn : nat := length (dc_nodes d) - 1.
Definition dghost_n : nat := length (gh_global (dc_ghosts d)).
Definition doffset (pe : nat) : option nat := nth_error (dc_dist d) pe.
(** :269-273 is_ghost_node, :280-286 ghost_owner. *)
Definition dis_ghost (u : nat) : bool := dn <=? u.
Definition dghost_owner (u : nat) : option nat := nth_error (gh_owner (dc_ghosts d)) (u - dn).
(** :294-297 local_to_global_node. *)
Definition dlocal_to_global (u : nat) : option nat :=
  if dis_ghost u then nth_error (gh_global (dc_ghosts d)) (u - dn) else bind (doffset (dc_rank d)) (fun o => Some (o + u)).
(** :299-308 global_to_local_node. *)
Definition dglobal_to_local (g : nat) : option nat :=
  bind (doffset (dc_rank d)) (fun o => if (o <=? g) && (g <? o + dn) then Some (g - o) else afind (g + 1) (gh_map (dc_ghosts d))).
(** :257-260 contains_global_node. *)
Definition dcontains (g : nat) : option bool :=
  bind (doffset (dc_rank d)) (fun o =>
  Some (((o <=? g) && (g <? o + dn)) || match afind (g + 1) (gh_map (dc_ghosts d)) with Some _ => true | None => false end)).
(** :288-292 map_remote_node. *)
Definition dmap_remote (their pe : nat) : option nat := bind (doffset pe) (fun o => dglobal_to_local (their + o)).
(** :340-... adjacent_nodes: neighbours and edge weights in the order of the arrays. *)
Definition dedge (e : nat) : option (nat * Z) :=
  bind (nth_error (dc_edges d) e) (fun v => bind (match dc_ew d with [] => Some 1%Z | _ => nth_error (dc_ew d) e end) (fun w => Some (v, w))).
Definition dadj (u : nat) : option (list (nat * Z)) :=
  bind (nth_error (dc_nodes d) u) (fun a => bind (nth_error (dc_nodes d) (u + 1)) (fun b => traverse dedge (seq a (b - a)))).
(** :222-224 node_weight, for the weight array [nw]. *)
Definition dnode_weight (nw : list Z) (u : nat) : option Z := match nw with [] => Some 1%Z | _ => nth_error nw u end.

(** ** communication.h:446-577 sparse_alltoall_interface_to_pe *)

(** :519-533: the ranks that receive a message for [u], in the order in which the loop over the neighbours finds them; [marked]:
    the ranks for which there is a message already. *)
Fixpoint targets_of (nbs : list (nat * Z)) (marked : list nat) : option (list nat) :=
  match nbs with
  | [] => Some []
  | (v, _) :: t =>
      if dis_ghost v then
        bind (dghost_owner v) (fun pe =>
        if existsb (Nat.eqb pe) marked then targets_of t marked
        else bind (targets_of t (pe :: marked)) (fun r => Some (pe :: r)))
      else targets_of t marked
  end.
Definition targets (u : nat) : option (list nat) := bind (dadj u) (fun nbs => targets_of nbs []).

Section Exchange.
Context {X : Type}.
Variable mapper : nat -> nat.               (* order of the nodes *)
Variable filter_ : nat -> nat -> bool.      (* which nodes send *)
Variable builder : nat -> nat -> nat -> X.  (* (unmapped node, node, rank) to message *)
(** :535-572 (and :484-512): what the iteration for one node adds: (rank, message). *)
Definition node_messages (s : nat) : option (list (nat * X)) :=
  if filter_ s (mapper s) then bind (targets (mapper s)) (fun l => Some (map (fun pe => (pe, builder s (mapper s) pe)) l)) else Some [].
(** loops.h:83-95 deterministic_for with [threads] threads: the messages in the order in which thread [t] creates them. *)
Definition thread_messages (threads a b t : nat) : option (list (nat * X)) :=
  let p := Nat.min threads (b - a) in
  if t <? p then
    let r := compute_local_range (N.of_nat (b - a)) (N.of_nat p) (N.of_nat t) in
    let lo := a + N.to_nat (fst r) in let hi := a + N.to_nat (snd r) in
    bind (traverse node_messages (seq lo (hi - lo))) (fun l => Some (concat l))
  else Some [].
Definition all_messages (threads a b : nat) : option (list (list (nat * X))) := traverse (thread_messages threads a b) (seq 0 threads).
End Exchange.
End Access.

Section Buffers.
Context {X : Type}.
(** :484-512: first pass, ++num_messages[thread][pe]. *)
Fixpoint count_messages (msgs : list (nat * X)) (row : list nat) : option (list nat) :=
  match msgs with
  | [] => Some row
  | (pe, _) :: t => bind (nth_error row pe) (fun c => count_messages t (upd pe (S c) row))
  end.
(** :37-51 inclusive_col_prefix_sum; [prev]: the previous row. *)
Fixpoint col_prefix_sum (prev : list nat) (rows : list (list nat)) : list (list nat) :=
  match rows with
  | [] => []
  | r :: t => let r' := map (fun p => fst p + snd p) (combine prev r) in r' :: col_prefix_sum r' t
  end.
(** Second pass: the messages the threads have not written yet, the counters, the buffers ([None]: not written). *)
Record fill := Fill { f_todo : list (list (nat * X)); f_cnt : list (list nat); f_bufs : list (list (option X)) }.
(** :516-522: thread counters and buffers before the second pass. *)
Definition fill_start (P : nat) (msgs : list (list (nat * X))) : option fill :=
  bind (traverse (fun m => count_messages m (repeat 0 P)) msgs) (fun cnt =>
  let sums := col_prefix_sum (repeat 0 P) cnt in
  Some (Fill msgs sums (map (fun c => repeat None c) (last sums (repeat 0 P))))).
(** :557-567: thread [t] writes its next message into the slot below its counter. *)
Definition fill_step (t : nat) (s : fill) : option fill :=
  bind (nth_error (f_todo s) t) (fun todo =>
  match todo with
  | [] => None
  | (pe, x) :: rest =>
      bind (nth_error (f_cnt s) t) (fun row =>
      bind (nth_error row pe) (fun c =>
      match c with
      | O => None
      | S slot =>
          bind (nth_error (f_bufs s) pe) (fun buf =>
          bind (store slot (Some x) buf) (fun buf' =>
          Some (Fill (upd t rest (f_todo s)) (upd t (upd pe slot row) (f_cnt s)) (upd pe buf' (f_bufs s)))))
      end))
  end).
Fixpoint fill_run (sched : list nat) (s : fill) : option fill :=
  match sched with
  | [] => Some s
  | t :: r => bind (fill_step t s) (fill_run r)
  end.
End Buffers.

(** What rank [r] may end up with after dkaminpar.cc:191-273, for some interleaving of the loop over the edges. *)
Definition import_outcome (bits : Z) (dist edist : list nat) (r : nat) (xadj adj : list nat) (vw aw : list Z) (d : dcsr) : Prop :=
  exists junk sched s order fresh,
    length junk = length adj /\
    import_run (nth r dist 0) (nth (S r) dist 0) adj sched (import_start (nth r dist 0) (nth (S r) dist 0) adj junk) = Some s /\
    (forall t, In t (im_tasks s) -> t = Finished) /\ Permutation order (entries (im_map s)) /\
    import_graph bits fresh r dist edist xadj vw aw s order = Some d.
(** The send buffers a rank may end up with, for some interleaving of its [threads] threads. *)
Definition buffers_outcome {X} (P : nat) (d : dcsr) (mapper : nat -> nat) (filter_ : nat -> nat -> bool) (builder : nat -> nat -> nat -> X)
    (threads a b : nat) (bufs : list (list X)) : Prop :=
  exists ms s0 sched s, all_messages d mapper filter_ builder threads a b = Some ms /\ fill_start P ms = Some s0 /\ fill_run sched s0 = Some s /\
    (forall todo, In todo (f_todo s) -> todo = []) /\ f_bufs s = map (map Some) bufs.

(** ** synchronization.h:24-42 synchronize_ghost_node_weights and synchronization.cc:11-32 synchronize_ghost_node_block_ids *)

(** synchronization.h:32, synchronization.cc:19: every node sends its value in the array to every rank that has a neighbour of it. *)
Definition value_message {V} (arr : list V) (default : V) (s u pe : nat) : nat * V := (u, nth u arr default).
(** synchronization.h:35-38, synchronization.cc:22-26: the receiver handles one message (node, value) of rank [pe]. *)
Definition receive_value {V} (d : dcsr) (arr : option (list V)) (m : nat * (nat * V)) : option (list V) :=
  bind arr (fun arr => bind (doffset d (fst m)) (fun o => bind (dglobal_to_local d (o + fst (snd m))) (fun u => store u (snd (snd m)) arr))).
(** All messages, in some order. *)
Definition receive_values {V} (d : dcsr) (arr : list V) (msgs : list (nat * (nat * V))) : option (list V) := fold_left (receive_value d) msgs (Some arr).
(** The messages for rank [q], given everybody's send buffers. *)
Definition inbox {V} (P : nat) (bufs : nat -> list (list (nat * V))) (q : nat) : list (nat * (nat * V)) :=
  flat_map (fun r => map (pair r) (nth q (bufs r) [])) (seq 0 P).
