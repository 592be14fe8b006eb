(* Model of the parallel compression of a graph: kaminpar-shm/graphutils/parallel_compressed_graph_builder.h:124-304
   compute_compressed_graph, ParallelCompressedNeighborhoodsBuilder (compressed_neighborhoods_builder.h:134-273) and
   ConcurrentCircularVectorMutex (concurrent_circular_vector.h:71-131). Any number of threads execute the iterations of the
   parallel loop; every access to a mutex, to the circular buffer, to the node array, to the shared counters and every
   copied byte is one step, the threads interleave arbitrarily.
   Simplifications: the neighbourhoods are given in the final node order (node_mapper applied); node weights (:279-284,
   written by index) are not part of the model; the statistics except the total edge weight are left out; the loop
   counters i and the chunk numbers are natural numbers. *)
From Verif Require Import Lib.Prelude Lib.Slice Model.VarintModel Model.CompressModel.
Local Open Scope Z_scope.

(** :142 kNumChunks. *)
Definition kNumChunks : Z := 5000.

(** :148-187: the chunks (first node, end, first edge) for the remaining degrees [degs] of the nodes [i], [i]+1, ... *)
Fixpoint chunk_loop (max_order : Z) (i start : nat) (order first_edge : Z) (degs : list Z) : list (nat * nat * Z) :=
  match degs with
  | [] => if (start =? i)%nat then [] else [(start, i, first_edge)]
  | d :: t =>
      let order' := order + d in
      if max_order <=? order' then
        if (start =? i)%nat then (start, S i, first_edge) :: chunk_loop max_order (S i) (S i) 0 (first_edge + d) t
        else (start, i, first_edge) :: chunk_loop max_order (S i) i d (first_edge + (order' - d)) t
      else chunk_loop max_order (S i) start order' first_edge t
  end.
Definition compute_chunks (num_edges : Z) (degs : list Z) : list (nat * nat * Z) :=
  chunk_loop (num_edges / kNumChunks) 0 0 0 0 degs.
(** :156 max_degree; :165, :174, :185 max_chunk_size. *)
Definition max_degree_of (degs : list Z) : Z := fold_left Z.max degs 0.
Definition max_chunk_size (chunks : list (nat * nat * Z)) : nat :=
  fold_left (fun a ch => Nat.max a (snd (fst ch) - fst (fst ch))) chunks 0%nat.

(** Where an iteration is: [SComp] compressing its chunk (:235-263), [SLock], [SRead], [SUnl] in the first critical section
    of fetch_and_update, [SWrite], [SRel] after it, [SNode] storing the offset of the [i]-th node of the chunk (:274-277),
    [SSize] and [SCopy] in add_compressed_edges, [STot] in record_local_statistics. [SNew], [SDone]: not begun, finished. *)
Inductive stage := SNew | SComp | SLock | SRead | SUnl (v : Z) | SWrite (v : Z) | SRel (v : Z) | SNode (v : Z) (i : nat)
                 | SSize (v : Z) | SCopy (v : Z) (j : nat) | STot | SDone.
Record pstate := mkPS {
  p_rem : nat;                     (* iterations that have not begun *)
  p_counter : nat;                 (* _counter *)
  p_lock : list bool;              (* _buffer_mutexes *)
  p_buf : list Z;                  (* _buffer *)
  p_nodes : list Z;                (* _nodes *)
  p_mem : list (option Z);         (* _compressed_edges, None: not written *)
  p_size : Z;                      (* _compressed_edges_size *)
  p_tot : Z;                       (* _total_edge_weight *)
  p_thr : list (option (nat * stage)) }.

Section Par.
Variable c : cconf.
Variable sort : list nbr -> list nbr.
Variable nbs : list (list nbr).
Variable chunks : list (nat * nat * Z).
Variable lcap : Z.                 (* bytes reserved for the buffer of a thread *)

(** :235-262: the local offsets, the bytes and the total edge weight of a chunk. The loop is the one of the sequential
    builder (Model/CompressModel.v build_loop) on the nodes of the chunk, after init (compressed_edges_builder.h:163-176). *)
Definition chunk_result (ch : nat) : list Z * list Z * Z :=
  let '(s, e, _) := nth ch chunks (0%nat, 0%nat, 0) in
  build_loop c sort s (slice nbs s (e - s)) [] 0.
Definition chunk_start (ch : nat) : nat := fst (fst (nth ch chunks (0%nat, 0%nat, 0))).
Definition chunk_offs (ch : nat) : list Z := fst (fst (chunk_result ch)).
Definition chunk_data (ch : nat) : list Z := snd (fst (chunk_result ch)).
Definition chunk_tot (ch : nat) : Z := snd (chunk_result ch).

(** concurrent_circular_vector.h:109-110. *)
Definition c_pos (s : pstate) (ch : nat) : nat := (ch mod length (p_buf s))%nat.
Definition c_prev (s : pstate) (ch : nat) : nat := if (c_pos s ch =? 0)%nat then (length (p_buf s) - 1)%nat else (c_pos s ch - 1)%nat.

Definition set_stage (t ch : nat) (x : stage) (s : pstate) : pstate :=
  mkPS (p_rem s) (p_counter s) (p_lock s) (p_buf s) (p_nodes s) (p_mem s) (p_size s) (p_tot s) (upd t (Some (ch, x)) (p_thr s)).
Definition set_locks (l : list bool) (s : pstate) : pstate :=
  mkPS (p_rem s) (p_counter s) l (p_buf s) (p_nodes s) (p_mem s) (p_size s) (p_tot s) (p_thr s).

(** The next step of thread [t]; [None] is an error: the assertion in next() fails or data is written behind the reserved
    memory. A thread that waits for a mutex does not change the state. *)
Definition p_step (t : nat) (s : pstate) : option pstate :=
  match nth_error (p_thr s) t with
  | None => Some s
  | Some None =>                                           (* :224-232 begin of an iteration, next() (concurrent_circular_vector.h:89-99) *)
      match p_rem s with
      | O => Some s
      | S rem =>
          let ch := p_counter s in
          if nth (c_pos s ch) (p_lock s) true then None
          else Some (mkPS rem (S ch) (upd (c_pos s ch) true (p_lock s)) (p_buf s) (p_nodes s) (p_mem s) (p_size s) (p_tot s)
                       (upd t (Some (ch, SComp)) (p_thr s)))
      end
  | Some (Some (ch, x)) =>
      match x with
      | SComp =>                                           (* :238-263 *)
          if lcap <? Z.of_nat (length (chunk_data ch)) then None else Some (set_stage t ch SLock s)
      | SLock =>                                           (* concurrent_circular_vector.h:114 *)
          if nth (c_prev s ch) (p_lock s) true then Some s
          else Some (set_stage t ch SRead (set_locks (upd (c_prev s ch) true (p_lock s)) s))
      | SRead => Some (set_stage t ch (SUnl (nth (c_prev s ch) (p_buf s) 0)) s)                             (* :115 *)
      | SUnl v => Some (set_stage t ch (SWrite v) (set_locks (upd (c_prev s ch) false (p_lock s)) s))       (* :116 *)
      | SWrite v =>                                        (* :118 *)
          Some (set_stage t ch (SRel v)
                  (mkPS (p_rem s) (p_counter s) (p_lock s)
                     (upd (c_pos s ch) (wrap_u (c_wi c) (v + wrap_u (c_wi c) (Z.of_nat (length (chunk_data ch))))) (p_buf s))
                     (p_nodes s) (p_mem s) (p_size s) (p_tot s) (p_thr s)))
      | SRel v => Some (set_stage t ch (SNode v 0) (set_locks (upd (c_pos s ch) false (p_lock s)) s))       (* :119 *)
      | SNode v i =>                                       (* parallel_compressed_graph_builder.h:274-277 *)
          match nth_error (chunk_offs ch) i with
          | None => Some (set_stage t ch (SSize v) s)
          | Some o => Some (set_stage t ch (SNode v (S i))
                              (mkPS (p_rem s) (p_counter s) (p_lock s) (p_buf s)
                                 (upd (chunk_start ch + i) (wrap_u (c_wi c) (v + o)) (p_nodes s))
                                 (p_mem s) (p_size s) (p_tot s) (p_thr s)))
          end
      | SSize v =>                                         (* compressed_neighborhoods_builder.h:185 *)
          Some (set_stage t ch (SCopy v 0)
                  (mkPS (p_rem s) (p_counter s) (p_lock s) (p_buf s) (p_nodes s) (p_mem s)
                     (wrap_u (c_wi c) (p_size s + wrap_u (c_wi c) (Z.of_nat (length (chunk_data ch))))) (p_tot s) (p_thr s)))
      | SCopy v j =>                                       (* :186 memcpy *)
          match nth_error (chunk_data ch) j with
          | None => Some (set_stage t ch STot s)
          | Some b =>
              if (Z.to_nat v + j <? length (p_mem s))%nat then
                Some (set_stage t ch (SCopy v (S j))
                        (mkPS (p_rem s) (p_counter s) (p_lock s) (p_buf s) (p_nodes s) (upd (Z.to_nat v + j) (Some b) (p_mem s))
                           (p_size s) (p_tot s) (p_thr s)))
              else None
          end
      | STot =>                                            (* :211 *)
          Some (mkPS (p_rem s) (p_counter s) (p_lock s) (p_buf s) (p_nodes s) (p_mem s) (p_size s)
                  (wrap_s (c_we c) (p_tot s + chunk_tot ch)) (upd t None (p_thr s)))
      | SNew | SDone => Some s
      end
  end.
Fixpoint p_run (ts : list nat) (s : pstate) : option pstate :=
  match ts with
  | [] => Some s
  | t :: ts' => match p_step t s with None => None | Some s' => p_run ts' s' end
  end.

(** :189-220 for [T] threads; [cap] bytes are reserved for the result. The buffer has T + 1 entries
    (concurrent_circular_vector.h:79-82). *)
Definition p_init (T cap : nat) : pstate :=
  mkPS (length chunks) 0 (repeat false (S T)) (repeat 0 (S T)) (repeat 0 (length nbs + 1)) (repeat None cap) 0 0 (repeat None T).
Definition p_finished (s : pstate) : bool :=
  (p_rem s =? 0)%nat && forallb (fun th => match th with None => true | Some _ => false end) (p_thr s).

(** compressed_neighborhoods_builder.h:226-253 build (without the 15 padding bytes of the stream encoding). *)
Definition p_build (num_edges : Z) (s : pstate) : cneighborhoods :=
  {| cn_nodes := upd (length nbs) (p_size s) (p_nodes s);
     cn_edges := map (fun b => match b with Some x => x | None => 0 end) (firstn (Z.to_nat (p_size s)) (p_mem s));
     cn_max_degree := 0;
     cn_num_edges := num_edges;
     cn_has_edge_weights := c_ew c;
     cn_total_edge_weight := if c_ew c then p_tot s else wrap_s (c_we c) num_edges |}.
End Par.
