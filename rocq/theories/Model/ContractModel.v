(* Model of kaminpar-shm/coarsening/contraction/{cluster_contraction_preprocessing,buffered_cluster_contraction}.cc
   and kaminpar-common/datastructures/ts_navigable_linked_list.h. The fine graph is seen through its interface:
   [gadj g u] is what adjacent_nodes(u) enumerates, [gvw g u] is node_weight(u). Integers are unbounded. *)
From Verif Require Import Lib.Prelude Spec.Graph Spec.Quotient Spec.RatingMap Model.CsrModel Model.RatingMapModel.

(** ** cluster_contraction_preprocessing.cc *)
(** :18-40 fill_leader_mapping: the stores of pfor_nodes happen in the order [order]. *)
Definition fill_leader_mapping (n : nat) (clustering order : list nat) : list nat :=
  prefix_sum (fold_left (fun a u => upd (nth u clustering 0) 1 a) order (repeat 0 n)).
(** :42-52, :54-68 compute_mapping: every node reads and writes its own entry. The result is (c_n, mapping).
    leader_mapping[n - 1] is read out of bounds for n = 0. *)
Definition compute_mapping (n : nat) (clustering order : list nat) : nat * list nat :=
  let leader := fill_leader_mapping n clustering order in
  (nth (n - 1) leader 0, map (fun u => nth (nth u clustering 0) leader 0 - 1) (seq 0 n)).

(** :70-104 fill_cluster_buckets: the atomic increments happen in the order [order1], the atomic decrements
    (each followed by a write to the position obtained) in the order [order2]; [garbage] is the uninitialised
    bucket array. The result is (buckets_index, buckets). *)
Definition bucket_counts (c_n : nat) (mapping order : list nat) : list nat :=
  fold_left (fun a u => upd (nth u mapping 0) (S (nth (nth u mapping 0) a 0)) a) order (repeat 0 (S c_n)).
Definition place_node (mapping : list nat) (st : list nat * list nat) (u : nat) : list nat * list nat :=
  let '(idx, buckets) := st in
  let c := nth u mapping 0 in
  let pos := nth c idx 0 - 1 in
  (upd c pos idx, upd pos u buckets).
Definition fill_cluster_buckets (c_n : nat) (mapping order1 order2 garbage : list nat) : list nat * list nat :=
  fold_left (place_node mapping) order2 (prefix_sum (bucket_counts c_n mapping order1), garbage).

(** The nodes of coarse node [c]: buckets[buckets_index[c] .. buckets_index[c + 1]). *)
Definition bucket_of (bi : list nat * list nat) (c : nat) : list nat :=
  map (fun i => nth i (snd bi) 0) (seq (nth c (fst bi) 0) (nth (S c) (fst bi) 0 - nth c (fst bi) 0)).

(** cluster_contraction_preprocessing.h:31-35 project_up. *)
Definition project_up (mapping coarse : list nat) (n : nat) : list nat :=
  map (fun i => nth (nth i mapping 0) coarse 0) (seq 0 n).

(** ** ts_navigable_linked_list.h; [K] = kChunkSize *)
Record navl := mkNav { nv_chunks : list (list (nat * Z)); nv_cur : list (nat * Z); nv_markers : list (nat * nat) }.
Definition nav_empty : navl := mkNav [] [] [].
(** :50-52 position. *)
Definition nav_position (K : nat) (l : navl) : nat := length (nv_chunks l) * K + length (nv_cur l).
(** :31-33 mark. *)
Definition nav_mark (K : nat) (key : nat) (l : navl) : navl :=
  mkNav (nv_chunks l) (nv_cur l) (nv_markers l ++ [(key, nav_position K l)]).
(** :62-68 flush. *)
Definition nav_flush (l : navl) : navl :=
  match nv_cur l with [] => l | _ => mkNav (nv_chunks l ++ [nv_cur l]) [] (nv_markers l) end.
(** :35-43, :75-79 push_back with flush_if_full. *)
Definition nav_push (K : nat) (l : navl) (e : nat * Z) : navl :=
  let l' := if length (nv_cur l) =? K then nav_flush l else l in
  mkNav (nv_chunks l') (nv_cur l' ++ [e]) (nv_markers l').
(** :54-56 get. *)
Definition nav_get (K : nat) (l : navl) (pos : nat) : nat * Z := nth (pos mod K) (nth (pos / K) (nv_chunks l) []) (0, 0%Z).

(** ** buffered_cluster_contraction.cc *)
(** :126-137 the additions to the collector for the coarse node [c] with members [bucket]. *)
Definition collect_ops (g : graph) (mapping : list nat) (c : nat) (bucket : list nat) : list rop :=
  flat_map (fun u => flat_map (fun e => let c_v := nth (fst e) mapping 0 in
                                        if c_v =? c then [] else [RAdd c_v (snd e)]) (gadj g u)) bucket.
(** :68-75, :163-168 fine degree. *)
Definition fine_degree (g : graph) (bucket : list nat) : nat := list_sum (map (fun u => length (gadj g u)) bucket).

(** :82-104 the loop that closes a chunk when its fine edges reach [limit]; [fd c] is the fine degree of [c]. *)
Fixpoint chunk_loop (fd : nat -> nat) (limit : nat) (cs : list nat) (start count : nat) (acc : list (nat * nat))
  : nat * list (nat * nat) :=
  match cs with
  | [] => (start, acc)
  | c :: cs' =>
      if limit <=? count + fd c
      then if start =? c then chunk_loop fd limit cs' (S c) 0 (acc ++ [(c, S c)])
           else chunk_loop fd limit cs' c 0 (acc ++ [(start, c)])
      else chunk_loop fd limit cs' start (count + fd c) acc
  end.
(** :55-110; [split] and [limit] = edge_count * edge_buffer_fill_fraction are the outcome of :58 and :80. *)
Definition make_chunks (fd : nat -> nat) (split : bool) (limit c_n : nat) : list (nat * nat) :=
  if split
  then let '(start, acc) := chunk_loop fd limit (seq 0 c_n) 0 0 [] in
       if start =? c_n then acc else acc ++ [(start, c_n)]
  else [(0, c_n)].

(** What the scheduler decides for one chunk: which thread-local list a coarse node goes to, in which order the
    nodes are processed, in which order the markers of the lists are copied, in which order they are processed. *)
Record chunk_sched := mkSched { cs_owner : nat -> nat; cs_order : list nat; cs_lists : list nat; cs_writes : list nat }.

Record cstate := mkCst { ct_nodes : list nat; ct_nw : list Z; ct_edges : list nat; ct_ew : list Z }.

Section Buffered.
Variables (K T : nat) (hash : nat -> nat) (g : graph) (c_n : nat) (mapping : list nat) (bi : list nat * list nat) (split : bool).

(** :118-171 one coarse node: mark, collect, store weight and degree, append the edges to the local list. *)
Definition process_coarse (owner : nat -> nat) (st : option (list navl * list nat * list Z)) (c : nat)
  : option (list navl * list nat * list Z) :=
  match st with
  | None => None
  | Some (lists, nodes, nw) =>
      let bucket := bucket_of bi c in
      let bound := if split then nth (S c) nodes 0 else fine_degree g bucket in
      match rmap_execute hash c_n bound (collect_ops g mapping c bucket) with
      | None => None
      | Some entries =>
          let l := nav_mark K c (nth (owner c) lists nav_empty) in
          Some (upd (owner c) (fold_left (nav_push K) entries l) lists,
                upd (S c) (length entries) nodes,
                upd c (zsum (map (gvw g) bucket)) nw)
      end
  end.

(** :174-178 prefix sum over c_nodes[start .. end + 1). *)
Definition prefix_range (nodes : list nat) (s e : nat) : list nat :=
  firstn s nodes ++ prefix_sum (firstn (S e - s) (skipn s nodes)) ++ skipn (S e) nodes.

(** :206-220 copying the edges of one marker (local list, key, position). *)
Definition write_marker (lists : list navl) (nodes : list nat) (st : list nat * list Z) (mk : nat * (nat * nat)) : list nat * list Z :=
  let '(t, (c, pos)) := mk in
  fold_left (fun st j =>
     let '(edges, ew) := st in
     let '(v, w) := nav_get K (nth t lists nav_empty) (pos + j) in
     (upd (nth c nodes 0 + j) v edges, upd (nth c nodes 0 + j) w ew))
    (seq 0 (nth (S c) nodes 0 - nth c nodes 0)) st.

(** :117-224 one chunk. *)
Definition process_chunk (sch : nat -> nat -> chunk_sched) (st : option cstate) (chunk : nat * nat) : option cstate :=
  match st with
  | None => None
  | Some st =>
      let '(s, e) := chunk in
      match fold_left (process_coarse (cs_owner (sch s e))) (cs_order (sch s e)) (Some (repeat nav_empty T, ct_nodes st, ct_nw st)) with
      | None => None
      | Some (lists, nodes, nw) =>
          let nodes' := prefix_range nodes s e in
          let lists' := map nav_flush lists in
          let all := flat_map (fun t => map (fun mk => (t, mk)) (nv_markers (nth t lists' nav_empty))) (cs_lists (sch s e)) in
          let '(edges, ew) := fold_left (fun a i => write_marker lists' nodes' a (nth i all (0, (0, 0)))) (cs_writes (sch s e))
                                (ct_edges st, ct_ew st) in
          Some (mkCst nodes' nw edges ew)
      end
  end.

(** :26-255; [junk], [junkw] are the overcommitted, uninitialised edge arrays of length m. The result is the CSR
    arrays (nodes, edges, node weights, edge weights). *)
Definition contract_buffered (limit : nat) (sch : nat -> nat -> chunk_sched) (junk : list nat) (junkw : list Z)
  : option (list nat * list nat * list Z * list Z) :=
  let fd c := fine_degree g (bucket_of bi c) in
  let nodes0 := if split then 0 :: map fd (seq 0 c_n) else repeat 0 (S c_n) in
  match fold_left (process_chunk sch) (make_chunks fd split limit c_n) (Some (mkCst nodes0 (repeat 0%Z c_n) junk junkw)) with
  | None => None
  | Some st =>
      let c_m := last (ct_nodes st) 0 in
      Some (ct_nodes st, firstn c_m (ct_edges st), ct_nw st, firstn c_m (ct_ew st))
  end.
End Buffered.

(** :259-271 contract_clustering_buffered for a clustering; the orders are the schedules of the parallel loops of
    the preprocessing. The result is (mapping, CSR arrays). *)
Definition contract_clustering_buffered (K T : nat) (hash : nat -> nat) (g : graph) (clustering order0 order1 order2 garbage : list nat)
  (split : bool) (limit : nat) (sch : nat -> nat -> chunk_sched) (junk : list nat) (junkw : list Z)
  : option (list nat * (list nat * list nat * list Z * list Z)) :=
  let '(c_n, mapping) := compute_mapping (gn g) clustering order0 in
  let bi := fill_cluster_buckets c_n mapping order1 order2 garbage in
  match contract_buffered K T hash g c_n mapping bi split limit sch junk junkw with
  | None => None
  | Some csr => Some (mapping, csr)
  end.

(** The schedules the runtime can produce for the chunk [s, e) with [T] threads: every coarse node is processed
    exactly once by one of the threads, every list is visited once and every marker is copied once. *)
Definition valid_sched (T s e : nat) (sch : chunk_sched) : Prop :=
  (forall c, cs_owner sch c < T) /\ Permutation (cs_order sch) (seq s (e - s)) /\
  Permutation (cs_lists sch) (seq 0 T) /\ Permutation (cs_writes sch) (seq 0 (e - s)).

(** What the caller and the allocator provide: a non-empty graph with positive edge weights, node IDs as cluster
    labels, loops that visit every node once, arrays of the right size with arbitrary contents. *)
Definition valid_inputs (g : graph) (clustering order0 order1 order2 garbage junk : list nat) (junkw : list Z) : Prop :=
  0 < gn g /\ closed_graph g /\ positive_edges g /\ (forall u, u < gn g -> nth u clustering 0 < gn g) /\
  Permutation order0 (seq 0 (gn g)) /\ Permutation order1 (seq 0 (gn g)) /\ Permutation order2 (seq 0 (gn g)) /\
  length garbage = gn g /\ length junk = list_sum (map (fun u => length (gadj g u)) (seq 0 (gn g))) /\ length junkw = length junk.

(** cluster_coarsener.cc:130-157 uncoarsen, applied level by level from the coarsest graph down:
    project_up of every level on the current partition. *)
Fixpoint uncoarsen_all (g : graph) (levels : list (list nat * graph)) (coarse : list nat) : list nat :=
  match levels with
  | [] => coarse
  | (mapping, h) :: rest => project_up mapping (uncoarsen_all h rest coarse) (gn g)
  end.
