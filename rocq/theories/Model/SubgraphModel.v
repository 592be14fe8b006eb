(* Model of kaminpar-shm/graphutils/subgraph_extractor.{h,cc}. Arrays are lists; every write is
   checked against the size of the array ([None] models an out-of-bounds access). Graphs are read
   through their adjacency interface, i.e. as an [lgraph]. NodeID/EdgeID arithmetic is not wrapped
   (sizes below 2^32). *)
From Verif Require Import Lib.Prelude Lib.Slice Spec.Induced Model.MathModel Model.PartUtilsModel Model.CsrModel.

(** subgraph_extractor.h:35-100 SubgraphMemory. *)
Record smem := Smem { sm_nodes : list nat; sm_edges : list nat; sm_nw : list Z; sm_ew : list Z }.

Definition wr {A} (a : list A) (i : nat) (x : A) : option (list A) :=
  if i <? length a then Some (upd i x a) else None.
Definition wr_if {A} (f : bool) (a : list A) (i : nat) (x : A) : option (list A) :=
  if f then wr a i x else Some a.

(** csr_graph.h is_node_weighted / is_edge_weighted: the total weight differs from the number of nodes
    (edges). *)
Definition lg_is_nw (g : lgraph) : bool := negb (zsum (map fst g) =? Z.of_nat (length g))%Z.
Definition lg_is_ew (g : lgraph) : bool :=
  negb (zsum (map snd (concat (map snd g))) =? Z.of_nat (lg_m g))%Z.

(** A CSRGraph whose arrays are spans of a SubgraphMemory (subgraph_extractor.cc:126-152, 430-450,
    297-308): start and number of nodes, start and number of edges, and whether weight arrays are
    passed. *)
Record view := View { v_ns : nat; v_n : nat; v_es : nat; v_m : nat; v_nwf : bool; v_ewf : bool }.

(** The rows of a CSR graph: offsets [nodes] (one more than rows), pairs of target and weight. *)
Fixpoint csr_rows (nodes : list nat) (es : list (nat * Z)) : list (list (nat * Z)) :=
  match nodes with
  | a :: ((b :: _) as t) => slice es a (b - a) :: csr_rows t es
  | _ => []
  end.

(** Reading the graph behind a view. The weight arrays are used only if the total weight differs from
    the number of nodes (edges) (csr_graph.h is_node_weighted, node_weight). *)
Definition read_view (mem : smem) (v : view) : option lgraph :=
  if (v_ns v + v_n v + 1 <=? length (sm_nodes mem)) && (v_es v + v_m v <=? length (sm_edges mem)) &&
     (negb (v_nwf v) || (v_ns v + v_n v <=? length (sm_nw mem))) &&
     (negb (v_ewf v) || (v_es v + v_m v <=? length (sm_ew mem)))
  then
    let nodes := slice (sm_nodes mem) (v_ns v) (v_n v + 1) in
    let edges := slice (sm_edges mem) (v_es v) (v_m v) in
    let nw0 := if v_nwf v then slice (sm_nw mem) (v_ns v) (v_n v) else repeat 1%Z (v_n v) in
    let ew0 := if v_ewf v then slice (sm_ew mem) (v_es v) (v_m v) else repeat 1%Z (v_m v) in
    let nw := if (zsum nw0 =? Z.of_nat (v_n v))%Z then repeat 1%Z (v_n v) else nw0 in
    let ew := if (zsum ew0 =? Z.of_nat (v_m v))%Z then repeat 1%Z (v_m v) else ew0 in
    Some (combine nw (csr_rows nodes (combine edges ew)))
  else None.

Definition in_block (part : list nat) (b v : nat) : bool :=
  match nth_error part v with Some c => c =? b | None => false end.

(** The loop over the neighbours of a node (subgraph_extractor.cc:80-88, 286-296, 402-415): append
    the renumbered internal edges at e0 + e. *)
Fixpoint push_edges (ewf : bool) (part mapping : list nat) (b e0 : nat) (adj : list (nat * Z))
    (edges : list nat) (ews : list Z) (e : nat) : option (list nat * list Z * nat) :=
  match adj with
  | [] => Some (edges, ews, e)
  | (v, w) :: t =>
    if in_block part b v then
      match nth_error mapping v with
      | None => None
      | Some mv =>
        match wr edges (e0 + e) mv, wr_if ewf ews (e0 + e) w with
        | Some edges', Some ews' => push_edges ewf part mapping b e0 t edges' ews' (S e)
        | _, _ => None
        end
      end
    else push_edges ewf part mapping b e0 t edges ews e
  end.

(** One node of a subgraph: subgraph_extractor.cc:391-416 and 278-297 (node entry, weight, edges). *)
Definition build_node (g : lgraph) (nwf ewf : bool) (part mapping : list nat) (b e0 pos u e : nat) (mem : smem)
  : option (smem * nat) :=
  match nth_error g u with
  | None => None
  | Some (w, adj) =>
    match wr (sm_nodes mem) pos e, wr_if nwf (sm_nw mem) pos w,
          push_edges ewf part mapping b e0 adj (sm_edges mem) (sm_ew mem) e with
    | Some nodes', Some nw', Some (edges', ew', e') => Some (Smem nodes' edges' nw' ew', e')
    | _, _, _ => None
    end
  end.

(** ** extract_subgraphs (parallel) *)

(** subgraph_extractor.cc:388-418: the loop over the nodes of block [b]; the node to process is read
    from the bucket array stored in the nodes array. *)
Fixpoint build_loop (g : lgraph) (nwf ewf : bool) (part mapping : list nat) (b ns e0 : nat)
    (todo i e : nat) (mem : smem) : option (smem * nat) :=
  match todo with
  | O => Some (mem, e)
  | S t =>
    match nth_error (sm_nodes mem) (ns + i) with
    | None => None
    | Some u =>
      match build_node g nwf ewf part mapping b e0 (ns + i) u e mem with
      | None => None
      | Some (mem', e') => build_loop g nwf ewf part mapping b ns e0 t (S i) e' mem'
      end
    end
  end.

Definition set_nodes (mem : smem) (x : list nat) : smem := Smem x (sm_edges mem) (sm_nw mem) (sm_ew mem).

(** :385-420 body of the construction loop for block [b]. *)
Definition build_block (g : lgraph) (nwf ewf : bool) (part mapping : list nat) (b ns e0 cnt : nat) (mem : smem)
  : option smem :=
  match build_loop g nwf ewf part mapping b ns e0 cnt 0 0 mem with
  | None => None
  | Some (mem', e) => option_map (set_nodes mem') (wr (sm_nodes mem') (ns + cnt) e)
  end.

(** :348-368 and 204-220: number of nodes and of internal edges of every block (thread-local counters
    that are summed up afterwards; modelled by one counter per block). *)
Definition count_node (g : lgraph) (part : list nat) (st : list nat * list nat) (u : nat) : list nat * list nat :=
  let b := nth u part 0 in
  (upd b (nth b (fst st) 0 + 1) (fst st),
   upd b (nth b (snd st) 0 + length (filter (fun e => in_block part b (fst e)) (lg_adj g u))) (snd st)).
Definition count_blocks (g : lgraph) (part : list nat) (k : nat) : list nat * list nat :=
  fold_left (count_node g part) (seq 0 (length g)) (repeat 0 k, repeat 0 k).

(** compute_final_k on nat. [ub] is the unspecified result of the shift that is undefined for
    current_k = 1, see PartUtilsModel. *)
Definition final_k (ub : N) (b current_k input_k : nat) : option nat :=
  option_map N.to_nat (compute_final_k ub (N.of_nat b) (N.of_nat current_k) (N.of_nat input_k)).

Fixpoint all_some {A} (l : list (option A)) : option (list A) :=
  match l with
  | [] => Some []
  | Some x :: t => option_map (cons x) (all_some t)
  | None :: _ => None
  end.

(** :372-380 bucket fill: the fetch-adds of all nodes take effect in the order [order]. State: nodes
    array, bucket_index, mapping. *)
Definition fill_node (part starts : list nat) (st : option (list nat * list nat * list nat)) (u : nat)
  : option (list nat * list nat * list nat) :=
  match st with
  | None => None
  | Some (nodes, idx, mapping) =>
    match nth_error part u with
    | None => None
    | Some b =>
      match nth_error idx b, nth_error starts b with
      | Some i, Some s =>
        match wr nodes (s + i) u, wr mapping u i with
        | Some nodes', Some mapping' => Some (nodes', upd b (i + 1) idx, mapping')
        | _, _ => None
        end
      | _, _ => None
      end
    end
  end.

(** One iteration of the construction loop over the blocks, and the loop in the order [border]. *)
Definition build_step (g : lgraph) (nwf ewf : bool) (part mapping nstarts estarts idx : list nat)
    (st : option smem) (b : nat) : option smem :=
  match st with
  | None => None
  | Some mem => build_block g nwf ewf part mapping b (nth b nstarts 0) (nth b estarts 0) (nth b idx 0) mem
  end.

(** subgraph_extractor.cc:335-479 extract_subgraphs for a graph with [k] blocks. The blocks are
    constructed in the order [border] (one block at a time: the regions they write are disjoint,
    which the theorem establishes). Result: memory, mapping, views of the subgraphs, start positions
    of nodes and edges. *)
Definition extract_subgraphs (ub : N) (g : lgraph) (part : list nat) (k input_k : nat)
    (order border : list nat) (mem : smem)
  : option (smem * list nat * list view * list nat * list nat) :=
  let n := length g in
  match all_some (map (fun b => final_k ub b k input_k) (seq 0 k)) with
  | None => None
  | Some fks =>
    let (ncnt, ecnt) := count_blocks g part k in
    let nstarts := prefix_sum (0 :: map (fun b => nth b fks 0 + nth b ncnt 0) (seq 0 k)) in
    let estarts := prefix_sum (0 :: ecnt) in
    match fold_left (fill_node part nstarts) order (Some (sm_nodes mem, repeat 0 k, repeat 0 n)) with
    | None => None
    | Some (nodes1, idx, mapping) =>
      let nwf := lg_is_nw g in
      let ewf := lg_is_ew g in
      match fold_left (build_step g nwf ewf part mapping nstarts estarts idx) border
                      (Some (set_nodes mem nodes1)) with
      | None => None
      | Some mem' =>
        Some (mem', mapping,
              map (fun b => View (nth b nstarts 0)
                                 (nth (S b) nstarts 0 - nth b nstarts 0 - nth b fks 0)
                                 (nth b estarts 0) (nth (S b) estarts 0 - nth b estarts 0) nwf ewf)
                  (seq 0 k),
              nstarts, estarts)
      end
    end
  end.

(** ** Lazy extraction *)

(** subgraph_extractor.cc:182-256 lazy_extract_subgraphs_preprocessing: (mapping, block_nodes_offset,
    block_nodes, block_num_edges). *)
Definition lazy_preprocess (g : lgraph) (part : list nat) (k : nat) (order garbage : list nat)
  : option (list nat * list nat * list nat * list nat) :=
  let (ncnt, ecnt) := count_blocks g part k in
  let offs := prefix_sum (0 :: ncnt) in
  match fold_left (fill_node part offs) order (Some (firstn (length g) (garbage ++ repeat 0 (length g)), repeat 0 k, repeat 0 (length g))) with
  | None => None
  | Some (block_nodes, _, mapping) => Some (mapping, offs, block_nodes, ecnt)
  end.

(** :276-298 loop of extract_subgraph over the nodes of the block. *)
Fixpoint lazy_loop (g : lgraph) (nwf ewf : bool) (part mapping : list nat) (b : nat)
    (ns : list nat) (i e : nat) (mem : smem) : option (smem * nat) :=
  match ns with
  | [] => Some (mem, e)
  | u :: t =>
    match build_node g nwf ewf part mapping b 0 i u e mem with
    | None => None
    | Some (mem', e') => lazy_loop g nwf ewf part mapping b t (S i) e' mem'
    end
  end.

(** :260-309 extract_subgraph. *)
Definition extract_subgraph (g : lgraph) (part : list nat) (b : nat) (block_nodes mapping : list nat) (mem : smem)
  : option (smem * view) :=
  let nwf := lg_is_nw g in
  let ewf := lg_is_ew g in
  match lazy_loop g nwf ewf part mapping b block_nodes 0 0 mem with
  | None => None
  | Some (mem', e) =>
    match wr (sm_nodes mem') (length block_nodes) e with
    | None => None
    | Some nodes' => Some (set_nodes mem' nodes', View 0 (length block_nodes) 0 e nwf ewf)
    end
  end.

(** ** Sequential extraction of the two sides of a bipartition *)

(** State of the second pass: temporary arrays and next_edge_id. *)
Record tmem := Tmem { t_mem : smem; t_e0 : nat; t_e1 : nat }.

(** subgraph_extractor.cc:50-61 first pass: mapping[u] = s_n[b]++ and s_m. *)
Definition seq_count (g : lgraph) (part : list nat) (st : list nat * (nat * nat) * (nat * nat)) (u : nat)
  : list nat * (nat * nat) * (nat * nat) :=
  let '(mapping, (n0, n1), (m0, m1)) := st in
  let b := nth u part 0 in
  let d := length (filter (fun e => in_block part b (fst e)) (lg_adj g u)) in
  if b =? 0 then (mapping ++ [n0], (n0 + 1, n1), (m0 + d, m1))
  else (mapping ++ [n1], (n0, n1 + 1), (m0, m1 + d)).

(** :74-95 second pass for node [u]. *)
Definition seq_node (g : lgraph) (nwf ewf : bool) (part mapping : list nat) (n1 m1 : nat)
    (st : option tmem) (u : nat) : option tmem :=
  match st with
  | None => None
  | Some tm =>
    let b := nth u part 0 in
    let nn := b * n1 in
    let mm := b * m1 in
    match nth_error g u, nth_error mapping u with
    | Some (w, adj), Some mu =>
      let mem := t_mem tm in
      match push_edges ewf part mapping b mm adj (sm_edges mem) (sm_ew mem) (if b =? 0 then t_e0 tm else t_e1 tm) with
      | None => None
      | Some (edges', ew', e') =>
        match wr (sm_nodes mem) (nn + mu + 1) e', wr_if nwf (sm_nw mem) (nn + mu) w with
        | Some nodes', Some nw' =>
          Some (Tmem (Smem nodes' edges' nw' ew') (if b =? 0 then e' else t_e0 tm) (if b =? 0 then t_e1 tm else e'))
        | _, _ => None
        end
      end
    | _, _ => None
    end
  end.

(** std::copy of [l] into an array at [pos]; out of bounds is [None]. *)
Definition copy_to {A} (a : list A) (pos : nat) (l : list A) : option (list A) :=
  if pos + length l <=? length a then Some (splice a pos l) else None.
Definition copy_if {A} (f : bool) (a : list A) (pos : nat) (l : list A) : option (list A) :=
  if f then copy_to a pos l else Some a.

(** subgraph_extractor.cc:29-164 extract_subgraphs_sequential. [gar] stands for the stale contents of
    the temporary arrays, whose sizes are those established by ensure_size_nodes/edges
    (subgraph_extractor.h:116-137, overallocation ignored). *)
Definition extract_sequential (g : lgraph) (part : list nat) (fk0 fk1 : nat) (npos epos : nat)
    (gar : nat) (garz : Z) (mem : smem) : option (smem * (view * view)) :=
  let n := length g in
  let nwf := lg_is_nw g in
  let ewf := lg_is_ew g in
  let fk := fk0 + fk1 in
  let '(mapping, (sn0, sn1), (sm0, sm1)) := fold_left (seq_count g part) (seq 0 n) ([], (0, 0), (0, 0)) in
  let n1 := sn0 + fk0 in
  let m1 := sm0 in
  let tmp := Smem (repeat gar (n + fk + 1)) (repeat gar (sm0 + sm1)) (repeat garz (n + fk)) (repeat garz (sm0 + sm1)) in
  match wr (sm_nodes tmp) 0 0 with None => None | Some nd0 =>
  match wr nd0 n1 0 with None => None | Some nd1 =>
  match fold_left (seq_node g nwf ewf part mapping n1 m1) (seq 0 n) (Some (Tmem (set_nodes tmp nd1) 0 0)) with
  | None => None
  | Some tm =>
    let t := t_mem tm in
    match copy_to (sm_nodes mem) npos (firstn (n + fk) (sm_nodes t)),
          copy_to (sm_edges mem) epos (firstn (sm0 + sm1) (sm_edges t)),
          copy_if nwf (sm_nw mem) npos (firstn (n + fk) (sm_nw t)),
          copy_if ewf (sm_ew mem) epos (firstn (sm0 + sm1) (sm_ew t)) with
    | Some nodes', Some edges', Some nw', Some ew' =>
      Some (Smem nodes' edges' nw' ew',
            (View npos sn0 epos sm0 nwf ewf, View (npos + n1) sn1 (epos + m1) sm1 nwf ewf))
    | _, _, _, _ => None
    end
  end end end.
