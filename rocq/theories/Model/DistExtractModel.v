(* kaminpar-dist/graphutils/subgraph_extractor.cc: the subgraphs induced by the blocks of a distributed partition are collected on single
   ranks, and partitions of these subgraphs are copied back. Integers are unbounded; mpi::sparse_alltoall_get hands over what was sent
   (see C41). [None]: an access out of bounds or to memory that was never written. *)
From Verif Require Import Lib.Prelude Model.GridModel Model.DistGraphModel Model.ReplicateModel.

Definition diff (off : list nat) (b : nat) : option nat := bind (nth_error off (b + 1)) (fun y => bind (nth_error off b) (fun x => Some (y - x))).

(** ** extract_local_block_induced_subgraphs, on one rank *)
Section Local.
Variable k : nat.
Variable d : dcsr.
Variable part : list nat.     (* blocks of the own nodes and of the ghosts *)

(** Counters of threads that are added up in the end: (block, amount) for every node. *)
Fixpoint tally (f : nat -> option (nat * nat)) (us : list nat) (cnt : list nat) : option (list nat) :=
  match us with
  | [] => Some cnt
  | u :: t => bind (f u) (fun x => bind (nth_error cnt (fst x)) (fun c => tally f t (upd (fst x) (c + snd x) cnt)))
  end.
(** :47-51. *)
Fixpoint count_inner (b : nat) (nbs : list (nat * Z)) : option nat :=
  match nbs with
  | [] => Some 0
  | e :: t => bind (nth_error part (fst e)) (fun c => bind (count_inner b t) (fun r => Some (if b =? c then S r else r)))
  end.
(** :37-58 count_block_induced_subgraph_sizes. *)
Definition node_counts : option (list nat) :=
  tally (fun u => bind (nth_error part u) (fun b => Some (b, 1))) (seq 0 (dn d)) (repeat 0 k).
Definition edge_counts : option (list nat) :=
  tally (fun u => bind (nth_error part u) (fun b => bind (dadj d u) (fun nbs => bind (count_inner b nbs) (fun c => Some (b, c))))) (seq 0 (dn d)) (repeat 0 k).

(** :148-154, one iteration: the next number in the block of [u]. The part of shared_nodes for block b (from nodes_offset[b]) is the b-th list;
    the numbers are taken in the order in which the iterations increment the counter of the block. [goff]: global_node_offset. *)
Record placed := Placed { pd_blocks : list (list nat); pd_map : list nat }.
Definition number_node (goff : list nat) (s : option placed) (u : nat) : option placed :=
  bind s (fun s => bind (nth_error part u) (fun b => bind (nth_error (pd_blocks s) b) (fun l => bind (nth_error goff b) (fun o =>
  bind (store u (o + length l) (pd_map s)) (fun m => Some (Placed (upd b (l ++ [u]) (pd_blocks s)) m)))))).
Definition number_nodes (goff order : list nat) : option placed :=
  fold_left (number_node goff) order (Some (Placed (repeat [] k) (repeat 0 (dn d + dghost_n d)))).

(** :205-216: the edges of one node that stay in block [b], with the numbers of their ends, and its weight. *)
Fixpoint keep_inner (mapping : list nat) (b : nat) (nbs : list (nat * Z)) : option (list (nat * Z)) :=
  match nbs with
  | [] => Some []
  | e :: t =>
      bind (nth_error part (fst e)) (fun c =>
      if c =? b then bind (nth_error mapping (fst e)) (fun x => bind (keep_inner mapping b t) (fun r => Some ((x, snd e) :: r)))
      else keep_inner mapping b t)
  end.
Definition extract_node (mapping : list nat) (b u : nat) : option (list (nat * Z) * Z) :=
  bind (dadj d u) (fun nbs => bind (keep_inner mapping b nbs) (fun row => bind (dnode_weight (dc_nw d) u) (fun w => Some (row, w)))).
(** :214-215: the number of edges up to and including each node. *)
Definition row_ends {X} (rows : list (list X)) : list nat := tl (displs (map (@length X) rows)).

(** What one rank keeps (subgraph_extractor.h:26-34). *)
Record extracted := Extracted { ex_nodes : list nat; ex_nw : list Z; ex_edges : list nat; ex_ew : list Z; ex_noff : list nat; ex_eoff : list nat; ex_map : list nat }.
(** :121-126, 189-226, with the complete mapping (own nodes and ghosts); [blocks]: the nodes of the blocks in the order of their numbers. *)
Definition extract_local (goff : list nat) (blocks : list (list nat)) (mapping : list nat) : option extracted :=
  bind node_counts (fun nc => bind edge_counts (fun ec =>
  bind (traverse (fun x => traverse (extract_node mapping (fst x)) (snd x)) (combine (seq 0 k) blocks)) (fun rows =>
  bind (traverse (fun u => bind (nth_error part u) (fun b => bind (nth_error goff b) (fun o => bind (nth_error mapping u) (fun x => Some (x - o))))) (seq 0 (dn d))) (fun rel =>
  Some (Extracted (concat (map (fun rs => row_ends (map fst rs)) rows)) (concat (map (map snd) rows))
    (concat (map (fun rs => concat (map (fun x => map fst (fst x)) rs)) rows)) (concat (map (fun rs => concat (map (fun x => map snd (fst x)) rs)) rows))
    (displs nc) (displs ec) rel))))).
End Local.

(** :129-139 MPI_Exscan with MPI_SUM: rank r gets the sums over the ranks before it (rank 0 keeps its zeros). *)
Definition exscan (k : nat) (cnts : list (list nat)) (r : nat) : list nat :=
  map (fun b => list_sum (map (fun c => nth b c 0) (firstn r cnts))) (seq 0 k).
(** :61-227 on all ranks: any order of the iterations that number the nodes, any interleaving of the threads that fill the send buffers, any
    order of the messages. (:176-180 sends global identifiers; here the receiver computes them from local ones, as in [receive_value].) *)
Definition extract_outcome (P k : nat) (d : nat -> dcsr) (parts : nat -> list nat) (ex : nat -> extracted) : Prop :=
  exists cnts order pd threads bufs mapping,
    traverse (fun r => node_counts k (d r) (parts r)) (seq 0 P) = Some cnts /\
    (forall r, r < P -> Permutation (order r) (seq 0 (dn (d r))) /\ number_nodes k (d r) (parts r) (exscan k cnts r) (order r) = Some (pd r) /\
       0 < threads r /\ buffers_outcome P (d r) (fun u => u) (fun _ _ => true) (value_message (pd_map (pd r)) 0) (threads r) 0 (dn (d r)) (bufs r)) /\
    forall r, r < P -> (exists msgs, Permutation msgs (inbox P bufs r) /\ receive_values (d r) (pd_map (pd r)) msgs = Some (mapping r)) /\
      extract_local k (d r) (parts r) (exscan k cnts r) (pd_blocks (pd r)) (mapping r) = Some (ex r).

(** ** BlockExtractionOffsets (:229-270) *)
Section Offsets.
Variables P k : nat.
(** :238-248; PEID is signed, so the division truncates. *)
Definition first_block_on_pe (pe : nat) : nat :=
  if P <=? k then pe * (k / P) + Nat.min pe (k mod P)
  else if pe <=? (P mod k) * (P / k) then pe / (P / k + 1)
  else Z.to_nat (Z.of_nat (P mod k) + Z.quot (Z.of_nat pe - Z.of_nat ((P mod k) * (P / k + 1))) (Z.of_nat (P / k))).
(** :253-255. *)
Definition num_blocks_on_pe (pe : nat) : nat := Nat.max 1 (k / P + if pe <? k mod P then 1 else 0).
(** :257-259. *)
Definition first_pe_with_block (b : nat) : nat := Nat.max b (b * (P / k) + Nat.min b (P mod k)).
(** :265-267. *)
Definition num_pes_with_block (b : nat) : nat := Nat.max 1 (P / k + if b <? P mod k then 1 else 0).

(** ** gather_block_induced_subgraphs *)

(** :292-307 the sizes of the parts of the blocks, for all ranks; the buffer is not initialised. *)
Definition size_buffer (x : extracted) : option (list (nat * nat)) :=
  bind (fold_left (fun acc b => bind acc (fun buf => bind (diff (ex_noff x) b) (fun n => bind (diff (ex_eoff x) b) (fun m =>
    fold_left (fun acc to => bind acc (store to (Some (n, m)))) (seq (first_pe_with_block b) (num_pes_with_block b)) (Some buf)))))
    (seq 0 k) (Some (repeat None (Nat.max k P)))) (traverse (fun x => x)).
(** :309-338 MPI_Alltoallv, on rank [me]: from every rank as many sizes as [me] has blocks. *)
Definition recv_sizes (xs : list extracted) (me : nat) : option (list (nat * nat)) :=
  bind (traverse (fun x => bind (size_buffer x) (fun buf =>
    bind (nth_error (displs (map num_blocks_on_pe (seq 0 P))) me) (fun s => slice buf s (num_blocks_on_pe me)))) xs) (fun l => Some (concat l)).
(** :376-390: what goes from one of the shared arrays to rank [pe]. *)
Definition send_part {X} (off : list nat) (arr : list X) (pe : nat) : option (list X) :=
  bind (nth_error off (first_block_on_pe pe + num_blocks_on_pe pe)) (fun b => bind (nth_error off (first_block_on_pe pe)) (fun a =>
  bind (if pe =? 0 then Some 0 else nth_error off (first_block_on_pe pe)) (fun s => slice arr s (b - a)))).
(** :394-398. *)
Definition recv_offset (pe : nat) : nat := Nat.max pe (pe * (k / P) + Nat.min pe (k mod P)).
(** :400-456 and kaminpar-mpi/sparse_alltoall.h:134-158 (which ignores the receive counts); [dis]: the displacements of the pieces. *)
Definition receive_all_parts {X} (dflt : X) (off : extracted -> list nat) (arr : extracted -> list X) (dis : list nat) (xs : list extracted) (me : nat) : option (list X) :=
  bind (nth_error dis (recv_offset P)) (fun total =>
  fold_left (fun acc q => bind acc (fun buf => bind (nth_error xs q) (fun x => bind (send_part (off x) (arr x) me) (fun t =>
    bind (nth_error dis (recv_offset q)) (fun s => put buf s t))))) (seq 0 P) (Some (repeat dflt total))).

(** :459-544 construct_subgraphs, for one block of the rank: the pieces of all ranks one after the other. The result is the graph and the
    position of the nodes of every rank. *)
Definition construct_one (nb : nat) (sizes : list (nat * nat)) (nodes : list nat) (nw : list Z) (edges : list nat) (ew : list Z) (b : nat) : option (csr * list nat) :=
  let disn := displs (map fst sizes) in let dism := displs (map snd sizes) in
  bind (traverse (fun pe =>
    let id := b + pe * nb in
    bind (nth_error sizes id) (fun s => bind (nth_error disn id) (fun a => bind (nth_error dism id) (fun c =>
    bind (slice nodes a (fst s)) (fun xn => bind (slice nw a (fst s)) (fun xw => bind (slice edges c (snd s)) (fun xe => bind (slice ew c (snd s)) (fun xf =>
    Some (s, (xn, xw, (xe, xf))))))))))) (seq 0 P)) (fun pieces =>
  let ms := displs (map (fun p => snd (fst p)) pieces) in
  Some (Csr (0 :: concat (map (fun x => map (fun e => e + fst x) (fst (fst (snd (snd x))))) (combine ms pieces)))
            (concat (map (fun p => fst (snd (snd p))) pieces))
            (concat (map (fun p => snd (fst (snd p))) pieces))
            (concat (map (fun p => snd (snd (snd p))) pieces)),
        displs (map (fun p => fst (fst p)) pieces))).
(** :549-584. *)
Definition gather (xs : list extracted) (me : nat) : option (list (csr * list nat)) :=
  bind (recv_sizes xs me) (fun sizes =>
  let disn := displs (map fst sizes) in let dism := displs (map snd sizes) in
  bind (receive_all_parts 0 ex_noff ex_nodes disn xs me) (fun nodes => bind (receive_all_parts 0%Z ex_noff ex_nw disn xs me) (fun nw =>
  bind (receive_all_parts 0 ex_eoff ex_edges dism xs me) (fun edges => bind (receive_all_parts 0%Z ex_eoff ex_ew dism xs me) (fun ew =>
  traverse (construct_one (num_blocks_on_pe me) sizes nodes nw edges ew) (seq 0 (num_blocks_on_pe me))))))).

(** ** copy_subgraph_partitions (:608-680) and copy_duplicated_subgraph_partitions (:682-787) *)

(** A partition of one subgraph: number of blocks, blocks of the nodes. *)
Definition sub_partition := (nat * list nat)%type.
(** :713-721 find_winner; [cuts]: the cuts of the partitions of all ranks (shm::metrics::edge_cut). *)
Definition find_winner (cuts : list Z) (b : nat) : option nat :=
  fold_left (fun acc cur => bind acc (fun best => bind (nth_error cuts cur) (fun c => bind (nth_error cuts best) (fun cb => Some (if (c <? cb)%Z then cur else best)))))
    (seq (first_pe_with_block b) (num_pes_with_block b)) (Some (first_pe_with_block b)).
(** :637-644 and :727-733: the blocks of the nodes of rank [pe]. *)
Definition blocks_for (offs : list nat) (p : list nat) (pe : nat) : option (list nat) :=
  bind (nth_error offs pe) (fun a => bind (nth_error offs (pe + 1)) (fun b => traverse (nth_error p) (seq a (b - a)))).
(** What rank [r] sends to rank [pe]. [dup]: more ranks than blocks. *)
Definition send_blocks (cuts : list Z) (subs : list (list nat)) (ps : list sub_partition) (r pe : nat) : option (list nat) :=
  if P <=? k then
    bind (traverse (fun i => bind (nth_error subs i) (fun offs => bind (nth_error ps i) (fun p => blocks_for offs (snd p) pe))) (seq 0 (length ps))) (fun l => Some (concat l))
  else
    bind (find_winner cuts (first_block_on_pe r)) (fun w =>
    if w =? r then bind (nth_error subs 0) (fun offs => bind (nth_error ps 0) (fun p => blocks_for offs (snd p) pe)) else Some []).
(** :663-671 and :766-774: the new block of node [u]. A negative index wraps around to a position near 2^32: out of bounds. *)
Definition new_block (cuts : list Z) (mult : nat) (part boff rel : list nat) (recv : list (list nat)) (u : nat) : option nat :=
  bind (nth_error part u) (fun b =>
  bind (if P <=? k then Some (first_pe_with_block b) else find_winner cuts b) (fun owner =>
  bind (nth_error boff b) (fun x => bind (nth_error boff (first_block_on_pe owner)) (fun y => bind (nth_error rel u) (fun m =>
  bind (nth_error recv owner) (fun buf => if y <=? m + x then bind (nth_error buf (m + x - y)) (fun s => Some (b * mult + s)) else None)))))).
(** :608-671 and :682-774, on rank [r]: the blocks of the own nodes, before the blocks of the ghosts are exchanged. [ps]: the partitions of the
    subgraphs on all ranks; [subs]: the positions returned by [gather]. :687-689: several partitions on a rank and fewer blocks than ranks:
    the two functions call each other for ever. *)
Definition project_local (d : dcsr) (part rel : list nat) (cuts : list Z) (subs : nat -> list (list nat)) (ps : nat -> list sub_partition) (r : nat) : option (list nat) :=
  bind (nth_error (ps r) 0) (fun first =>
  if negb (P <=? k) && (1 <? length (ps r)) then None else
  bind (traverse (fun q => send_blocks cuts (subs q) (ps q) q r) (seq 0 P)) (fun recv =>
  bind (node_counts k d part) (fun nc =>
  traverse (new_block cuts (fst first) part (displs nc) rel recv) (seq 0 (dn d))))).
(** The complete operation: the arrays of the blocks after the exchange (:676-677, 779-780). *)
Definition project_outcome (d : nat -> dcsr) (parts : nat -> list nat) (ex : nat -> extracted) (cuts : list Z) (subs : nat -> list (list nat)) (ps : nat -> list sub_partition)
    (parts' : nat -> list nat) : Prop :=
  exists own threads bufs,
    (forall r, r < P -> project_local (d r) (parts r) (ex_map (ex r)) cuts subs ps r = Some (own r) /\ 0 < threads r /\
       buffers_outcome P (d r) (fun u => u) (fun _ _ => true) (value_message (own r ++ skipn (dn (d r)) (parts r)) 0) (threads r) 0 (dn (d r)) (bufs r)) /\
    forall r, r < P -> exists msgs, Permutation msgs (inbox P bufs r) /\ receive_values (d r) (own r ++ skipn (dn (d r)) (parts r)) msgs = Some (parts' r).
End Offsets.
