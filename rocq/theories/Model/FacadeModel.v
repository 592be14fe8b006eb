(* Model of the library facade, kaminpar-shm/kaminpar.cc: handing over a graph and computing
   partitions of it, several times if desired. The multilevel partitioner itself is an oracle here:
   every call gets the labels [pc_labels] that the partitioner returned for the graph it was given. *)
From Verif Require Import Lib.Prelude Spec.Graph Model.CsrModel Model.PermModel.

(** kaminpar.h: members _graph_ptr and _was_rearranged of KaMinPar. *)
Record facade := mkFacade { fc_graph : csr_graph; fc_was_rearranged : bool }.

(** kaminpar.cc:234-272 copy_graph, 274-277 set_graph. *)
Definition copy_graph (xadj adjncy : list nat) (vwgt adjwgt : list Z) : facade :=
  mkFacade (cg_make (sa_make xadj) adjncy (sa_make vwgt) adjwgt false) false.
(** kaminpar.cc:206-232 borrow_and_mutate_graph. *)
Definition borrow_and_mutate_graph (xadj adjncy : list nat) (vwgt adjwgt : list Z) : facade :=
  mkFacade (cg_make (sa_span xadj) adjncy (sa_span vwgt) adjwgt false) false.

(** One call of compute_partition: the configuration (node ordering, number of blocks, block weight
    limits), everything the environment decides (number of workers, uninitialised memory, the labels
    computed by the partitioner, the schedule of the final reduction) and the caller's output span. *)
Record pcall := mkPCall {
  pc_degree_buckets : bool; pc_k : nat; pc_max_block_weight : nat -> Z;
  pc_concurrency : nat; pc_junk_edges : list nat; pc_junk_weights : list Z;
  pc_labels : list nat; pc_threads : nat; pc_schedule : schedule; pc_out : list nat }.

(** kaminpar.cc:335-353 (no compression, edge_ordering = NATURAL). *)
Definition fc_rearrange (c : pcall) (f : facade) : facade :=
  if fc_was_rearranged f then f
  else mkFacade
    (if pc_degree_buckets c && negb (cg_sorted (fc_graph f))
     then rearrange_by_degree_buckets (pc_concurrency c) (pc_junk_edges c) (pc_junk_weights c) (fc_graph f)
     else fc_graph f) true.

(** kaminpar.cc:357-367. *)
Definition fc_cut_off_isolated (g : csr_graph) : csr_graph :=
  if cg_sorted g then cg_remove_isolated_nodes (count_isolated_nodes g) g else g.

(** partitioned_graph.h:273-312: block weights of a partition. *)
Definition init_block_weights (g : csr_graph) (k : nat) (part : list nat) : list Z :=
  fold_left (fun bw u => let b := nth u part 0 in upd b (nth b bw 0 + cg_node_weight g u)%Z bw)
    (seq 0 (cg_n g)) (repeat 0%Z k).

(** The graph the partitioner of this call works on. *)
Definition fc_partitioner_input (c : pcall) (f : facade) : csr_graph :=
  fc_cut_off_isolated (fc_graph (fc_rearrange c f)).

(** kaminpar.cc:384-391: final graph and partition. *)
Definition fc_reintegrate (c : pcall) (g : csr_graph) : csr_graph * list nat :=
  if cg_sorted g then
    let (num_isolated, g') := cg_integrate_isolated_nodes g in
    (g', assign_isolated_nodes g' (pc_k c) (pc_labels c)
           (init_block_weights g (pc_k c) (pc_labels c)) num_isolated (pc_max_block_weight c))
  else (g, pc_labels c).

(** kaminpar.cc:397-405: write the output span. *)
Definition fc_write (g : csr_graph) (part out : list nat) : list nat :=
  map (fun u => nth (match cg_permutation g with [] => u | p => nth u p 0 end) part 0) (seq 0 (cg_n g))
  ++ skipn (cg_n g) out.

(** kaminpar.cc:314-421 compute_partition: new facade state, output span, returned value ([None]: an
    assertion of the checked cast fails). *)
Definition compute_partition (bits : Z) (c : pcall) (f : facade) : facade * list nat * option Z :=
  let f1 := fc_rearrange c f in
  let (g, part) := fc_reintegrate c (fc_cut_off_isolated (fc_graph f1)) in
  (mkFacade g (fc_was_rearranged f1),
   fc_write g part (pc_out c),
   edge_cut bits (pc_threads c) (pc_schedule c) (cg_adjacent_nodes g) (fun u => nth u part 0)).

(** The facade after a sequence of calls. *)
Definition run_calls (bits : Z) (cs : list pcall) (f : facade) : facade :=
  fold_left (fun f c => fst (fst (compute_partition bits c f))) cs f.

(** What a call has to satisfy: the environment behaves, and the partitioner returned a label below
    k for every node of the graph it was given. [m], [ewn], [n]: numbers of edges, edge weights, nodes. *)
Definition valid_call (m ewn n : nat) (c : pcall) (f : facade) : Prop :=
  0 < pc_k c /\ 0 < pc_concurrency c /\
  length (pc_junk_edges c) = m /\ length (pc_junk_weights c) = ewn /\
  length (pc_labels c) = cg_n (fc_partitioner_input c f) /\
  (forall x, In x (pc_labels c) -> x < pc_k c) /\
  valid_schedule (pc_threads c) n (pc_schedule c).

(** A history of calls each of which is valid in the state in which it is made. *)
Fixpoint valid_history (m ewn n : nat) (bits : Z) (cs : list pcall) (f : facade) : Prop :=
  match cs with
  | [] => True
  | c :: t => valid_call m ewn n c f /\
              valid_history m ewn n bits t (fst (fst (compute_partition bits c f)))
  end.
