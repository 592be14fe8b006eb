(* Model of StaticArray sizes, CSRGraph, the node permutation by degree buckets, isolated node
   removal / re-integration and metrics::edge_cut.

   Conventions: node, edge and block IDs are [nat] (the 32/64-bit ID types are assumed large
   enough for the graph, which the constructors of the code also assume), weights are [Z].
   A parallel loop whose iterations write disjoint locations is modelled by the sequential loop;
   parallel reductions are modelled with an explicit schedule. Every array read is a [nth] with a
   default; the theorems only speak about in-range reads. *)
From Verif Require Import Lib.Prelude Model.MathModel Spec.Graph.

(* ------------------------------------------------------------------------- StaticArray *)

(** static_array.h:394-398: storage, _size and _unrestricted_size of a StaticArray. The storage is
    not shrunk by restrict(). *)
Record sarray (A : Type) := mkSArray { sa_data : list A; sa_size : nat; sa_unrestricted : nat }.
Arguments mkSArray {A}. Arguments sa_data {A}. Arguments sa_size {A}. Arguments sa_unrestricted {A}.

(** static_array.h:165-180, 370-389: arrays that own their memory. *)
Definition sa_make {A} (l : list A) : sarray A := mkSArray l (length l) (length l).
(** static_array.h:154-163: arrays over borrowed memory leave _unrestricted_size at 0. *)
Definition sa_span {A} (l : list A) : sarray A := mkSArray l (length l) 0.
(** static_array.h:290-298 restrict, 300-302 unrestrict. *)
Definition sa_restrict {A} (n : nat) (a : sarray A) : sarray A :=
  mkSArray (sa_data a) n (sa_size a).
Definition sa_unrestrict {A} (a : sarray A) : sarray A :=
  mkSArray (sa_data a) (sa_unrestricted a) (sa_unrestricted a).
(** The elements begin()..end() (static_array.h:262-288). *)
Definition sa_list {A} (a : sarray A) : list A := firstn (sa_size a) (sa_data a).
(** operator[] does not check against _size in release builds (static_array.h:219-226). *)
Definition sa_get {A} (d : A) (a : sarray A) (i : nat) : A := nth i (sa_data a) d.

(* ------------------------------------------------------------------------- CSRGraph *)

(** csr_graph.h:463-477. *)
Record csr_graph := mkCsrGraph {
  cg_nodes : sarray nat; cg_edges : list nat; cg_node_weights : sarray Z; cg_edge_weights : list Z;
  cg_max_node_weight : Z; cg_total_node_weight : Z; cg_total_edge_weight : Z; cg_max_degree : nat;
  cg_permutation : list nat; cg_sorted : bool; cg_buckets : list nat; cg_number_of_buckets : nat }.

(** csr_graph.h:77-83 n(), m(). *)
Definition cg_n (g : csr_graph) : nat := sa_size (cg_nodes g) - 1.
Definition cg_m (g : csr_graph) : nat := length (cg_edges g).
(** csr_graph.h:146-148 degree. *)
Definition cg_degree (g : csr_graph) (u : nat) : nat :=
  sa_get 0 (cg_nodes g) (S u) - sa_get 0 (cg_nodes g) u.
(** csr_graph.h:89-96 is_node_weighted, node_weight. *)
Definition cg_is_node_weighted (g : csr_graph) : bool :=
  negb (Z.of_nat (cg_n g) =? cg_total_node_weight g)%Z.
Definition cg_node_weight (g : csr_graph) (u : nat) : Z :=
  if cg_is_node_weighted g then sa_get 0%Z (cg_node_weights g) u else 1%Z.
(** csr_graph.h:108-115 is_edge_weighted, edge_weight. *)
Definition cg_is_edge_weighted (g : csr_graph) : bool :=
  negb (Z.of_nat (cg_m g) =? cg_total_edge_weight g)%Z.
Definition cg_edge_weight (g : csr_graph) (e : nat) : Z :=
  if cg_is_edge_weighted g then nth e (cg_edge_weights g) 0%Z else 1%Z.
(** csr_graph.h:170-211 adjacent_nodes: the (target, weight) pairs in the order of the calls. *)
Definition cg_adjacent_nodes (g : csr_graph) (u : nat) : list (nat * Z) :=
  map (fun e => (nth e (cg_edges g) 0, cg_edge_weight g e))
      (seq (sa_get 0 (cg_nodes g) u) (sa_get 0 (cg_nodes g) (S u) - sa_get 0 (cg_nodes g) u)).

(** The graph that the accessors present to the partitioner. *)
Definition cg_graph (g : csr_graph) : graph :=
  {| gn := cg_n g; gadj := cg_adjacent_nodes g; gvw := cg_node_weight g |}.

(** degree_buckets.h:16-17: 32-bit NodeID. *)
Definition num_degree_buckets : nat := 33.
(** degree_buckets.h:23-25; the [None] case of [degree_bucket] never occurs (floor_log2 is only
    applied to positive degrees). *)
Definition bucket_of_degree (d : nat) : nat :=
  match degree_bucket 32 (N.of_nat d) with Some b => N.to_nat b | None => 0 end.

(** parallel/algorithm.h:219-240 prefix_sum / std::partial_sum (inclusive). *)
Fixpoint prefix_sum_from (acc : nat) (l : list nat) : list nat :=
  match l with [] => [] | x :: t => (acc + x) :: prefix_sum_from (acc + x) t end.
Definition prefix_sum (l : list nat) : list nat := prefix_sum_from 0 l.

(** Histogram of the buckets of the degrees, at positions bucket + 1 (csr_graph.cc:190-202; the
    thread-local histograms are summed, so their split does not matter). *)
Definition bucket_histogram (degs : list nat) : list nat :=
  fold_left (fun h d => upd (S (bucket_of_degree d)) (S (nth (S (bucket_of_degree d)) h 0)) h)
            degs (repeat 0 (S num_degree_buckets)).

(** csr_graph.cc:220-222: index of the last non-zero entry (None: undefined behaviour for a sorted
    graph without nodes). *)
Fixpoint last_nonzero (l : list nat) : option nat :=
  match l with
  | [] => None
  | x :: t => match last_nonzero t with
              | Some i => Some (S i)
              | None => if x =? 0 then None else Some 0
              end
  end.

(** csr_graph.cc:180-229 init_degree_buckets: (_buckets, _number_of_buckets). For a sorted graph
    without nodes, _number_of_buckets is the result of undefined behaviour; 0 here. *)
Definition init_degree_buckets (sorted : bool) (n : nat) (degs : list nat) : list nat * nat :=
  if sorted then
    let h := bucket_histogram degs in
    (prefix_sum h, match last_nonzero h with Some i => i | None => 0 end)
  else
    (prefix_sum (upd 1 n (repeat 0 (S num_degree_buckets))), 1).

Definition zmax_list (l : list Z) : Z := fold_right Z.max (-2147483648)%Z l.
Definition degrees_of (xadj : list nat) : list nat :=
  map (fun u => nth (S u) xadj 0 - nth u xadj 0) (seq 0 (length xadj - 1)).

(** csr_graph.cc:52-82: constructor. The parallel reductions are modelled by their result. *)
Definition cg_make (nodes : sarray nat) (edges : list nat) (vw : sarray Z) (ew : list Z)
    (sorted : bool) : csr_graph :=
  let n := sa_size nodes - 1 in
  let b := init_degree_buckets sorted n (degrees_of (sa_list nodes)) in
  mkCsrGraph nodes edges vw ew
    (if sa_size vw =? 0 then 1%Z else zmax_list (sa_list vw))
    (if sa_size vw =? 0 then Z.of_nat n else zsum (sa_list vw))
    (match ew with [] => Z.of_nat (length edges) | _ => zsum ew end)
    (list_max (degrees_of (sa_list nodes)))
    [] sorted (fst b) (snd b).

(** csr_graph.cc:120-129 update_total_node_weight. *)
Definition cg_update_total_node_weight (g : csr_graph) : csr_graph :=
  mkCsrGraph (cg_nodes g) (cg_edges g) (cg_node_weights g) (cg_edge_weights g)
    (if sa_size (cg_node_weights g) =? 0 then 1%Z else zmax_list (sa_list (cg_node_weights g)))
    (if sa_size (cg_node_weights g) =? 0 then Z.of_nat (cg_n g) else zsum (sa_list (cg_node_weights g)))
    (cg_total_edge_weight g) (cg_max_degree g) (cg_permutation g) (cg_sorted g) (cg_buckets g)
    (cg_number_of_buckets g).

Definition cg_set_arrays (nodes : sarray nat) (vw : sarray Z) (g : csr_graph) : csr_graph :=
  mkCsrGraph nodes (cg_edges g) vw (cg_edge_weights g) (cg_max_node_weight g)
    (cg_total_node_weight g) (cg_total_edge_weight g) (cg_max_degree g) (cg_permutation g)
    (cg_sorted g) (cg_buckets g) (cg_number_of_buckets g).
Definition cg_set_buckets (bs : list nat) (nb : nat) (g : csr_graph) : csr_graph :=
  mkCsrGraph (cg_nodes g) (cg_edges g) (cg_node_weights g) (cg_edge_weights g) (cg_max_node_weight g)
    (cg_total_node_weight g) (cg_total_edge_weight g) (cg_max_degree g) (cg_permutation g)
    (cg_sorted g) bs nb.
Definition cg_set_permutation (p : list nat) (g : csr_graph) : csr_graph :=
  mkCsrGraph (cg_nodes g) (cg_edges g) (cg_node_weights g) (cg_edge_weights g) (cg_max_node_weight g)
    (cg_total_node_weight g) (cg_total_edge_weight g) (cg_max_degree g) p
    (cg_sorted g) (cg_buckets g) (cg_number_of_buckets g).

(** csr_graph.cc:131-155 remove_isolated_nodes. The bucket entries are unsigned; the subtraction
    does not wrap because every entry 1.. counts the isolated nodes (bucket 0). *)
Definition cg_remove_isolated_nodes (k : nat) (g : csr_graph) : csr_graph :=
  if k =? 0 then g else
  let new_n := cg_n g - k in
  let g1 := cg_set_arrays (sa_restrict (new_n + 1) (cg_nodes g))
              (if sa_size (cg_node_weights g) =? 0 then cg_node_weights g
               else sa_restrict new_n (cg_node_weights g)) g in
  let g2 := cg_update_total_node_weight g1 in
  cg_set_buckets
    (match cg_buckets g2 with [] => [] | b0 :: bs => b0 :: map (fun b => b - k) bs end)
    (if cg_number_of_buckets g2 =? 1 then 0 else cg_number_of_buckets g2) g2.

(** csr_graph.cc:157-178 integrate_isolated_nodes: (number of isolated nodes, graph). *)
Definition cg_integrate_isolated_nodes (g : csr_graph) : nat * csr_graph :=
  let nonisolated := cg_n g in
  let g1 := cg_set_arrays (sa_unrestrict (cg_nodes g)) (sa_unrestrict (cg_node_weights g)) g in
  let isolated := cg_n g1 - nonisolated in
  let g2 := cg_update_total_node_weight g1 in
  (isolated, cg_set_buckets
    (match cg_buckets g2 with [] => [] | b0 :: bs => b0 :: map (fun b => b + isolated) bs end)
    (if cg_number_of_buckets g2 =? 0 then 1 else cg_number_of_buckets g2) g2).

(** permutator.cc:272-286 count_isolated_nodes (parallel reduction modelled by its result). *)
Definition count_isolated_nodes (g : csr_graph) : nat :=
  length (filter (fun u => cg_degree g u =? 0) (seq 0 (cg_n g))).

(* ------------------------------------------------------------------------- metrics::edge_cut *)

(** metrics.h:27-34: contribution of a chunk of nodes. *)
Definition chunk_cut (adj : nat -> list (nat * Z)) (part : nat -> nat) (chunk : list nat) (acc : Z) : Z :=
  fold_left (fun a u =>
    fold_left (fun a' e => (a' + (if Nat.eqb (part u) (part (fst e)) then 0 else snd e))%Z) (adj u) a) chunk acc.

(** A schedule of a parallel loop over [0,n): which thread executes which chunks, in the order in
    which every thread processes its chunks. *)
Definition schedule := list (nat * list nat).
Definition valid_schedule (threads n : nat) (s : schedule) : Prop :=
  (forall t c, In (t, c) s -> t < threads) /\ Permutation (concat (map snd s)) (seq 0 n).

(** metrics.h:36-39: combine, the always-on assertion that the sum is even, division by two and the
    checked cast to a [bits]-bit EdgeWeight (asserting_cast). [None]: an assertion fails. *)
Definition finish_cut (bits : Z) (cut : Z) : option Z :=
  if (Z.rem cut 2 =? 0)%Z then
    let c := Z.quot cut 2 in
    if ((- 2 ^ (bits - 1) <=? c) && (c <? 2 ^ (bits - 1)))%Z%bool then Some c else None
  else None.

(** metrics.h:23-40 edge_cut with thread-local accumulators (64-bit, modelled as Z). *)
Definition edge_cut (bits : Z) (threads : nat) (s : schedule) (adj : nat -> list (nat * Z))
    (part : nat -> nat) : option Z :=
  let ets := fold_left (fun ets tc =>
      upd (fst tc) (chunk_cut adj part (snd tc) (nth (fst tc) ets 0%Z)) ets) s (repeat 0%Z threads) in
  finish_cut bits (zsum ets).

(** metrics.h:46-58 edge_cut_seq. *)
Definition edge_cut_seq (bits : Z) (n : nat) (adj : nat -> list (nat * Z)) (part : nat -> nat) : option Z :=
  finish_cut bits (chunk_cut adj part (seq 0 n) 0%Z).
