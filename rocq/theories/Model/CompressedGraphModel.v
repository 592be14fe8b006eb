(* Model of the compressed graph object:
     kaminpar-shm/datastructures/compressed_graph.{h,cc}
     kaminpar-shm/graphutils/compressed_graph_builder.cc
   on top of Model/CompressModel.v. Node weights are mathematical integers (no overflow of the
   total is modelled). *)
From Verif Require Import Lib.Prelude Model.VarintModel Model.CompressModel.
Local Open Scope Z_scope.

(** compressed_graph.h: the members (the degree buckets are not modelled). *)
Record compressed_graph := {
  cgr_neighborhoods : cneighborhoods;
  cgr_node_weights : list Z;
  cgr_total_node_weight : Z;
  cgr_max_node_weight : Z
}.

(** compressed_neighborhoods.h:203-206 num_nodes: _nodes.size() - 1. *)
Definition cgr_n (g : compressed_graph) : Z := Z.of_nat (length (cn_nodes (cgr_neighborhoods g))) - 1.
(** compressed_graph.h:97-99 m. *)
Definition cgr_m (g : compressed_graph) : Z := cn_num_edges (cgr_neighborhoods g).

(** compressed_graph.cc:19-36: the constructor. *)
Definition cgr_make (nb : cneighborhoods) (node_weights : list Z) : compressed_graph :=
  {| cgr_neighborhoods := nb;
     cgr_node_weights := node_weights;
     cgr_total_node_weight :=
       match node_weights with
       | [] => Z.of_nat (length (cn_nodes nb)) - 1
       | _ => zsum node_weights
       end;
     cgr_max_node_weight :=
       match node_weights with
       | [] => 1
       | x :: l => fold_left Z.max l x
       end |}.

(** compressed_graph.h:105-111 is_node_weighted, node_weight ([None]: read outside of the array). *)
Definition cgr_is_node_weighted (g : compressed_graph) : bool := negb (cgr_n g =? cgr_total_node_weight g).
Definition cgr_node_weight (g : compressed_graph) (u : nat) : option Z :=
  if cgr_is_node_weighted g then nth_error (cgr_node_weights g) u else Some 1.
(** compressed_graph.h:149-151 max_degree. *)
Definition cgr_max_degree (g : compressed_graph) : Z := cn_max_degree (cgr_neighborhoods g).
(** compressed_graph.h:127-129 total_edge_weight. *)
Definition cgr_total_edge_weight (g : compressed_graph) : Z := cn_total_edge_weight (cgr_neighborhoods g).

(** compressed_graph_builder.cc:41-80: constructor, one add_node (and, if [vwgt] is given, one
    add_node_weight) per node in increasing order, build. *)
Definition cgr_build (c : cconf) (sort : list nbr -> list nbr) (m : Z) (nbs : list (list nbr))
    (vwgt : option (list Z)) : compressed_graph :=
  let nb := cn_build c sort m nbs in
  let node_weights := match vwgt with None => [] | Some l => l end in
  let total := zsum node_weights in
  let unit_node_weights := total + 1 =? Z.of_nat (length (cn_nodes nb)) - 1 in
  cgr_make nb (if unit_node_weights then [] else node_weights).
