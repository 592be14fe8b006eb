(* Which builds are considered and which graphs they hold (binary graph files). *)
From Verif Require Import Lib.Prelude Spec.Graph Model.CompactArrayModel Model.IoTextModel Model.IoBinModel.
Local Open Scope Z_scope.

(** 32- or 64-bit node IDs, edge IDs and weights. *)
Definition widths (c : ioconf) : Prop := (io_wn c = 32 \/ io_wn c = 64) /\ (io_wi c = 32 \/ io_wi c = 64) /\ (io_ww c = 32 \/ io_ww c = 64).
(** A build that can read a ParHIP file: 64-bit data only if the build has 64-bit types. *)
Definition w8 (b : nat) : Prop := b = 4%nat \/ b = 8%nat.
Definition can_read (c : ioconf) (bn bi bnw bew : nat) (nw ew : bool) : Prop :=
  (io_wn c = 32 \/ io_wn c = 64) /\ (io_wi c = 32 \/ io_wi c = 64) /\ (io_ww c = 32 \/ io_ww c = 64) /\
  w8 bn /\ w8 bi /\ w8 bnw /\ w8 bew /\
  (bn = 8%nat -> io_wn c = 64) /\ (bi = 8%nat -> io_wi c = 64) /\
  (nw = true -> bnw = 8%nat -> io_ww c = 64) /\ (ew = true -> bew = 8%nat -> io_ww c = 64).
(** All weights fit into the signed weight type. *)
Definition weights_fit (c : ioconf) (g : graph) : Prop :=
  forall u, (u < gn g)%nat -> gvw g u < 2 ^ (io_ww c - 1) /\ Forall (fun e => snd e < 2 ^ (io_ww c - 1)) (gadj g u).

(** Compile-time settings of the compression are 64-bit constants. *)
Definition settings_ok (c : bconf) : Prop :=
  widths (bc_io c) /\ 0 <= bc_thr c < 2 ^ 64 /\ 0 <= bc_part c < 2 ^ 64 /\ 0 <= bc_len c < 2 ^ 64.
(** Two builds with the same types, encodings and constants. *)
Definition same_settings (c c' : bconf) : Prop :=
  io_wn (bc_io c) = io_wn (bc_io c') /\ io_wi (bc_io c) = io_wi (bc_io c') /\ io_ww (bc_io c) = io_ww (bc_io c') /\
  bc_hd c = bc_hd c' /\ bc_iv c = bc_iv c' /\ bc_sv c = bc_sv c' /\
  bc_thr c = bc_thr c' /\ bc_part c = bc_part c' /\ bc_len c = bc_len c'.
(** What the types guarantee of a compressed graph held by a build with settings [c]: the compact node array is an
    unrestricted array over its bytes, it has at least one entry, everything fits into its type. *)
Definition held_by (c : bconf) (g : stored_graph) : Prop :=
  let a := sg_nodes g in
  ca_of_bytes (nbytes (io_wi (bc_io c))) (ca_bw a) (ca_bytes a) = a /\ (ca_bw a < 256)%nat /\ Z.of_nat (length (ca_bytes a)) < 2 ^ 64 /\
  Forall (fun b => 0 <= b < 256) (ca_bytes a) /\ (0 < ca_num a)%nat /\ sg_n g < 2 ^ 64 /\
  Forall (fun b => 0 <= b < 256) (sg_edges g) /\ Z.of_nat (length (sg_edges g)) < 2 ^ 64 /\
  Forall (fun w => 0 <= w < 2 ^ (io_ww (bc_io c) - 1)) (sg_node_weights g) /\ Z.of_nat (length (sg_node_weights g)) < 2 ^ 64 /\
  0 <= sg_max_degree g < 2 ^ io_wn (bc_io c) /\ 0 <= sg_num_edges g < 2 ^ io_wi (bc_io c) /\
  0 <= sg_total_edge_weight g < 2 ^ (io_ww (bc_io c) - 1) /\
  0 <= sg_num_high_degree_nodes g < 2 ^ 64 /\ 0 <= sg_num_high_degree_parts g < 2 ^ 64 /\
  0 <= sg_num_interval_nodes g < 2 ^ 64 /\ 0 <= sg_num_intervals g < 2 ^ 64.
(** No node weights, or one positive weight per node. *)
Definition positive_node_weights (g : stored_graph) : Prop :=
  sg_node_weights g = [] \/ Z.of_nat (length (sg_node_weights g)) = sg_n g /\ Forall (fun w => 1 <= w) (sg_node_weights g).
(** The weight of a node: 1 if no weights are stored. *)
Definition stored_weight (g : stored_graph) (u : nat) : Z := match sg_node_weights g with [] => 1 | ws => nth u ws 0 end.
(** The same compressed graph: the same bytes, counters and node weights. *)
Definition same_stored (h g : stored_graph) : Prop :=
  sg_nodes h = sg_nodes g /\ sg_edges h = sg_edges g /\ sg_sorted h = sg_sorted g /\ sg_max_degree h = sg_max_degree g /\
  sg_num_edges h = sg_num_edges g /\ sg_has_edge_weights h = sg_has_edge_weights g /\
  sg_total_edge_weight h = sg_total_edge_weight g /\ sg_num_high_degree_nodes h = sg_num_high_degree_nodes g /\
  sg_num_high_degree_parts h = sg_num_high_degree_parts g /\ sg_num_interval_nodes h = sg_num_interval_nodes g /\
  sg_num_intervals h = sg_num_intervals g /\
  (forall u, Z.of_nat u < sg_n g -> stored_weight h u = stored_weight g u).
