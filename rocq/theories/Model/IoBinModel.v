(* Model of the binary graph files:
     apps/io/binary_util.h                  (memory mapped reader, writer)
     apps/io/shm_parhip_parser.cc           (ParHIP format)
     apps/io/shm_compressed_graph_binary.cc (compressed graphs)
   A file is a list of bytes; the machine is little-endian and tolerates unaligned loads. The parallel loops write
   disjoint array entries and are modelled sequentially. *)
From Verif Require Import Lib.Prelude Model.MathModel Model.VarintModel Model.CsrModel Model.PermModel Model.CompressModel
  Model.CompressedGraphModel Model.CompactArrayModel Model.IoTextModel.
Local Open Scope Z_scope.

(** sizeof of a type with [w] bits. *)
Definition nbytes (w : Z) : nat := Z.to_nat (w / 8).

(* -------------------------------------------------------------------------------------------- binary_util.h *)
(** :63-65 BinaryReader::read, :67-69 fetch and an access to the fetched array: an unsigned integer of [k] bytes.
    Reading behind the end of the file is a [Fault] (the zeros in the rest of the last page are not modelled). *)
Definition rd (k : nat) (file : list Z) (pos : Z) : res Z :=
  match load_le k (skipn (Z.to_nat pos) file) with Some x => Ok x | None => Fault end.
(** [len] consecutive values of [k] bytes. *)
Fixpoint rd_array (k : nat) (file : list Z) (pos : Z) (len : nat) : res (list Z) :=
  match len with
  | O => Ok []
  | S l => let* x := rd k file pos in
           let* xs := rd_array k file (pos + Z.of_nat k) l in
           Ok (x :: xs)
  end.
(** :84-86 write_int, :88-92 write_raw_static_array. *)
Definition wr_int (k : nat) (x : Z) : list Z := store_le k x.
Definition wr_array (k : nat) (xs : list Z) : list Z := concat (map (store_le k) xs).

(* ------------------------------------------------------------------------------------ shm_parhip_parser.cc *)
(** :36, :81-82 kSize. *)
Definition ph_kSize : Z := 24.
(** :45-62 version: each flag is stored inverted. *)
Definition ph_version (has_edge_weights has_node_weights e64 n64 nw64 ew64 : bool) : Z :=
  let make_flag (flag : bool) shift := Z.shiftl (if flag then 0 else 1) shift in
  Z.lor (Z.lor (Z.lor (Z.lor (Z.lor (make_flag ew64 5) (make_flag nw64 4)) (make_flag n64 3)) (make_flag e64 2))
               (make_flag has_node_weights 1)) (make_flag has_edge_weights 0).
(** :64-71, :77-87 ParHIPHeader. *)
Record parhip_header := {
  ph_ew : bool; ph_nw : bool; ph_e64 : bool; ph_n64 : bool; ph_nw64 : bool; ph_ew64 : bool; ph_n : Z; ph_m : Z
}.
Definition ph_make (version num_nodes num_edges : Z) : parhip_header :=
  {| ph_ew := Z.land version 1 =? 0; ph_nw := Z.land version 2 =? 0; ph_e64 := Z.land version 4 =? 0;
     ph_n64 := Z.land version 8 =? 0; ph_nw64 := Z.land version 16 =? 0; ph_ew64 := Z.land version 32 =? 0;
     ph_n := num_nodes; ph_m := num_edges |}.
Definition ph_node_id_width (h : parhip_header) : Z := if ph_n64 h then 8 else 4.
Definition ph_edge_id_width (h : parhip_header) : Z := if ph_e64 h then 8 else 4.
Definition ph_node_weight_width (h : parhip_header) : Z := if ph_nw64 h then 8 else 4.
(** :38-43 parse. *)
Definition ph_parse (file : list Z) : res parhip_header :=
  let* version := rd 8 file 0 in
  let* num_nodes := rd 8 file 8 in
  let* num_edges := rd 8 file 16 in
  Ok (ph_make version num_nodes num_edges).
(** :89-105 offsets (std::size_t arithmetic). *)
Definition ph_edges_offset (h : parhip_header) : Z := wrap_u 64 (ph_kSize + (ph_n h + 1) * ph_edge_id_width h).
Definition ph_node_weights_offset (h : parhip_header) : Z :=
  wrap_u 64 (ph_kSize + (ph_n h + 1) * ph_edge_id_width h + ph_m h * ph_node_id_width h).
Definition ph_edge_weights_offset (h : parhip_header) : Z :=
  wrap_u 64 (ph_kSize + (ph_n h + 1) * ph_edge_id_width h + ph_m h * ph_node_id_width h +
             (if ph_nw h then ph_n h * ph_node_weight_width h else 0)).
(** :107-109 map_edge_offset: computed as std::size_t, returned as EdgeID. *)
Definition ph_map_edge_offset (c : ioconf) (h : parhip_header) (edge_offset : Z) : Z :=
  wrap_u (io_wi c) (wrap_u 64 (edge_offset - ph_edges_offset h) / ph_node_id_width h).
(** :111-133 validate: [Throws] stands for the message and std::exit(1). *)
Definition ph_validate (c : ioconf) (h : parhip_header) : res unit :=
  if ph_n64 h && (io_wn c =? 32) then Throws
  else if ph_e64 h && (io_wi c =? 32) then Throws
  else if ph_nw h && ph_nw64 h && (io_ww c =? 32) then Throws
  else if ph_ew h && ph_ew64 h && (io_ww c =? 32) then Throws
  else Ok tt.
(** :142-176 read: arrays are read with 4 bytes per value if the file has 32-bit values and the build has 64-bit
    values, otherwise with the size of the type of the build. *)
Definition ph_width (w : Z) (file64 : bool) : nat := if negb file64 && (w =? 64) then 4%nat else nbytes w.
Definition ph_read_nodes (c : ioconf) (h : parhip_header) (file : list Z) : res (list Z) :=
  let* raw := rd_array (ph_width (io_wi c) (ph_e64 h)) file ph_kSize (Z.to_nat (ph_n h + 1)) in
  Ok (map (ph_map_edge_offset c h) raw).
Definition ph_read_edges (c : ioconf) (h : parhip_header) (file : list Z) : res (list Z) :=
  rd_array (ph_width (io_wn c) (ph_n64 h)) file (ph_edges_offset h) (Z.to_nat (ph_m h)).
Definition ph_read_node_weights (c : ioconf) (h : parhip_header) (file : list Z) : res (list Z) :=
  if ph_nw h then
    let* raw := rd_array (ph_width (io_ww c) (ph_nw64 h)) file (ph_node_weights_offset h) (Z.to_nat (ph_n h)) in
    Ok (map (wrap_s (io_ww c)) raw)
  else Ok [].
Definition ph_read_edge_weights (c : ioconf) (h : parhip_header) (file : list Z) : res (list Z) :=
  if ph_ew h then
    let* raw := rd_array (ph_width (io_ww c) (ph_ew64 h)) file (ph_edge_weights_offset h) (Z.to_nat (ph_m h)) in
    Ok (map (wrap_s (io_ww c)) raw)
  else Ok [].
(** :183-222 csr_read. An empty file cannot be mapped ([Throws]: message and std::exit). *)
Definition parhip_csr_read (c : ioconf) (file : list Z) (sorted : bool) : res csr_graph :=
  let* file := map_file file in
  let* h := ph_parse file in
  let* _ := ph_validate c h in
  let* nodes := ph_read_nodes c h file in
  let* edges := ph_read_edges c h file in
  let* node_weights := ph_read_node_weights c h file in
  let* edge_weights := ph_read_edge_weights c h file in
  Ok (cg_make (sa_make (map Z.to_nat nodes)) (map Z.to_nat edges) (sa_make node_weights) edge_weights sorted).

(** :224-341 csr_read_deg_buckets. The arrays are read through accessors; here they are read first. The new edge array
    is filled consecutively from nodes[u] on for every u, which is the concatenation of the new neighbourhoods. *)
Definition parhip_csr_read_deg_buckets (c : ioconf) (concurrency : nat) (file : list Z) : res csr_graph :=
  let* file := map_file file in
  let* h := ph_parse file in
  let* _ := ph_validate c h in
  let* raw_nodes := ph_read_nodes c h file in
  let* raw_edges := ph_read_edges c h file in
  let* raw_node_weights := ph_read_node_weights c h file in
  let* raw_edge_weights := ph_read_edge_weights c h file in
  let xadj := map Z.to_nat raw_nodes in
  let n := Z.to_nat (ph_n h) in
  let '(perm, inv_perm) := permutation_by_degree_buckets concurrency xadj in
  let old u := nth u inv_perm 0%nat in
  let old_edges u := seq (nth (old u) xadj 0%nat) (nth (S (old u)) xadj 0 - nth (old u) xadj 0)%nat in
  let nodes := 0%nat :: prefix_sum (map (fun u => nth (S (old u)) xadj 0 - nth (old u) xadj 0)%nat (seq 0 n)) in
  let edges := concat (map (fun u => map (fun e => nth (Z.to_nat (nth e raw_edges 0)) perm 0%nat) (old_edges u)) (seq 0 n)) in
  let node_weights := if ph_nw h then map (fun u => nth (old u) raw_node_weights 0) (seq 0 n) else [] in
  let edge_weights := if ph_ew h then concat (map (fun u => map (fun e => nth e raw_edge_weights 0) (old_edges u)) (seq 0 n)) else [] in
  Ok (cg_set_permutation perm (cg_make (sa_make nodes) edges (sa_make node_weights) edge_weights true)).

(** :352-423 compressed_read ([cc ew]: the configuration of the compression). *)
Definition parhip_compressed_read (c : ioconf) (cc : bool -> cconf) (sort : list nbr -> list nbr) (file : list Z)
    : res compressed_graph :=
  let* file := map_file file in
  let* h := ph_parse file in
  let* _ := ph_validate c h in
  let* nodes := ph_read_nodes c h file in
  let* edges := ph_read_edges c h file in
  let* node_weights := ph_read_node_weights c h file in
  let* edge_weights := ph_read_edge_weights c h file in
  let neighbourhood u :=
    let offset := nth u nodes 0 in
    let degree := Z.to_nat (wrap_u (io_wn c) (nth (S u) nodes 0 - offset)) in
    map (fun i => let e := (Z.to_nat offset + i)%nat in
                  (nth e edges 0, if ph_ew h then nth e edge_weights 0 else 1)) (seq 0 degree) in
  Ok (cgr_build (cc (ph_ew h)) sort (ph_m h) (map neighbourhood (seq 0 (Z.to_nat (ph_n h))))
        (if ph_nw h then Some node_weights else None)).

(** :539-575 write. *)
Definition parhip_write (c : ioconf) (g : csr_graph) : list Z :=
  let has_node_weights := cg_is_node_weighted g in
  let has_edge_weights := cg_is_edge_weighted g in
  let w64 w := w =? 64 in
  let num_total_nodes := wrap_u (io_wn c) (Z.of_nat (cg_n g) + 1) in
  let nodes_offset_base := wrap_u (io_wi c) (ph_kSize + num_total_nodes * (io_wi c / 8)) in
  let raw_nodes := map (fun u => wrap_u (io_wi c) (nodes_offset_base + Z.of_nat (sa_get 0%nat (cg_nodes g) u) * (io_wn c / 8)))
                       (seq 0 (Z.to_nat num_total_nodes)) in
  wr_int 8 (ph_version has_edge_weights has_node_weights (w64 (io_wi c)) (w64 (io_wn c)) (w64 (io_ww c)) (w64 (io_ww c))) ++
  wr_int 8 (Z.of_nat (cg_n g)) ++ wr_int 8 (Z.of_nat (cg_m g)) ++
  wr_array (nbytes (io_wi c)) raw_nodes ++
  wr_array (nbytes (io_wn c)) (map Z.of_nat (cg_edges g)) ++
  (if has_node_weights then wr_array (nbytes (io_ww c)) (sa_list (cg_node_weights g)) else []) ++
  (if has_edge_weights then wr_array (nbytes (io_ww c)) (cg_edge_weights g) else []).

(* --------------------------------------------------------------------------- shm_compressed_graph_binary.cc *)
(** What the file stores of a compressed graph: its compact node array, the compressed edges, the node weights and the
    counters (compressed_neighborhoods.h, compressed_graph.h). *)
Record stored_graph := {
  sg_nodes : carr; sg_edges : list Z; sg_node_weights : list Z; sg_sorted : bool;
  sg_max_degree : Z; sg_num_edges : Z; sg_has_edge_weights : bool; sg_total_edge_weight : Z;
  sg_num_high_degree_nodes : Z; sg_num_high_degree_parts : Z; sg_num_interval_nodes : Z; sg_num_intervals : Z
}.
(** compressed_graph.h:93-95 n, compressed_graph.cc:19-36 the total node weight, compressed_graph.h:105-107
    is_node_weighted. *)
Definition sg_n (g : stored_graph) : Z := Z.of_nat (ca_num (sg_nodes g)) - 1.
Definition sg_is_node_weighted (g : stored_graph) : bool :=
  negb (sg_n g =? match sg_node_weights g with [] => sg_n g | _ => zsum (sg_node_weights g) end).

(** Compile-time settings compared by verify_header: widths and encodings. *)
Record bconf := { bc_io : ioconf; bc_hd : bool; bc_iv : bool; bc_sv : bool; bc_thr : Z; bc_part : Z; bc_len : Z }.
(** shm_compressed_graph_binary.h: kMagicNumber. *)
Definition kMagicNumber : Z := 4850180331074310995.
(** :20-47, :80-106 the header as the list of its fields with their sizes in bytes: flags, settings, counters. *)
Definition bh_flags (c : bconf) (g : stored_graph) : Z :=
  let b (x : bool) := if x then 1 else 0 in
  Z.lor (Z.shiftl (b (bc_sv c)) 9) (Z.lor (Z.shiftl (b (bc_iv c)) 8) (Z.lor (Z.shiftl (b (bc_hd c)) 7)
   (Z.lor (Z.shiftl (b (sg_sorted g)) 6) (Z.lor (Z.shiftl (b (io_ww (bc_io c) =? 64)) 5) (Z.lor (Z.shiftl (b (io_ww (bc_io c) =? 64)) 4)
   (Z.lor (Z.shiftl (b (io_wi (bc_io c) =? 64)) 3) (Z.lor (Z.shiftl (b (io_wn (bc_io c) =? 64)) 2)
   (Z.lor (Z.shiftl (b (sg_has_edge_weights g)) 1) (b (sg_is_node_weighted g)))))))))).
Definition bh_write (c : bconf) (g : stored_graph) : list Z :=
  wr_int 2 (bh_flags c g) ++
  wr_int 8 (bc_thr c) ++ wr_int 8 (bc_part c) ++ wr_int 8 (bc_len c) ++
  wr_int 8 (sg_n g) ++ wr_int 8 (sg_num_edges g) ++ wr_int 8 (sg_total_edge_weight g) ++ wr_int 8 (sg_max_degree g) ++
  wr_int 8 (sg_num_high_degree_nodes g) ++ wr_int 8 (sg_num_high_degree_parts g) ++
  wr_int 8 (sg_num_interval_nodes g) ++ wr_int 8 (sg_num_intervals g).
(** :108-120 write_compact_static_array (byte_width: 1 byte, memory_space: the unrestricted size), write_static_array. *)
Definition wr_compact (a : carr) : list Z := wr_int 1 (Z.of_nat (ca_bw a)) ++ wr_int 8 (Z.of_nat (ca_usize a)) ++ firstn (ca_usize a) (ca_bytes a).
Definition wr_static (k : nat) (xs : list Z) : list Z := wr_int 8 (Z.of_nat (length xs)) ++ wr_array k xs.
(** :123-136 write. *)
Definition compressed_write (c : bconf) (g : stored_graph) : list Z :=
  wr_int 8 kMagicNumber ++ bh_write c g ++ wr_compact (sg_nodes g) ++ wr_static 1 (sg_edges g) ++
  (if sg_is_node_weighted g then wr_static (nbytes (io_ww (bc_io c))) (sg_node_weights g) else []).

(** :138-142 read_int: the value and the rest of the file. *)
Definition in_int (k : nat) (r : list Z) : res (Z * list Z) :=
  match load_le k r with Some x => Ok (x, skipn k r) | None => Fault end.
Fixpoint in_array (k len : nat) (r : list Z) : res (list Z * list Z) :=
  match len with
  | O => Ok ([], r)
  | S l => let* (x, r) := in_int k r in
           let* (xs, r) := in_array k l r in
           Ok (x :: xs, r)
  end.
(** :262-270 read_compact_static_array; the size comes from the file. *)
Definition in_compact (isz : nat) (r : list Z) : res (carr * list Z) :=
  let* (bw, r) := in_int 1 r in
  let* (size, r) := in_int 8 r in
  let* (data, r) := in_array 1 (Z.to_nat size) r in
  Ok (ca_of_bytes isz (Z.to_nat bw) data, r).
(** :272-278 read_static_array. *)
Definition in_static (k : nat) (r : list Z) : res (list Z * list Z) :=
  let* (size, r) := in_int 8 r in in_array k (Z.to_nat size) r.
Definition flag (x bit : Z) : bool := negb (Z.land x bit =? 0).
(** :280-314 read with :144-155 read_header and :157-260 verify_header ([Throws]: message and std::exit). *)
Definition compressed_read (c : bconf) (file : list Z) : res stored_graph :=
  let* (magic, r) := in_int 8 file in
  if negb (kMagicNumber =? magic) then Throws else
  let* (fl, r) := in_int 2 r in
  let* (thr, r) := in_int 8 r in
  let* (part, r) := in_int 8 r in
  let* (len, r) := in_int 8 r in
  let* (num_nodes, r) := in_int 8 r in
  let* (num_edges, r) := in_int 8 r in
  let* (total, r) := in_int 8 r in
  let* (max_degree, r) := in_int 8 r in
  let* (hdn, r) := in_int 8 r in
  let* (hdp, r) := in_int 8 r in
  let* (ivn, r) := in_int 8 r in
  let* (ivs, r) := in_int 8 r in
  if negb (Bool.eqb (flag fl 4) (io_wn (bc_io c) =? 64)) then Throws
  else if negb (Bool.eqb (flag fl 8) (io_wi (bc_io c) =? 64)) then Throws
  else if negb (Bool.eqb (flag fl 16) (io_ww (bc_io c) =? 64)) then Throws
  else if negb (Bool.eqb (flag fl 32) (io_ww (bc_io c) =? 64)) then Throws
  else if negb (Bool.eqb (flag fl 128) (bc_hd c)) then Throws
  else if negb (Bool.eqb (flag fl 256) (bc_iv c)) then Throws
  else if negb (Bool.eqb (flag fl 512) (bc_sv c)) then Throws
  else if negb (thr =? bc_thr c) then Throws
  else if negb (part =? bc_part c) then Throws
  else if negb (len =? bc_len c) then Throws
  else
  let* (nodes, r) := in_compact (nbytes (io_wi (bc_io c))) r in
  let* (edges, r) := in_static 1 r in
  let* (node_weights, r) := (if flag fl 1 then in_static (nbytes (io_ww (bc_io c))) r else Ok ([], r)) in
  Ok {| sg_nodes := nodes; sg_edges := edges; sg_node_weights := map (wrap_s (io_ww (bc_io c))) node_weights;
        sg_sorted := flag fl 64; sg_max_degree := wrap_u (io_wn (bc_io c)) max_degree;
        sg_num_edges := wrap_u (io_wi (bc_io c)) num_edges; sg_has_edge_weights := flag fl 2;
        sg_total_edge_weight := wrap_s (io_ww (bc_io c)) (wrap_s 64 total);
        sg_num_high_degree_nodes := hdn; sg_num_high_degree_parts := hdp; sg_num_interval_nodes := ivn; sg_num_intervals := ivs |}.
(** :316-324 is_compressed. *)
Definition is_compressed (file : list Z) : bool :=
  match load_le 8 file with None => false | Some x => kMagicNumber =? x end.
