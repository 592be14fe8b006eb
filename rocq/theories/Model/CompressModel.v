(* Model of the compressed adjacency structure:
     kaminpar-common/graph_compression/compressed_edges_builder.h        (encoder)
     kaminpar-common/graph_compression/compressed_neighborhoods.h        (decoder)
     kaminpar-common/graph_compression/compressed_neighborhoods_builder.h
   with StreamVByte encoding switched off (the default; StreamVByte is modelled separately).
   The output memory is a list of bytes; the pointer arithmetic on it is list concatenation resp.
   dropping a prefix. [None] stands for reads outside of the data and other undefined behaviour. *)
From Verif Require Import Lib.Prelude Model.MathModel Model.VarintModel.
Local Open Scope Z_scope.

(** Template parameters and compile time switches. [c_wn], [c_wi], [c_we]: widths of NodeID, EdgeID
    and EdgeWeight; [c_hd] kHighDegreeEncoding; [c_iv] kIntervalEncoding; [c_ew] _has_edge_weights. *)
Record cconf := { c_wn : Z; c_wi : Z; c_we : Z; c_hd : bool; c_iv : bool; c_ew : bool }.

(** compressed_neighborhoods.h:83-117 kHighDegreeThreshold, kHighDegreePartLength,
    kIntervalLengthTreshold. *)
Definition kHighDegreeThreshold : Z := 10000.
Definition kHighDegreePartLength : nat := 1000.
Definition kIntervalLengthThreshold : Z := 3.

(** compressed_edges_builder.h:41 kInvalidNodeID. *)
Definition kInvalidNodeID (c : cconf) : Z := 2 ^ c_wn c - 1.

(** A neighbour and its edge weight (if the container stores plain node IDs, the weight is unused). *)
Notation nbr := (Z * Z)%type.

(** The members prev_edge_weight and _total_edge_weight that encode_edge_weight updates. *)
Definition wstate := (Z * Z)%type.

(** compressed_edges_builder.h:399-411 encode_edge_weight. The difference of two signed integers is
    undefined if it overflows; modelled as wrap-around. *)
Definition encode_edge_weight (c : cconf) (w : Z) (st : wstate) : list Z * wstate :=
  if c_ew c then
    (signed_varint_encode (c_we c) (wrap_s (c_we c) (w - fst st)), (w, wrap_s (c_we c) (snd st + w)))
  else ([], st).

(** compressed_edges_builder.h:427-459 parse_intervals: calls of the lambda, i.e. tuples
    (left_extreme, right_extreme, interval_len, index). [i] is the index of the head of [rest]. *)
Fixpoint parse_loop (wn : Z) (i : nat) (interval_len prev : Z) (rest : list nbr)
  : list (Z * Z * Z * nat) :=
  match rest with
  | [] => []
  | (a, _) :: rest' =>
      if negb (wrap_u wn (prev + 1) =? a) then parse_loop wn (S i) interval_len a rest'
      else
        let len := interval_len + 1 in
        if match rest' with [] => false | (b, _) :: _ => wrap_u wn (a + 1) =? b end
        then parse_loop wn (S i) len a rest'
        else
          (if kIntervalLengthThreshold <=? len
           then [(wrap_u wn (a - (len - 1)), a, len, (i - Z.to_nat (len - 1))%nat)] else [])
          ++ parse_loop wn (S i) 1 a rest'
  end.
Definition parse_intervals (wn : Z) (nb : list nbr) : list (Z * Z * Z * nat) :=
  if Z.of_nat (length nb) <? kIntervalLengthThreshold then []
  else match nb with [] => [] | (a, _) :: rest => parse_loop wn 1 1 a rest end.

(** compressed_edges_builder.h:461-470 count_intervals. *)
Definition count_intervals (wn : Z) (nb : list nbr) : Z := Z.of_nat (length (parse_intervals wn nb)).

(** compressed_edges_builder.h:500-511: the loop over the nodes of one interval: mark the position
    as encoded and encode its edge weight. *)
Fixpoint encode_interval_body (c : cconf) (len pos : nat) (nb : list nbr) (st : wstate)
  : list Z * wstate * list nbr :=
  match len with
  | O => ([], st, nb)
  | S len' =>
      let nb := upd pos (kInvalidNodeID c, snd (nth pos nb (0, 0))) nb in
      let '(bytes, st) := encode_edge_weight c (snd (nth pos nb (0, 0))) st in
      let '(bytes', st, nb) := encode_interval_body c len' (S pos) nb st in
      (bytes ++ bytes', st, nb)
  end.

(** compressed_edges_builder.h:485-512: the lambda passed to parse_intervals, called for every
    interval. (parse_intervals runs while the lambda overwrites the array, but the lambda only
    overwrites positions that parse_intervals has already read.) *)
Fixpoint encode_interval_list (c : cconf) (ivs : list (Z * Z * Z * nat)) (prev_right : Z)
    (nb : list nbr) (st : wstate) (remaining : Z) : list Z * wstate * list nbr * Z :=
  match ivs with
  | [] => ([], st, nb, remaining)
  | (lft, rgt, len, index) :: ivs' =>
      let left_gap := wrap_u (c_wn c) (lft - prev_right) in
      let len_gap := wrap_u (c_wn c) (len - kIntervalLengthThreshold) in
      let bytes := varint_encode (c_wn c) left_gap ++ varint_encode (c_wn c) len_gap in
      let '(bytes', st, nb) := encode_interval_body c (Z.to_nat len) index nb st in
      let '(bytes'', st, nb, remaining) :=
        encode_interval_list c ivs' (wrap_u (c_wn c) (rgt + 2)) nb st (remaining - len) in
      (bytes ++ bytes' ++ bytes'', st, nb, remaining)
  end.

(** compressed_edges_builder.h:472-517 encode_intervals. *)
Definition encode_intervals (c : cconf) (num_intervals : Z) (nb : list nbr) (st : wstate)
  : list Z * wstate * list nbr * Z :=
  let remaining := Z.of_nat (length nb) in
  if 0 <? num_intervals then
    let '(bytes, st, nb, remaining) :=
      encode_interval_list c (parse_intervals (c_wn c) nb) 0 nb st remaining in
    (varint_encode (c_wn c) (num_intervals - 1) ++ bytes, st, nb, remaining)
  else ([], st, nb, remaining).

(** compressed_edges_builder.h:530-533: skip the nodes that are part of an interval. *)
Fixpoint skip_invalid (c : cconf) (nb : list nbr) : list nbr :=
  match nb with
  | [] => []
  | (v, w) :: nb' => if v =? kInvalidNodeID c then skip_invalid c nb' else nb
  end.

(** compressed_edges_builder.h:588-607: the gap encoding loop. *)
Fixpoint encode_gap_loop (c : cconf) (prev : Z) (nb : list nbr) (st : wstate) : list Z * wstate :=
  match nb with
  | [] => ([], st)
  | (v, w) :: nb' =>
      if v =? kInvalidNodeID c then encode_gap_loop c prev nb' st
      else
        let gap := wrap_u (c_wn c) (v - prev - 1) in
        let '(bytes, st) := encode_edge_weight c w st in
        let '(bytes', st) := encode_gap_loop c v nb' st in
        (varint_encode (c_wn c) gap ++ bytes ++ bytes', st)
  end.

(** compressed_edges_builder.h:519-608 encode_gaps. SignedNodeID is std::int64_t. *)
Definition encode_gaps (c : cconf) (node degree : Z) (nb : list nbr) (st : wstate) : list Z * wstate :=
  if degree =? 0 then ([], st)
  else match skip_invalid c nb with
       | [] => ([], st)
       | (v, w) :: nb' =>
           let '(bytes, st) := encode_edge_weight c w st in
           let '(bytes', st) := encode_gap_loop c v nb' st in
           (signed_varint_encode 64 (wrap_s 64 (v - node)) ++ bytes ++ bytes', st)
       end.

(** compressed_edges_builder.h:413-425 add_edges; prev_edge_weight starts at 0 ([tot] is
    _total_edge_weight). *)
Definition add_edges (c : cconf) (node num_intervals : Z) (nb : list nbr) (tot : Z) : list Z * Z :=
  let st := (0, tot) in
  if c_iv c then
    let '(bytes, st, nb, remaining) := encode_intervals c num_intervals nb st in
    let '(bytes', st) := encode_gaps c node remaining nb st in
    (bytes ++ bytes', snd st)
  else
    let '(bytes, st) := encode_gaps c node (Z.of_nat (length nb)) nb st in
    (bytes, snd st).

(** Little-endian store of a [k]-byte integer. *)
Fixpoint store_le (k : nat) (x : Z) : list Z :=
  match k with O => [] | S k' => x mod 256 :: store_le k' (x / 256) end.

Definition id_bytes (c : cconf) : nat := Z.to_nat (c_wn c / 8).

(** compressed_edges_builder.h:232-238, 242-244: number of parts and the [i]-th part. *)
Definition num_parts (degree : nat) : nat :=
  N.to_nat (div_ceil (N.of_nat degree) (N.of_nat kHighDegreePartLength)).
Definition part_of (nb : list nbr) (i : nat) : list nbr :=
  let degree := length nb in
  let last_part_length := N.to_nat (mod_ceil (N.of_nat degree) (N.of_nat kHighDegreePartLength)) in
  let part_length := if Nat.eqb (i + 1) (num_parts degree) then last_part_length else kHighDegreePartLength in
  firstn part_length (skipn (i * kHighDegreePartLength) nb).

(** compressed_edges_builder.h:241-263: the loop over the parts. [offset] is the distance of
    _cur_compressed_edges from part_ptr; the result is the offset table and the data behind it. *)
Fixpoint encode_part_loop (c : cconf) (node : Z) (nb : list nbr) (parts : list nat) (offset tot : Z)
  : list Z * list Z * Z :=
  match parts with
  | [] => ([], [], tot)
  | i :: parts' =>
      let part := part_of nb i in
      let num_intervals := if c_iv c then count_intervals (c_wn c) part else 0 in
      let entry := wrap_u (c_wn c) offset in
      let entry := if 0 <? num_intervals then Z.lor entry (2 ^ (c_wn c - 1)) else entry in
      let '(data, tot) := add_edges c node num_intervals part tot in
      let '(table', data', tot) :=
        encode_part_loop c node nb parts' (offset + Z.of_nat (length data)) tot in
      (store_le (id_bytes c) entry ++ table', data ++ data', tot)
  end.

(** compressed_edges_builder.h:185-276 add, after the neighbourhood has been sorted: the bytes
    written for [node] and the new _total_edge_weight. *)
Definition add_sorted (c : cconf) (node : Z) (nb : list nbr) (tot : Z) : list Z * Z :=
  let degree := length nb in
  if Nat.eqb degree 0 then ([], tot)
  else
    let split := c_hd c && (kHighDegreeThreshold <=? Z.of_nat degree) in
    let num_intervals := if c_iv c && negb split then count_intervals (c_wn c) nb else 0 in
    let header :=
      if c_iv c then marked_varint_encode (c_wn c) (Z.of_nat degree) (0 <? num_intervals)
      else varint_encode (c_wn c) (Z.of_nat degree) in
    if split then
      let np := num_parts degree in
      let '(table, data, tot) :=
        encode_part_loop c node nb (seq 0 np) (Z.of_nat (id_bytes c * np)) tot in
      (header ++ table ++ data, tot)
    else
      let '(bytes, tot) := add_edges c node num_intervals nb tot in
      (header ++ bytes, tot).

(** * Decoder *)
Section Decode.
Context {S : Type}.
Variable c : cconf.
(** The callback: consumes a neighbour and a weight, returns the new state of the caller and
    whether to stop. *)
Variable cb : S -> Z -> Z -> S * bool.

(** State of the decoder: remaining bytes, prev_edge_weight, state of the caller. *)
Definition dstate := (list Z * Z * S)%type.

(** compressed_neighborhoods.h:18-47 INVOKE_CALLBACK: decode the weight (or use weight 1,
    compressed_neighborhoods.h:410-414) and invoke the callback. *)
Definition invoke_callback (v : Z) (st : dstate) : option (dstate * bool) :=
  let '(data, prev, s) := st in
  if c_ew c then
    match signed_varint_decode (c_we c) data with
    | None => None
    | Some (gap, data) =>
        let w := wrap_s (c_we c) (gap + prev) in
        let '(s, stop) := cb s v w in
        Some (data, w, s, stop)
    end
  else
    let '(s, stop) := cb s v 1 in Some (data, prev, s, stop).

(** compressed_neighborhoods.h:539-547: the nodes left + j, ..., left + j + count - 1 of an interval. *)
Fixpoint decode_interval (lft : Z) (j count : nat) (st : dstate) : option (dstate * bool) :=
  match count with
  | O => Some (st, false)
  | Datatypes.S count' =>
      match invoke_callback (wrap_u (c_wn c) (lft + Z.of_nat j)) st with
      | None => None
      | Some (st, true) => Some (st, true)
      | Some (st, false) => decode_interval lft (Datatypes.S j) count' st
      end
  end.

(** compressed_neighborhoods.h:527-551: the do-while loop over the intervals. (A loop counter that
    wraps around to 0 cannot be produced by the encoder and is not modelled.) *)
Fixpoint decode_interval_list (num_intervals : nat) (prev_right remaining : Z) (st : dstate)
  : option (dstate * Z * bool) :=
  match num_intervals with
  | O => Some (st, remaining, false)
  | Datatypes.S n =>
      let '(data, prev, s) := st in
      match varint_decode (c_wn c) data with
      | None => None
      | Some (left_gap, data) =>
          match varint_decode (c_wn c) data with
          | None => None
          | Some (len_gap, data) =>
              let lft := wrap_u (c_wn c) (left_gap + prev_right) in
              let len := wrap_u (c_wn c) (len_gap + kIntervalLengthThreshold) in
              let prev_right := wrap_u (c_wn c) (lft + (len - 1) + 2) in
              match decode_interval lft 0 (Z.to_nat len) (data, prev, s) with
              | None => None
              | Some (st, true) => Some (st, remaining, true)
              | Some (st, false) => decode_interval_list n prev_right (wrap_u (c_wn c) (remaining - len)) st
              end
          end
      end
  end.

(** compressed_neighborhoods.h:597-607: the gap decoding loop. *)
Fixpoint decode_gap_loop (remaining : nat) (prev_node : Z) (st : dstate) : option (dstate * bool) :=
  match remaining with
  | O => Some (st, false)
  | Datatypes.S r =>
      let '(data, prev, s) := st in
      match varint_decode (c_wn c) data with
      | None => None
      | Some (gap, data) =>
          let v := wrap_u (c_wn c) (gap + prev_node + 1) in
          match invoke_callback v (data, prev, s) with
          | None => None
          | Some (st, true) => Some (st, true)
          | Some (st, false) => decode_gap_loop r v st
          end
      end
  end.

(** compressed_neighborhoods.h:503-610 decode_edges: final state of the caller and whether to stop. *)
Definition decode_edges (data : list Z) (node degree : Z) (has_intervals : bool) (s : S)
  : option (S * bool) :=
  let decode_rest (remaining : Z) (st : dstate) :=
    let '(data, prev, s) := st in
    match signed_varint_decode 64 data with
    | None => None
    | Some (first_gap, data) =>
        let first := wrap_u (c_wn c) (first_gap + node) in
        match invoke_callback first (data, prev, s) with
        | None => None
        | Some ((_, _, s), true) => Some (s, true)
        | Some (st, false) =>
            match decode_gap_loop (Z.to_nat (wrap_u (c_wn c) (remaining - 1))) first st with
            | None => None
            | Some ((_, _, s), stop) => Some (s, stop)
            end
        end
    end in
  if c_iv c && has_intervals then
    match varint_decode (c_wn c) data with
    | None => None
    | Some (n, data) =>
        let num_intervals := wrap_u (c_wn c) (n + 1) in
        if num_intervals =? 0 then None
        else match decode_interval_list (Z.to_nat num_intervals) 0 degree (data, 0, s) with
             | None => None
             | Some ((_, _, s), _, true) => Some (s, true)
             | Some (st, remaining, false) =>
                 if remaining =? 0 then Some (snd st, false) else decode_rest remaining st
             end
    end
  else decode_rest degree (data, 0, s).

(** compressed_neighborhoods.h:464-489: decode_part (the lambda in decode_parts). *)
Definition decode_part (data : list Z) (node : Z) (degree part : nat) (s : S) : option (S * bool) :=
  match load_le (id_bytes c) (skipn (id_bytes c * part) data) with
  | None => None
  | Some offset =>
      let has_intervals := c_iv c && negb (Z.land offset (2 ^ (c_wn c - 1)) =? 0) in
      let offset := if c_iv c then Z.land offset (2 ^ c_wn c - 1 - 2 ^ (c_wn c - 1)) else offset in
      let part_degree := if Nat.eqb (part + 1) (num_parts degree) then (degree - part * kHighDegreePartLength)%nat
                         else kHighDegreePartLength in
      if Z.of_nat (length data) <? offset then None
      else decode_edges (skipn (Z.to_nat offset) data) node (Z.of_nat part_degree) has_intervals s
  end.

(** compressed_neighborhoods.h:494-500: the sequential loop over the parts. *)
Fixpoint decode_parts (data : list Z) (node : Z) (degree : nat) (parts : list nat) (s : S)
  : option (S * bool) :=
  match parts with
  | [] => Some (s, false)
  | p :: parts' =>
      match decode_part data node degree p s with
      | None => None
      | Some (s, true) => Some (s, true)
      | Some (s, false) => decode_parts data node degree parts' s
      end
  end.

(** compressed_neighborhoods.h:421-461 decode, behind the test for isolated nodes; [data] starts at
    the node's offset. *)
Definition decode_node (data : list Z) (node : Z) (s : S) : option (S * bool) :=
  match (if c_iv c then marked_varint_decode (c_wn c) data
         else match varint_decode (c_wn c) data with None => None | Some (d, r) => Some (d, false, r) end) with
  | None => None
  | Some (degree, has_intervals, data) =>
      if c_hd c && (kHighDegreeThreshold <=? degree) then
        decode_parts data node (Z.to_nat degree) (seq 0 (num_parts (Z.to_nat degree))) s
      else decode_edges data node degree has_intervals s
  end.

(** compressed_neighborhoods.h:492-493: tbb::parallel_for over the parts, executed in the order
    [parts] (a callback that asks to stop only ends its own part). Simplification: the calls of the
    callback for different parts are not interleaved. *)
Fixpoint decode_parts_par (data : list Z) (node : Z) (degree : nat) (parts : list nat) (s : S) : option S :=
  match parts with
  | [] => Some s
  | p :: parts' =>
      match decode_part data node degree p s with
      | None => None
      | Some (s, _) => decode_parts_par data node degree parts' s
      end
  end.
(** compressed_neighborhoods.h:427-468 decode with kParallel; [sched] gives the order in which the
    parts are executed. *)
Definition decode_node_par (sched : nat -> list nat) (data : list Z) (node : Z) (s : S) : option S :=
  match (if c_iv c then marked_varint_decode (c_wn c) data
         else match varint_decode (c_wn c) data with None => None | Some (d, r) => Some (d, false, r) end) with
  | None => None
  | Some (degree, has_intervals, data) =>
      if c_hd c && (kHighDegreeThreshold <=? degree) then
        decode_parts_par data node (Z.to_nat degree) (sched (num_parts (Z.to_nat degree))) s
      else match decode_edges data node degree has_intervals s with None => None | Some (s, _) => Some s end
  end.
End Decode.
Arguments dstate : clear implicits.

(** compressed_neighborhoods.h: CompressedNeighborhoods. (CompactStaticArray _nodes is modelled as
    an array; its fixed-width packing is a separate property.) *)
Record cneighborhoods := {
  cn_nodes : list Z;
  cn_edges : list Z;
  cn_max_degree : Z;
  cn_num_edges : Z;
  cn_has_edge_weights : bool;
  cn_total_edge_weight : Z
}.

(** compressed_neighborhoods.h:236-252 degree. *)
Definition cn_degree (c : cconf) (g : cneighborhoods) (u : nat) : option Z :=
  let from := nth u (cn_nodes g) 0 in
  let to := nth (u + 1) (cn_nodes g) 0 in
  if from =? to then Some 0
  else
    let data := skipn (Z.to_nat from) (cn_edges g) in
    if c_iv c then
      match marked_varint_decode (c_wn c) data with None => None | Some (d, _, _) => Some d end
    else match varint_decode (c_wn c) data with None => None | Some (d, _) => Some d end.

(** compressed_neighborhoods.h:260-262 adjacent_nodes via 399-419 decode_adjacent_nodes. *)
Definition cn_adjacent_nodes {S} (c : cconf) (g : cneighborhoods) (u : nat)
    (cb : S -> Z -> Z -> S * bool) (s : S) : option S :=
  let from := nth u (cn_nodes g) 0 in
  let to := nth (u + 1) (cn_nodes g) 0 in
  if from =? to then Some s
  else match decode_node c cb (skipn (Z.to_nat from) (cn_edges g)) (Z.of_nat u) s with
       | None => None | Some (s, _) => Some s end.

(** compressed_neighborhoods.h:272-306 adjacent_nodes with a maximum number of neighbours; the
    counter (1-based) is part of the caller's state. *)
Definition cn_adjacent_nodes_max {S} (c : cconf) (g : cneighborhoods) (u : nat) (max_num : Z)
    (cb : S -> Z -> Z -> S * bool) (s : S) : option S :=
  let invoke_and_check (cs : Z * S) (v w : Z) :=
    let abort := max_num <=? fst cs in
    let '(s, stop) := cb (snd cs) v w in
    ((fst cs + 1, s), abort || stop) in
  match cn_adjacent_nodes c g u invoke_and_check (1, s) with
  | None => None | Some cs => Some (snd cs) end.

(** compressed_neighborhoods.h:304-306 parallel_adjacent_nodes. *)
Definition cn_parallel_adjacent_nodes {S} (c : cconf) (g : cneighborhoods) (u : nat) (sched : nat -> list nat)
    (cb : S -> Z -> Z -> S * bool) (s : S) : option S :=
  let from := nth u (cn_nodes g) 0 in
  let to := nth (u + 1) (cn_nodes g) 0 in
  if from =? to then Some s
  else decode_node_par c cb sched (skipn (Z.to_nat from) (cn_edges g)) (Z.of_nat u) s.

(** compressed_neighborhoods_builder.h:60-65 add, compressed_edges_builder.h:185-276: adding the
    nodes 0, 1, ... in order. [sort] is std::sort with the comparison by node ID. The state is the
    data written so far, the offsets written so far (EdgeID, i.e. modulo 2^c_wi) and
    _total_edge_weight. *)
Fixpoint build_loop (c : cconf) (sort : list nbr -> list nbr) (node : nat) (nbs : list (list nbr))
    (data : list Z) (tot : Z) : list Z * list Z * Z :=
  match nbs with
  | [] => ([], data, tot)
  | nb :: nbs' =>
      let offset := wrap_u (c_wi c) (Z.of_nat (length data)) in
      let '(bytes, tot) := add_sorted c (Z.of_nat node) (sort nb) tot in
      let '(offsets, data, tot) := build_loop c sort (Datatypes.S node) nbs' (data ++ bytes) tot in
      (offset :: offsets, data, tot)
  end.

(** compressed_neighborhoods_builder.h:73-107 build (and the constructor 31-47; max_degree() is the
    member _max_degree, which init sets to 0 and which is never updated). *)
Definition cn_build (c : cconf) (sort : list nbr -> list nbr) (num_edges : Z) (nbs : list (list nbr)) : cneighborhoods :=
  let '(offsets, data, tot) := build_loop c sort 0 nbs [] 0 in
  {| cn_nodes := offsets ++ [wrap_u (c_wi c) (Z.of_nat (length data))];
     cn_edges := data;
     cn_max_degree := 0;
     cn_num_edges := num_edges;
     cn_has_edge_weights := c_ew c;
     cn_total_edge_weight := if c_ew c then tot else wrap_s (c_we c) num_edges |}.

(** compressed_edges_builder.h:62-91 compressed_edge_array_max_size (size_t arithmetic, no overflow
    modelled; num_nodes + 1 is computed on NodeID). [actual] is kActualNumEdges. *)
Definition compressed_edge_array_max_size (c : cconf) (actual : bool) (num_nodes num_edges : Z) : Z :=
  let node_id_width := signed_varint_length_u (c_wn c) num_nodes in
  let edge_id_width :=
    if actual then
      if c_iv c then marked_varint_length (c_wi c) num_edges else varint_length (c_wi c) num_edges
    else varint_max_length (c_wi c) in
  wrap_u (c_wn c) (num_nodes + 1) * edge_id_width + num_edges * node_id_width
  + (if c_hd c then num_nodes * varint_max_length (c_wn c)
                    + (num_edges / Z.of_nat kHighDegreePartLength) * varint_max_length (c_wn c) else 0)
  + (if c_ew c then num_edges * varint_max_length (c_we c) else 0).
