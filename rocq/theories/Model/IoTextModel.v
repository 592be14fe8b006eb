(* Model of the text file formats of the command line applications:
     apps/io/file_toker.h        (tokenizer over a memory mapped file)
     apps/io/shm_metis_parser.cc (METIS graphs)
     apps/io/shm_io.cc:96-164    (partition, block size and remapping files)
   A file is a list of bytes. The tokenizer's position is represented by the bytes from the position on. *)
From Verif Require Import Lib.Prelude Model.MathModel Model.VarintModel Model.CsrModel Model.CompressModel Model.CompressedGraphModel.
Local Open Scope Z_scope.

(** Outcomes: [Assert] a violated KASSERT (undefined in builds without assertions), [Fault] an access outside of
    an array or of the mapped pages, [Throws] an exception, [Stuck] a loop of the model ran out of fuel (the
    theorems show that this does not happen). *)
Inductive res (A : Type) : Type := Ok (a : A) | Assert | Fault | Throws | Stuck.
Arguments Ok {A}. Arguments Assert {A}. Arguments Fault {A}. Arguments Throws {A}. Arguments Stuck {A}.
Definition bind {A B} (x : res A) (f : A -> res B) : res B :=
  match x with Ok a => f a | Assert => Assert | Fault => Fault | Throws => Throws | Stuck => Stuck end.
Notation "'let*' p := x 'in' k" := (bind x (fun p => k)) (at level 200, p pattern, x at level 100, k at level 200).
Definition kassert {A} (b : bool) (k : res A) : res A := if b then k else Assert.

(** The characters used: newline, space, '%', '0', '1'. *)
Definition ch_nl : Z := 10.
Definition ch_sp : Z := 32.
Definition ch_pct : Z := 37.
Definition ch_0 : Z := 48.
Definition ch_1 : Z := 49.
(** std::isdigit. *)
Definition is_digit (b : Z) : bool := (48 <=? b) && (b <=? 57).

(** Build configuration: widths of NodeID, EdgeID and of NodeWeight / EdgeWeight (kaminpar.h:41-62), and the
    page size of the system. *)
Record ioconf := { io_wn : Z; io_wi : Z; io_ww : Z; io_page : Z }.

(* --------------------------------------------------------------------------------------------- file_toker.h *)
(** :36-57 the constructor: mmap fails with EINVAL for length 0. *)
Definition map_file (file : list Z) : res (list Z) := match file with [] => Throws | _ => Ok file end.

(** :70-74 skip_spaces. *)
Fixpoint skip_spaces (r : list Z) : list Z :=
  match r with b :: t => if b =? ch_sp then skip_spaces t else r | [] => [] end.
(** :76-84 skip_line. *)
Fixpoint skip_line (r : list Z) : list Z :=
  match r with b :: t => if b =? ch_nl then t else skip_line t | [] => [] end.
(** :90-94 the loop of scan_uint (std::uint64_t arithmetic). *)
Fixpoint scan_digits (number : Z) (r : list Z) : Z * list Z :=
  match r with
  | b :: t => if is_digit b then scan_digits (wrap_u 64 (number * 10 + (b - ch_0))) t else (number, r)
  | [] => (number, [])
  end.
(** :86-98 scan_uint. *)
Definition scan_uint (r : list Z) : res (Z * list Z) :=
  match r with
  | b :: _ => if is_digit b then let '(n, r) := scan_digits 0 r in Ok (n, skip_spaces r) else Assert
  | [] => Assert
  end.
(** :124-131 consume_char. *)
Definition consume_char (ch : Z) (r : list Z) : res (list Z) :=
  match r with b :: t => if b =? ch then Ok t else Assert | [] => Assert end.

Section Toker.
Variable c : ioconf.
(** Length of the file (_length). *)
Variable len : Z.
(** :155-157 current. It does not check the position: behind the last byte of the file, the rest of the last
    mapped page reads as zeros, and there is no such rest if the length is a multiple of the page size. *)
Definition current (r : list Z) : res Z :=
  match r with
  | b :: _ => Ok b
  | [] => if len mod io_page c =? 0 then Fault else Ok 0
  end.

(* --------------------------------------------------------------------------------------- shm_metis_parser.cc *)
(** :25-30 MetisHeader. *)
Record metis_header := { mh_n : Z; mh_m : Z; mh_nw : bool; mh_ew : bool }.

(** :34-37, :92-95 while (toker.current() == '%') { skip_line; skip_spaces }. *)
Fixpoint skip_comments (fuel : nat) (r : list Z) : res (list Z) :=
  let* b := current r in
  if b =? ch_pct then
    match fuel with O => Stuck | S f => skip_comments f (skip_spaces (skip_line r)) end
  else Ok r.

(** :32-76 parse_header (the warnings are not modelled). *)
Definition parse_header (r : list Z) : res (metis_header * list Z) :=
  let* r := skip_comments (length r) (skip_spaces r) in
  let* (num_nodes, r) := scan_uint r in
  let* (num_edges, r) := scan_uint r in
  let* b := current r in
  let* (format, r) := (if negb (b =? ch_nl) then scan_uint r else Ok (0, r)) in
  let* r := consume_char ch_nl r in
  kassert (num_nodes <=? 2 ^ io_wn c - 1) (
  kassert (num_edges <=? 2 ^ io_wi c - 1) (
  kassert (num_edges <=? wrap_u 64 (num_nodes * wrap_u 64 (num_nodes - 1)) / 2) (
  Ok ({| mh_n := num_nodes; mh_m := num_edges;
         mh_nw := negb ((format mod 100) / 10 =? 0); mh_ew := negb (format mod 10 =? 0) |}, r)))).

Section Parse.
Variable St : Type.
Variable header : metis_header.
(** next_node_cb and next_edge_cb (the latter with the arguments in the order of the code: weight, node). The
    callback of compress_read, which may ask to stop, never does. *)
Variable next_node : St -> Z -> res St.
Variable next_edge : St -> Z -> Z -> res St.

(** :116-134 the edges of node [u]. *)
Fixpoint parse_edges (fuel : nat) (u : Z) (r : list Z) (s : St) : res (list Z * St) :=
  let* b := current r in
  if is_digit b then
    match fuel with
    | O => Stuck
    | S f =>
        let* (x, r) := scan_uint r in
        let v := wrap_u 64 (x - 1) in
        let* (w, r) := (if mh_ew header then
                          let* (w, r) := scan_uint r in
                          kassert (w <=? 2 ^ (io_ww c - 1) - 1) (kassert (0 <? w) (Ok (w, r)))
                        else Ok (1, r)) in
        kassert (v <? mh_n header) (
        kassert (negb (u =? v)) (
        let* s := next_edge s w v in
        parse_edges f u r s))
    end
  else Ok (r, s).

(** :90-139 the nodes [u], [u] + 1, ... ([count] of them). *)
Fixpoint parse_nodes (count : nat) (u : Z) (r : list Z) (s : St) : res (list Z * St) :=
  match count with
  | O => Ok (r, s)
  | S cnt =>
      let* r := skip_comments (length r) (skip_spaces r) in
      let* (w, r) := (if mh_nw header then
                        let* (w, r) := scan_uint r in
                        kassert (w <=? 2 ^ (io_ww c - 1) - 1) (kassert (0 <? w) (Ok (w, r)))
                      else Ok (1, r)) in
      let* s := next_node s w in
      let* (r, s) := parse_edges (length r) u r s in
      let* r := (match r with [] => Ok [] | _ => consume_char ch_nl r end) in
      parse_nodes cnt (u + 1) r s
  end.

(** :142-144 trailing comments. *)
Fixpoint skip_trailing (fuel : nat) (r : list Z) : res (list Z) :=
  let* b := current r in
  if b =? ch_pct then match fuel with O => Stuck | S f => skip_trailing f (skip_line r) end
  else Ok r.

(** :78-150 parse_graph. *)
Definition parse_graph (r : list Z) (s : St) : res St :=
  let* (r, s) := parse_nodes (Z.to_nat (mh_n header)) 0 r s in
  let* _ := skip_trailing (length r) r in
  Ok s.
End Parse.

(** :171-200 the variables captured by the callbacks of csr_read. The arrays are allocated uninitialised and
    filled from the front, hence they are represented by the part that is filled (last element first), with a
    check against their size; nodes has the size n + 1. *)
Record csr_st := { cs_u : Z; cs_e : Z; cs_nodes : list Z; cs_edges : list Z; cs_nw : list Z; cs_ew : list Z;
                   cs_tnw : Z; cs_tew : Z }.
Definition csr_init : csr_st :=
  {| cs_u := 0; cs_e := 0; cs_nodes := []; cs_edges := []; cs_nw := []; cs_ew := []; cs_tnw := 0; cs_tew := 0 |}.
(** :180-189. *)
Definition csr_next_node (h : metis_header) (s : csr_st) (weight : Z) : res csr_st :=
  if cs_u s <? mh_n h + 1 then
    if negb (mh_nw h) || (cs_u s <? mh_n h) then
      Ok {| cs_u := wrap_u (io_wn c) (cs_u s + 1); cs_e := cs_e s; cs_nodes := cs_e s :: cs_nodes s; cs_edges := cs_edges s;
            cs_nw := if mh_nw h then wrap_s (io_ww c) weight :: cs_nw s else cs_nw s; cs_ew := cs_ew s;
            cs_tnw := if mh_nw h then wrap_s 64 (cs_tnw s + weight) else cs_tnw s; cs_tew := cs_tew s |}
    else Fault
  else Fault.
(** :190-199. *)
Definition csr_next_edge (h : metis_header) (s : csr_st) (weight v : Z) : res csr_st :=
  if cs_e s <? mh_m h * 2 then
    Ok {| cs_u := cs_u s; cs_e := wrap_u (io_wi c) (cs_e s + 1); cs_nodes := cs_nodes s;
          cs_edges := wrap_u (io_wn c) v :: cs_edges s; cs_nw := cs_nw s;
          cs_ew := if mh_ew h then wrap_s (io_ww c) weight :: cs_ew s else cs_ew s;
          cs_tnw := cs_tnw s; cs_tew := if mh_ew h then wrap_s 64 (cs_tew s + weight) else cs_tew s |}
  else Fault.
End Toker.

(** :154-231 csr_read. *)
Definition metis_csr_read (c : ioconf) (file : list Z) (sorted : bool) : res csr_graph :=
  let* r := map_file file in
  let len := Z.of_nat (length file) in
  let* (h, r) := parse_header c len r in
  let* s := parse_graph c len csr_st h (csr_next_node c h) (csr_next_edge c h) r csr_init in
  kassert (cs_u s + 1 =? mh_n h + 1) (
  kassert (cs_e s =? mh_m h * 2) (
  let nodes := rev (cs_e s :: cs_nodes s) in
  let unit_node_weights := mh_nw h && (wrap_u (io_wn c) (cs_tnw s + 1) =? mh_n h + 1) in
  let node_weights := if unit_node_weights then [] else rev (cs_nw s) in
  let unit_edge_weights := mh_ew h && (wrap_u (io_wi c) (cs_tew s) =? mh_m h * 2) in
  let edge_weights := if unit_edge_weights then [] else rev (cs_ew s) in
  kassert (cs_tnw s <=? 2 ^ (io_ww c - 1) - 1) (
  kassert (cs_tew s <=? 2 ^ (io_ww c - 1) - 1) (
  Ok (cg_make (sa_make (map Z.to_nat nodes)) (map Z.to_nat (rev (cs_edges s))) (sa_make node_weights) edge_weights sorted))))).

(** :252-277 the variables captured by the callbacks of compress_read: the number of nodes seen, the neighbourhood
    of the current node and the neighbourhoods and weights passed to the builder so far (last first; the builder
    adds them in this order, Model/CompressedGraphModel.v). *)
Record comp_st := { co_node : Z; co_cur : list nbr; co_nbs : list (list nbr); co_nw : list Z }.
Definition comp_next_node (h : metis_header) (s : comp_st) (weight : Z) : res comp_st :=
  let nbs := if 0 <? co_node s then rev (co_cur s) :: co_nbs s else co_nbs s in
  let cur := if 0 <? co_node s then [] else co_cur s in
  Ok {| co_node := co_node s + 1; co_cur := cur; co_nbs := nbs; co_nw := if mh_nw h then weight :: co_nw s else co_nw s |}.
Definition comp_next_edge (s : comp_st) (weight v : Z) : res comp_st :=
  Ok {| co_node := co_node s; co_cur := (v, weight) :: co_cur s; co_nbs := co_nbs s; co_nw := co_nw s |}.
(** :233-293 compress_read. Adding the last node is out of bounds if there is none (node - 1). [cc] are the
    compile time switches of the compression; whether edge weights are stored is up to the header. The final
    assertions on the total weights are not modelled. *)
Definition metis_compress_read (c : ioconf) (cc : bool -> cconf) (sort : list nbr -> list nbr) (file : list Z) : res compressed_graph :=
  let* r := map_file file in
  let len := Z.of_nat (length file) in
  let* (h, r) := parse_header c len r in
  let* s := parse_graph c len comp_st h (comp_next_node h) comp_next_edge r {| co_node := 0; co_cur := []; co_nbs := []; co_nw := [] |} in
  if co_node s =? 0 then Fault
  else Ok (cgr_build (cc (mh_ew h)) sort (mh_m h * 2) (rev (rev (co_cur s) :: co_nbs s)) (if mh_nw h then Some (rev (co_nw s)) else None)).

(** operator<< of std::ofstream for integers: decimal digits, most significant first. *)
Fixpoint dec_loop (fuel : nat) (v : Z) (acc : list Z) : list Z :=
  match fuel with
  | O => acc
  | S f => let acc := (ch_0 + v mod 10) :: acc in if v / 10 =? 0 then acc else dec_loop f (v / 10) acc
  end.
Definition dec (v : Z) : list Z :=
  if v <? 0 then 45 :: dec_loop (Z.to_nat (Z.log2 (- v)) + 1) (- v) [] else dec_loop (Z.to_nat (Z.log2 v) + 1) v [].

(** :310-324 one line of the output. *)
Definition write_node (c : ioconf) (g : csr_graph) (u : nat) : list Z :=
  (if cg_is_node_weighted g then dec (cg_node_weight g u) ++ [ch_sp] else []) ++
  concat (map (fun vw => dec (wrap_u (io_wn c) (Z.of_nat (fst vw) + 1)) ++ [ch_sp] ++
                         (if cg_is_edge_weighted g then dec (snd vw) ++ [ch_sp] else []))
              (cg_adjacent_nodes g u)) ++ [ch_nl].
(** :295-325 write. *)
Definition metis_write (c : ioconf) (g : csr_graph) : list Z :=
  dec (Z.of_nat (cg_n g)) ++ [ch_sp] ++ dec (Z.of_nat (cg_m g) / 2) ++
  (if cg_is_node_weighted g || cg_is_edge_weighted g then
     [ch_sp] ++ (if cg_is_node_weighted g then [ch_1] else []) ++ [if cg_is_edge_weighted g then ch_1 else ch_0]
   else []) ++ [ch_nl] ++
  concat (map (write_node c g) (seq 0 (cg_n g))).

(* ------------------------------------------------------------------------------------------------ shm_io.cc *)
(** :96-101 partition::write, :157-162 remapping::write. *)
Definition write_lines (l : list Z) : list Z := concat (map (fun b => dec b ++ [ch_nl]) l).
Definition partition_write : list Z -> list Z := write_lines.
Definition remapping_write : list Z -> list Z := write_lines.

(** :107-111, :135-139 while (valid_position()) { push_back(scan_uint()); consume_char('\n') }; the values are
    converted to the element type of the vector, [w] bits wide. *)
Fixpoint read_lines (w : Z) (fuel : nat) (r : list Z) : res (list Z) :=
  match r with
  | [] => Ok []
  | _ => match fuel with
         | O => Stuck
         | S f =>
             let* (x, r) := scan_uint r in
             let* r := consume_char ch_nl r in
             let* l := read_lines w f r in
             Ok (wrap_u w x :: l)
         end
  end.
(** :103-114 partition::read (BlockID has 32 bits). *)
Definition partition_read (file : list Z) : res (list Z) :=
  let* r := map_file file in read_lines 32 (length r) r.

(** :119-122 counting the nodes of each block. *)
Fixpoint count_blocks (wn : Z) (partition : list Z) (sizes : list Z) : res (list Z) :=
  match partition with
  | [] => Ok sizes
  | b :: p => match nth_error sizes (Z.to_nat b) with
              | None => Fault
              | Some x => count_blocks wn p (upd (Z.to_nat b) (wrap_u wn (x + 1)) sizes)
              end
  end.
(** :116-128 write_block_sizes; the sizes are printed through a variable of type BlockID. *)
Definition write_block_sizes (c : ioconf) (k : nat) (partition : list Z) : res (list Z) :=
  let* sizes := count_blocks (io_wn c) partition (repeat 0 k) in
  Ok (write_lines (map (wrap_u 32) sizes)).

(** :146-153 filling the partition: [rest] entries are not filled yet. *)
Fixpoint fill_blocks (block : Z) (sizes : list Z) (rest : Z) : res (list Z) :=
  match sizes with
  | [] => Ok (repeat 0 (Z.to_nat rest))
  | x :: l => if x <=? rest
              then let* t := fill_blocks (wrap_u 32 (block + 1)) l (rest - x) in Ok (repeat block (Z.to_nat x) ++ t)
              else Fault
  end.
(** :130-155 read_block_sizes; std::accumulate computes in the type of its initial value, int. *)
Definition read_block_sizes (c : ioconf) (file : list Z) : res (list Z) :=
  let* r := map_file file in
  let* sizes := read_lines (io_wn c) (length r) r in
  let n := wrap_u (io_wn c) (fold_left (fun acc x => wrap_s 32 (acc + x)) sizes 0) in
  fill_blocks 0 sizes n.
