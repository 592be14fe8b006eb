(* Model of kaminpar-shm/refinement/gains/dense_gain_cache.h, compact_hashing_gain_cache.h and
   kaminpar-common/parallel/aligned_prefix_sum.h.
   Edge weights are mathematical integers; where the compact cache stores them in 1, 2, 4 or 8 bytes the wrap-around is
   written out. Reads and writes of different cells do not interfere; [None] is an access outside the allocated cells or
   a loop that does not end. *)
From Verif Require Import Lib.Prelude Spec.Graph Spec.Gain Model.MathModel Model.CompactHashModel.

(** * Concurrent moves. A worker that owns node [u] sets its new block and then walks over the neighbours [v] of [u],
    updating the cache of [v]. [m_dec] / [m_inc] are the blocks whose connection is decreased / increased by one atomic
    update; [m_src] is the moved node. *)
Record micro := mkMicro { m_src : nat; m_dst : nat; m_dec : option nat; m_inc : option nat; m_w : Z }.

Section Concurrent.
Variables (g : graph) (k : nat) (Mem : Type).
Variable expand : nat -> nat -> nat -> nat -> Z -> list micro.  (* src dst from to weight *)
Variable apply : micro -> Mem -> option Mem.

Record gsys := mkSys { s_lab : list nat; s_mem : Mem; s_pend : list (list micro) }.

(** No worker has outstanding updates caused by a move of [u] / on the cache of node [v]. *)
Definition src_idle (u : nat) (s : gsys) : bool := forallb (fun p => forallb (fun m => negb (m_src m =? u)) p) (s_pend s).
Definition dst_idle (v : nat) (s : gsys) : bool := forallb (fun p => forallb (fun m => negb (m_dst m =? v)) p) (s_pend s).

(** One event. A move is possible if the worker has finished its previous move and nobody is still moving [u] (nodes
    are owned by one worker, node_tracker.h); events that are not possible have no effect. *)
Definition g_step (e : gev) (s : gsys) : option gsys :=
  match e with
  | EMove t u b =>
      if (u <? gn g) && (b <? k) && (t <? length (s_pend s)) && src_idle u s
         && (match nth t (s_pend s) [] with [] => true | _ => false end)
      then
        let from := nth u (s_lab s) 0 in
        Some {| s_lab := upd u b (s_lab s); s_mem := s_mem s;
                s_pend := upd t (flat_map (fun e => expand u (fst e) from b (snd e)) (gadj g u)) (s_pend s) |}
      else Some s
  | ETick t =>
      match nth t (s_pend s) [] with
      | [] => Some s
      | m :: rest =>
          match apply m (s_mem s) with
          | None => None
          | Some mem => Some {| s_lab := s_lab s; s_mem := mem; s_pend := upd t rest (s_pend s) |}
          end
      end
  end.
Fixpoint g_run (es : list gev) (s : gsys) : option gsys :=
  match es with
  | [] => Some s
  | e :: t => match g_step e s with None => None | Some s' => g_run t s' end
  end.
Definition g_start (lab : list nat) (mem : Mem) (workers : nat) : gsys :=
  {| s_lab := lab; s_mem := mem; s_pend := repeat [] workers |}.
End Concurrent.
Arguments mkSys {Mem}. Arguments s_lab {Mem}. Arguments s_mem {Mem}. Arguments s_pend {Mem}.
Arguments src_idle {Mem}. Arguments dst_idle {Mem}.

(** * DenseGainCache *)
Section Dense.
Variables (g : graph) (k : nat).
(** dense_gain_cache.h:136-140 index. *)
Definition d_index (u b : nat) : nat := u * k + b.
Definition d_add (i : nat) (w : Z) (c : list Z) : option (list Z) :=
  match nth_error c i with None => None | Some x => Some (upd i (x + w)%Z c) end.
(** :142-147 reset, :149-162 recompute_all: the cells of the first n*k entries and the weighted degrees. Only cells of
    [u] are touched by the iteration for [u], hence the parallel loop is modelled by a sequential one. *)
Definition d_init_node (lab : list nat) (u : nat) (c : option (list Z)) : option (list Z) :=
  fold_left (fun c e => match c with
                        | None => None
                        | Some c => match nth_error lab (fst e) with
                                    | None => None
                                    | Some b => d_add (d_index u b) (snd e) c
                                    end
                        end) (gadj g u) c.
Definition d_init (lab : list nat) : option (list Z) :=
  fold_left (fun c u => d_init_node lab u c) (seq 0 (gn g)) (Some (repeat 0%Z (gn g * k))).
Definition d_degrees : list Z := map (fun u => fold_left (fun s e => s + snd e)%Z (gadj g u) 0%Z) (seq 0 (gn g)).

(** :91-93 conn / :129-134 weighted_degree_to. *)
Definition d_conn (c : list Z) (u b : nat) : option Z := nth_error c (d_index u b).
(** :80-83 gain. *)
Definition d_gain (c : list Z) (u from to : nat) : option Z :=
  match d_conn c u to, d_conn c u from with Some a, Some b => Some (a - b)%Z | _, _ => None end.
(** :95-117 gains. [all] = kIteratesNonadjacentBlocks, [exact] = kIteratesExactGains. *)
Definition d_gains (all exact : bool) (c : list Z) (u from : nat) : option (list (nat * Z)) :=
  match (if exact then d_conn c u from else Some 0%Z) with
  | None => None
  | Some cf =>
      fold_right (fun to r =>
        match r with
        | None => None
        | Some l => if from =? to then Some l
                    else match d_conn c u to with
                         | None => None
                         | Some ct => if all || (0 <? ct)%Z then Some ((to, ct - cf)%Z :: l) else Some l
                         end
        end) (Some []) (seq 0 k)
  end.
(** :119-124 move: the two atomic updates per neighbour. *)
Definition d_expand (u v from to : nat) (w : Z) : list micro :=
  [mkMicro u v (Some from) None w; mkMicro u v None (Some to) w].
Definition d_apply (m : micro) (c : list Z) : option (list Z) :=
  match (match m_dec m with None => Some c | Some b => d_add (d_index (m_dst m) b) (- m_w m) c end) with
  | None => None
  | Some c' => match m_inc m with None => Some c' | Some b => d_add (d_index (m_dst m) b) (m_w m) c' end
  end.
(** :126-129 is_border_node. *)
Definition d_border (deg c : list Z) (u b : nat) : option bool :=
  match nth_error deg u, d_conn c u b with Some d, Some x => Some (negb (d =? x)%Z) | _, _ => None end.
Definition d_run := g_run g k (list Z) d_expand d_apply.
End Dense.

(** * aligned_prefix_sum.h. [al], [va]: alignment and size of an element, as returned by the lambda. *)
Section Aligned.
Variables (al va : nat -> nat).
(** (alignment - (value % alignment)) % alignment; nothing is added if the alignment is 0. *)
Definition align_up (x a : nat) : nat := if a =? 0 then x else x + (a - x mod a) mod a.
(** :18-47 aligned_prefix_sum_seq on [begin + from, begin + to + 1): the positions, relative to the start of the chunk,
    of elements from+1, ..., to. The first element of the chunk is not touched. *)
Fixpoint aps_seq (from len : nat) (cur : nat) : list nat :=
  match len with
  | 0 => []
  | S l => let nxt := align_up (cur + va from) (al (S from)) in nxt :: aps_seq (S from) l nxt
  end.
(** :49-96: [n] = number of elements minus one, [np] = number of processors, of which at most [n] are used
    (loops.h:88-101 deterministic_for), each for one chunk. prefix_sums of chunk c; the relative end position of a
    chunk is the last entry of its list. Positions of elements 1..n; element 0 is at position 0. *)
Definition chunk (n p c : nat) : nat * nat :=
  let r := compute_local_range (N.of_nat n) (N.of_nat p) (N.of_nat c) in (N.to_nat (fst r), N.to_nat (snd r)).
Definition chunk_rel (n p c : nat) : list nat := let '(f, t) := chunk n p c in aps_seq f (t - f) 0.
Fixpoint chunk_base (n p c : nat) : nat :=
  match c with
  | 0 => 0
  | S c' => let '(f, t) := chunk n p c in
            if f =? t then 0 else align_up (chunk_base n p c' + last (chunk_rel n p c') 0) 8
  end.
Definition aligned_prefix_sum (n np : nat) : list nat :=
  let p := Nat.min np n in
  0 :: flat_map (fun c => map (fun x => x + chunk_base n p c) (chunk_rel n p c)) (seq 0 p).
(** The returned total; for a single element the function returns 0. *)
Definition aligned_total (n np : nat) : nat :=
  if n =? 0 then 0 else nth n (aligned_prefix_sum n np) 0 + va n.
End Aligned.

(** * CompactHashingGainCache *)
Section Compact.
Variables (g : graph) (k : nat).
Variable np : nat.  (* number of processors used by the prefix sum *)
Variable junk : N.  (* what ceil2 yields where it is undefined: for nodes without neighbours *)
(** :75 _bits_for_key; BlockID is a 32-bit type. *)
Definition cg_kb : N := match ceil_log2 32 (N.of_nat k) with Some x => x | None => junk end.
(** :87 ceil2(degree). *)
Definition cg_slots (u : nat) : N := match ceil2 32 (N.of_nat (length (gadj g u))) with Some x => x | None => junk end.
(** :293-295 use_hash_table. *)
Definition cg_hash (u : nat) : bool := (cg_slots u <? N.of_nat k)%N.
(** :266-274 recompute_weighted_degrees (the low bits; the top bit is the lock). *)
Definition cg_degree (u : nat) : N := fold_left (fun s e => (s + Z.to_N (snd e))%N) (gadj g u) 0%N.
(** :277-291 compute_entry_width: bytes per entry. *)
Definition cg_width_of (wd : N) (with_key : bool) : N :=
  if (wd =? 0)%N then 0%N
  else match floor_log2 64 wd with
       | None => junk
       | Some l =>
           let bits := (l + 1 + (if with_key then cg_kb else 0))%N in
           match ceil2 32 ((bits + 7) / 8) with Some x => x | None => junk end
       end.
Definition cg_width (u : nat) : nat := N.to_nat (cg_width_of (cg_degree u) (cg_hash u)).
(** :85-91 bytes of the table of a node. *)
Definition cg_bytes (u : nat) : nat :=
  if cg_hash u then cg_width u * N.to_nat (cg_slots u) else cg_width u * k.
(** :84-109 _offsets, including the correction of the last node, and the allocated 8-byte words (the array is grown to
    this size if it is smaller). *)
Definition cg_offsets : list nat :=
  let n := gn g in
  if n =? 0 then [0]
  else
    let offs := aligned_prefix_sum cg_width cg_bytes (n - 1) np in
    let l := align_up (nth (n - 1) offs 0) (cg_width (n - 1)) in
    upd (n - 1) l offs ++ [l + cg_bytes (n - 1)].
Definition cg_total : nat := aligned_total cg_width cg_bytes (gn g - 1) np.
Definition cg_words : N := div_ceil (N.of_nat cg_total) 8.
(** :329-331 number of cells of the hash table of a node. *)
Definition cg_size (u : nat) : nat :=
  if cg_width u =? 0 then 0
  else match floor2 64 (N.of_nat ((nth (S u) cg_offsets 0 - nth u cg_offsets 0) / cg_width u)) with
       | Some x => N.to_nat x
       | None => N.to_nat junk
       end.
Definition cg_bits (u : nat) : Z := (8 * Z.of_nat (cg_width u))%Z.

(** The cells of every node (disjoint regions of the array, see the layout theorem). *)
Definition cmem := list (list Z).
(** :361-380 with_hash_table on the table of [v]: decrease_by, then increase_by; :302-322 the table is locked. The
    lock makes the two updates one atomic step; nothing happens for nodes with entries of 0 bytes (:356-358). *)
Definition cg_hash_update (v : nat) (dec inc : option nat) (w : Z) (t : list Z) : option (list Z) :=
  match (match dec with
         | None => Some t
         | Some b => option_map fst (ch_decrease (cg_bits v) (Z.of_N cg_kb) (cg_size v) true t (Z.of_nat b) w)
         end) with
  | None => None
  | Some t' => match inc with
               | None => Some t'
               | Some b => option_map fst (ch_increase (cg_bits v) (Z.of_N cg_kb) (cg_size v) true t' (Z.of_nat b) w)
               end
  end.
(** :386-431 with_full_table: atomic addition on a cell of the given width. *)
Definition cg_cell_add (v b : nat) (w : Z) (t : list Z) : option (list Z) :=
  match nth_error t b with None => None | Some x => Some (upd b ((x + w) mod 2 ^ cg_bits v)%Z t) end.
Definition cg_full_update (v : nat) (dec inc : option nat) (w : Z) (t : list Z) : option (list Z) :=
  match (match dec with None => Some t | Some b => cg_cell_add v b (- w) t end) with
  | None => None
  | Some t' => match inc with None => Some t' | Some b => cg_cell_add v b w t' end
  end.
Definition cg_update (v : nat) (dec inc : option nat) (w : Z) (mem : cmem) : option cmem :=
  match nth_error mem v with
  | None => None
  | Some t =>
      if cg_width v =? 0 then Some mem
      else match (if cg_hash v then cg_hash_update v dec inc w t else cg_full_update v dec inc w t) with
           | None => None
           | Some t' => Some (upd v t' mem)
           end
  end.
(** :196-214 move. *)
Definition cg_expand (u v from to : nat) (w : Z) : list micro :=
  if cg_hash v then [mkMicro u v (Some from) (Some to) w]
  else [mkMicro u v (Some from) None w; mkMicro u v None (Some to) w].
Definition cg_apply (m : micro) (mem : cmem) : option cmem := cg_update (m_dst m) (m_dec m) (m_inc m) (m_w m) mem.
(** :233-264 recompute_gains: all cells are zeroed, then the edges are added; iterations for different nodes touch
    different cells. *)
Definition cg_init_node (lab : list nat) (u : nat) (mem : option cmem) : option cmem :=
  fold_left (fun c e => match c with
                        | None => None
                        | Some c => match nth_error lab (fst e) with
                                    | None => None
                                    | Some b => cg_update u None (Some b) (snd e) c
                                    end
                        end) (gadj g u) mem.
Definition cg_blank : cmem := map (fun u => repeat 0%Z (if cg_hash u then cg_size u else k)) (seq 0 (gn g)).
Definition cg_init (lab : list nat) : option cmem :=
  fold_left (fun c u => cg_init_node lab u c) (seq 0 (gn g)) (Some cg_blank).
(** :151-153 conn, :324-327 conn_hash_table, :433-438 conn_full_table. *)
Definition cg_conn (mem : cmem) (u b : nat) : option Z :=
  match nth_error mem u with
  | None => None
  | Some t =>
      if cg_width u =? 0 then Some 0%Z
      else if cg_hash u then ch_get (cg_bits u) (Z.of_N cg_kb) (cg_size u) true t (Z.of_nat b)
      else nth_error t b
  end.
(** :141-144 gain. *)
Definition cg_gain (mem : cmem) (u from to : nat) : option Z :=
  match cg_conn mem u to, cg_conn mem u from with Some a, Some b => Some (a - b)%Z | _, _ => None end.
(** The pairs that for_each on the hash table of [u] enumerates. *)
Definition cg_entries (mem : cmem) (u : nat) : list (Z * Z) :=
  if cg_width u =? 0 then [] else ch_for_each (cg_bits u) (Z.of_N cg_kb) (cg_size u) (nth u mem []).
(** :155-194 gains. In the hash table case the entries are first copied to a zeroed buffer of k values (all = true) or
    listed in the order of the table (all = false). *)
Definition cg_gains (all exact : bool) (mem : cmem) (u from : nat) : option (list (nat * Z)) :=
  match (if exact then cg_conn mem u from else Some 0%Z) with
  | None => None
  | Some cf =>
      if cg_hash u then
        if all then
          let buffer := fold_left (fun bf e => upd (Z.to_nat (fst e)) (snd e) bf) (cg_entries mem u) (repeat 0%Z k) in
          Some (map (fun to => (to, nth to buffer 0 - cf)%Z) (filter (fun to => negb (from =? to)) (seq 0 k)))
        else
          Some (map (fun e => (Z.to_nat (fst e), snd e - cf)%Z)
                    (filter (fun e => negb (Z.to_nat (fst e) =? from)) (cg_entries mem u)))
      else
        fold_right (fun to r =>
          match r with
          | None => None
          | Some l => if from =? to then Some l
                      else match cg_conn mem u to with
                           | None => None
                           | Some ct => if all || (0 <? ct)%Z then Some ((to, ct - cf)%Z :: l) else Some l
                           end
          end) (Some []) (seq 0 k)
  end.
(** :216-219 is_border_node. *)
Definition cg_border (mem : cmem) (u b : nat) : option bool :=
  match cg_conn mem u b with Some x => Some (negb (Z.of_N (cg_degree u) =? x)%Z) | None => None end.
Definition cg_run := g_run g k cmem cg_expand cg_apply.
End Compact.
