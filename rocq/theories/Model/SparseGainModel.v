(* Model of kaminpar-shm/refinement/gains/sparse_gain_cache.h.
   [w]: bits of UnsignedEdgeWeight; cells hold w-bit unsigned integers. [bk], [nb]: first nodes of the degree buckets of the
   graph and number_of_buckets(). [None]: an access outside an array, an undefined shift, or a loop that does not end.
   NodeID has 32 bits; nodes and sizes are unbounded. The lock of a table makes its update one atomic step (C17's scheme of
   atomic updates, GainModel.v); reads of tables that are being updated are not modelled. Statistics are left out. *)
From Verif Require Import Lib.Prelude Spec.Graph Spec.Gain Model.MathModel Model.CompactHashModel Model.GainModel.

Section Sparse.
Variables (g : graph) (k : nat) (w : Z).
Variables (sorted : bool) (bk : nat -> nat) (nb : nat) (thr : nat).

(** csr_graph.h:380-382 bucket_size. *)
Definition sg_bsize (b : nat) : nat := bk (S b) - bk b.
(** :135 _bits_for_key; BlockID is a 32-bit type. ceil_log2 is defined for k > 0. *)
Definition sg_kb : Z := match ceil_log2 32 (N.of_nat k) with Some x => Z.of_N x | None => 0%Z end.
(** :162, :408 lowest_degree_in_bucket(bucket + 1): cells of a table. *)
Definition sg_cells (b : nat) : option nat := option_map N.to_nat (lowest_degree_in_bucket (N.of_nat (S b))).

(** :126-128, :155-164 the loop over the buckets; [offs]: _cache_offsets (33 entries); [thr]: degree_threshold (:149-152). *)
Fixpoint sg_loop (fuel bt nt gc : nat) (offs : list nat) : option (nat * nat * nat * list nat) :=
  match fuel with
  | 0 => None
  | S f =>
      if (nt <? gn g) && (length (gadj g nt) <? thr) then
        match nth_error offs bt, sg_cells bt with
        | Some _, Some c => sg_loop f (S bt) (nt + sg_bsize bt) (gc + sg_bsize bt * c) (upd bt gc offs)
        | _, _ => None
        end
      else Some (bt, nt, gc, firstn bt offs ++ repeat gc (length offs - bt))
  end.
(** :119-201 initialize: _node_threshold, _cache_offsets, _sparse_offset, size of _gain_cache. The initial contents of
    _cache_offsets are not specified except for the first entry. *)
Record slayout := mkSL { sl_nt : nat; sl_offs : list nat; sl_sparse : nat; sl_size : nat }.
Definition sg_layout (junk : list nat) : option slayout :=
  let offs := upd 0 0 (firstn 33 (junk ++ repeat 0 33)) in
  match (if sorted then sg_loop 34 0 0 0 offs else Some (0, 0, 0, offs)) with
  | None => None
  | Some (bt, nt, gc, offs) =>
      match nth_error offs bt with
      | None => None
      | Some o => Some (mkSL nt offs o (gc + (gn g - nt) * k))
      end
  end.

(** :320-326 init_buckets: _buckets (33 entries). *)
Definition sg_buckets : list nat :=
  map (fun i => if i <? nb then list_sum (map sg_bsize (seq 0 i)) else gn g) (seq 0 33).
(** :328-340 find_bucket: eight steps per iteration. *)
Definition sg_probe (u b : nat) : option nat :=
  match nth_error sg_buckets (S b) with None => None | Some x => Some (if x <=? u then S b else b) end.
Fixpoint sg_probes (i u b : nat) : option nat :=
  match i with 0 => Some b | S i' => match sg_probe u b with None => None | Some b' => sg_probes i' u b' end end.
Fixpoint sg_find_loop (fuel u b : nat) : option nat :=
  match fuel with
  | 0 => None
  | S f =>
      match nth_error sg_buckets (S b) with
      | None => None
      | Some x => if x <=? u then match sg_probes 8 u b with None => None | Some b' => sg_find_loop f u b' end else Some b
      end
  end.
Definition sg_find_bucket (u : nat) : option nat := sg_find_loop 33 u 0.

Variable L : slayout.
(** :447-449 in_sparse_part. *)
Definition sg_in_sparse (u : nat) : bool := sl_nt L <=? u.
(** :405-411 index_dense: start and size of the table of [u]. *)
Definition sg_index_dense (u : nat) : option (nat * nat) :=
  match sg_find_bucket u with
  | None => None
  | Some b => match sg_cells b, nth_error (sl_offs L) b, nth_error sg_buckets b with
              | Some c, Some o, Some f => Some (o + (u - f) * c, c)
              | _, _, _ => None
              end
  end.
(** :429-432 index_sparse. *)
Definition sg_index_sparse (u b : nat) : nat := sl_sparse L + (u - sl_nt L) * k + b.

(** :413-423 create_dense_wrapper: the table of [u] as a part of the array, and the array with this part replaced. *)
Definition sg_win (arr : list Z) (start len : nat) : option (list Z) :=
  if start + len <=? length arr then Some (firstn len (skipn start arr)) else None.
Definition sg_put (arr : list Z) (start : nat) (t : list Z) : list Z := firstn start arr ++ t ++ skipn (start + length t) arr.

(** :274-275, :473 atomic addition on a cell. *)
Definition sg_cell_add (u b : nat) (x : Z) (arr : list Z) : option (list Z) :=
  match nth_error arr (sg_index_sparse u b) with
  | None => None
  | Some y => Some (upd (sg_index_sparse u b) ((y + x) mod 2 ^ w)%Z arr)
  end.
(** decrease_by and increase_by on a table (:281-282, :480); the map is not the variant that may fill up. *)
Definition sg_table_update (c : nat) (dec inc : option nat) (x : Z) (t : list Z) : option (list Z) :=
  match (match dec with
         | None => Some t
         | Some b => option_map fst (ch_decrease w sg_kb c false t (Z.of_nat b) x)
         end) with
  | None => None
  | Some t' => match inc with
               | None => Some t'
               | Some b => option_map fst (ch_increase w sg_kb c false t' (Z.of_nat b) x)
               end
  end.
Definition sg_update (v : nat) (dec inc : option nat) (x : Z) (arr : list Z) : option (list Z) :=
  if sg_in_sparse v then
    match (match dec with None => Some arr | Some b => sg_cell_add v b (- x) arr end) with
    | None => None
    | Some arr' => match inc with None => Some arr' | Some b => sg_cell_add v b x arr' end
    end
  else
    match sg_index_dense v with
    | None => None
    | Some (start, c) =>
        match sg_win arr start c with
        | None => None
        | Some t => match sg_table_update c dec inc x t with None => None | Some t' => Some (sg_put arr start t') end
        end
    end.
(** :269-290 move. *)
Definition sg_expand (u v from to : nat) (x : Z) : list micro :=
  if sg_in_sparse v then [mkMicro u v (Some from) None x; mkMicro u v None (Some to) x]
  else [mkMicro u v (Some from) (Some to) x].
Definition sg_apply (m : micro) (arr : list Z) : option (list Z) := sg_update (m_dst m) (m_dec m) (m_inc m) (m_w m) arr.
(** :451-461 reset, :463-485 recompute: iterations for different nodes touch different cells. *)
Definition sg_init_node (lab : list nat) (u : nat) (arr : option (list Z)) : option (list Z) :=
  fold_left (fun c e => match c with
                        | None => None
                        | Some c => match nth_error lab (fst e) with
                                    | None => None
                                    | Some b => sg_update u None (Some b) (snd e) c
                                    end
                        end) (gadj g u) arr.
Definition sg_init (lab : list nat) : option (list Z) :=
  fold_left (fun c u => sg_init_node lab u c) (seq 0 (gn g)) (Some (repeat 0%Z (sl_size L))).
(** :467, :472, :479 _weighted_degrees; the lock is its top bit (:346-366). *)
Definition sg_degrees : list Z :=
  map (fun u => fold_left (fun s e => (s + snd e) mod 2 ^ w)%Z (gadj g u) 0%Z) (seq 0 (gn g)).

(** static_cast<EdgeWeight>. *)
Definition sg_signed (x : Z) : Z := (if x <? 2 ^ (w - 1) then x else x - 2 ^ w)%Z.
(** :218-220, :377-388, :394-403, :434-445 conn. *)
Definition sg_conn (arr : list Z) (u b : nat) : option Z :=
  if sg_in_sparse u then option_map sg_signed (nth_error arr (sg_index_sparse u b))
  else match sg_index_dense u with
       | None => None
       | Some (start, c) => match sg_win arr start c with
                            | None => None
                            | Some t => option_map sg_signed (ch_get w sg_kb c false t (Z.of_nat b))
                            end
       end.
(** :208-211 gain. *)
Definition sg_gain (arr : list Z) (u from to : nat) : option Z :=
  match sg_conn arr u to, sg_conn arr u from with Some a, Some b => Some (a - b)%Z | _, _ => None end.
(** for_each on the table (:248, :260). *)
Definition sg_entries (arr : list Z) (u : nat) : option (list (Z * Z)) :=
  match sg_index_dense u with
  | None => None
  | Some (start, c) => match sg_win arr start c with
                       | None => None
                       | Some t => Some (map (fun e => (fst e, sg_signed (snd e))) (ch_for_each w sg_kb c t))
                       end
  end.
(** :223-267 gains. [all] = kIteratesNonadjacentBlocks, [exact] = kIteratesExactGains. *)
Definition sg_gains (all exact : bool) (arr : list Z) (u from : nat) : option (list (nat * Z)) :=
  match (if exact then sg_conn arr u from else Some 0%Z) with
  | None => None
  | Some cf =>
      if sg_in_sparse u then
        fold_right (fun to r =>
          match r with
          | None => None
          | Some l => if from =? to then Some l
                      else match sg_conn arr u to with
                           | None => None
                           | Some ct => if all || (0 <? ct)%Z then Some ((to, ct - cf)%Z :: l) else Some l
                           end
          end) (Some []) (seq 0 k)
      else
        match sg_entries arr u with
        | None => None
        | Some es =>
            if all then
              let buffer := fold_left (fun bf e => upd (Z.to_nat (fst e)) (snd e) bf) es (repeat 0%Z k) in
              Some (map (fun to => (to, nth to buffer 0 - cf)%Z) (filter (fun to => negb (from =? to)) (seq 0 k)))
            else
              Some (map (fun e => (Z.to_nat (fst e), snd e - cf)%Z) (filter (fun e => negb (Z.to_nat (fst e) =? from)) es))
        end
  end.
(** :292-295 is_border_node, :372-375 weighted_degree (without the lock bit). *)
Definition sg_border (arr : list Z) (u b : nat) : option bool :=
  match nth_error sg_degrees u, sg_conn arr u b with
  | Some d, Some x => Some (negb (sg_signed (d mod 2 ^ (w - 1)) =? x)%Z)
  | _, _ => None
  end.
Definition sg_run := g_run g k (list Z) sg_expand sg_apply.
End Sparse.
