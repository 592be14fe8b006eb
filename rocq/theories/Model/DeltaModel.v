(* Model of kaminpar-shm/datastructures/delta_partitioned_graph.h and of
   kaminpar-shm/refinement/gains/delta_gain_caches.h. Weights are mathematical integers. The additional adjacent blocks
   (std::unordered_map) are an association list. [None] is an access outside of an array. *)
From Verif Require Import Lib.Prelude Spec.Graph Spec.Gain Spec.KeyedList Spec.LocalView Model.DynMapModel.

Section Delta.
Variables (g : graph) (k : nat) (hash : nat -> nat).
Variable exact : bool.  (* kIteratesExactGains *)

(** delta_partitioned_graph.h:82-86 and delta_gain_caches.h:94, :189-195. *)
Record delta := mkDelta { dl_part : dmap nat; dl_w : list Z; dl_conn : dmap Z; dl_adj : list (nat * list nat) }.
Definition dl_make : delta :=
  {| dl_part := dm_make 0; dl_w := repeat 0%Z k; dl_conn := dm_make 0%Z; dl_adj := [] |}.

(** delta_partitioned_graph.h:43-46 block; [lab] is the shared partition. *)
Definition dg_block (lab : list nat) (d : delta) (u : nat) : option nat :=
  match dm_get hash 0 (dl_part d) u with
  | None => None
  | Some (Some b) => Some b
  | Some None => nth_error lab u
  end.
(** :48-63 set_block. *)
Definition dg_set_block (lab : list nat) (d : delta) (u b : nat) : option delta :=
  match dg_block lab d u with
  | None => None
  | Some old =>
      match nth_error (dl_w d) old with
      | None => None
      | Some x =>
          let w1 := upd old (x - gvw g u)%Z (dl_w d) in
          match nth_error w1 b with
          | None => None
          | Some y =>
              match dm_modify false hash 0 (dl_part d) u (fun _ => b) with
              | None => None
              | Some part => Some {| dl_part := part; dl_w := upd b (y + gvw g u)%Z w1; dl_conn := dl_conn d; dl_adj := dl_adj d |}
              end
          end
      end
  end.
(** :65-67 block_weight; [bw] are the shared block weights. *)
Definition dg_block_weight (bw : list Z) (d : delta) (b : nat) : option Z :=
  match nth_error bw b, nth_error (dl_w d) b with Some x, Some y => Some (x + y)%Z | _, _ => None end.
(** :69-75 for_each, size. *)
Definition dg_for_each (d : delta) : list (nat * nat) := dm_for_each false 0 (dl_part d).
Definition dg_size (d : delta) : nat := dm_size (dl_part d).

(** delta_gain_caches.h:78-82, :175-177 index; :84-88, :179-183 conn_delta. *)
Definition dc_index (u b : nat) : nat := u * k + b.
Definition dc_delta (d : delta) (u b : nat) : option Z :=
  match dm_get hash 0%Z (dl_conn d) (dc_index u b) with
  | None => None
  | Some (Some x) => Some x
  | Some None => Some 0%Z
  end.
(** :43-45, :118-120 conn. *)
Definition dc_conn (c : bcache) (d : delta) (u b : nat) : option Z :=
  match bc_conn c u b, dc_delta d u b with Some x, Some y => Some (x + y)%Z | _, _ => None end.
(** :47-50, :122-125 gain. *)
Definition dc_gain (c : bcache) (d : delta) (u from to : nat) : option Z :=
  match bc_gain c u from to, dc_delta d u to, dc_delta d u from with
  | Some x, Some y, Some z => Some (x + y - z)%Z
  | _, _, _ => None
  end.
Definition dc_adjust (d : delta) (u : nat) (cfd : Z) (r : option (list (nat * Z))) (e : nat * Z) : option (list (nat * Z)) :=
  match r, dc_delta d u (fst e) with Some l, Some y => Some (l ++ [(fst e, snd e + y - cfd)%Z]) | _, _ => None end.
Definition dc_from_delta (d : delta) (u from : nat) : option Z := if exact then dc_delta d u from else Some 0%Z.
(** :57-64 gains. *)
Definition dc_gains (c : bcache) (d : delta) (u from : nat) : option (list (nat * Z)) :=
  match dc_from_delta d u from, bc_gains c u from with
  | Some cfd, Some l => fold_left (dc_adjust d u cfd) l (Some [])
  | _, _ => None
  end.
(** :132-150 gains of the version for large k: additionally the blocks to which there are only local connections. *)
Definition dc_extra (c : bcache) (d : delta) (u from : nat) (cfd : Z) (r : option (list (nat * Z))) (to : nat) : option (list (nat * Z)) :=
  if to =? from then r
  else match r, bc_gain c u from to, dc_delta d u to with
       | Some l, Some x, Some y => Some (l ++ [(to, x + y - cfd)%Z])
       | _, _, _ => None
       end.
Definition dl_extra (d : delta) (u : nat) : list nat := match kl_get u (dl_adj d) with Some l => l | None => [] end.
Definition lk_gains (c : bcache) (d : delta) (u from : nat) : option (list (nat * Z)) :=
  match dc_from_delta d u from with
  | None => None
  | Some cfd => fold_left (dc_extra c d u from cfd) (dl_extra d u) (dc_gains c d u from)
  end.

(** :66-71 move, one neighbour. *)
Definition dc_bump (d : delta) (v b : nat) (w : Z) : option delta :=
  match dm_modify false hash 0%Z (dl_conn d) (dc_index v b) (fun x => (x + w)%Z) with
  | None => None
  | Some m => Some {| dl_part := dl_part d; dl_w := dl_w d; dl_conn := m; dl_adj := dl_adj d |}
  end.
(** :152-167 move of the version for large k ([lk = true]): before the increase, remember a block that was neither
    connected in the shared nor in the local partition. *)
Definition lk_remember (c : bcache) (d : delta) (v to : nat) : option delta :=
  match bc_conn c v to, dc_delta d v to with
  | Some x, Some y =>
      if (x =? 0)%Z && (y =? 0)%Z then
        Some {| dl_part := dl_part d; dl_w := dl_w d; dl_conn := dl_conn d;
                dl_adj := kl_modify [] v (fun l => if existsb (Nat.eqb to) l then l else l ++ [to]) (dl_adj d) |}
      else Some d
  | _, _ => None
  end.
Definition dc_move_edge (lk : bool) (c : bcache) (from to : nat) (r : option delta) (e : nat * Z) : option delta :=
  match r with
  | None => None
  | Some d =>
      match dc_bump d (fst e) from (- snd e) with
      | None => None
      | Some d1 =>
          match (if lk then lk_remember c d1 (fst e) to else Some d1) with
          | None => None
          | Some d2 => dc_bump d2 (fst e) to (snd e)
          end
      end
  end.
Definition dc_move (lk : bool) (c : bcache) (d : delta) (u from to : nat) : option delta :=
  fold_left (dc_move_edge lk c from to) (gadj g u) (Some d).
(** delta_partitioned_graph.h:77-80, delta_gain_caches.h:73-75, :169-172 clear. *)
Definition dl_clear (d : delta) : delta :=
  {| dl_part := dm_clear false 64 (dl_part d); dl_w := repeat 0%Z (length (dl_w d));
     dl_conn := dm_clear false 64 (dl_conn d); dl_adj := [] |}.

(** A worker using both structures (fm_refiner.cc:215-219) while others change the shared partition, whose block weights
    follow it (partitioned_graph.h set_block). [cache lab] is the shared gain cache while the shared partition is
    [lab]. *)
Record lsys := { x_lab : list nat; x_bw : list Z; x_d : delta }.
Variable cache : list nat -> bcache.
Definition l_step (lk : bool) (e : lev) (s : lsys) : option lsys :=
  match e with
  | LMove u b =>
      if (u <? gn g) && (b <? k) then
        match dg_block (x_lab s) (x_d s) u with
        | None => None
        | Some from =>
            match dg_set_block (x_lab s) (x_d s) u b with
            | None => None
            | Some d => match dc_move lk (cache (x_lab s)) d u from b with
                        | None => None
                        | Some d' => Some {| x_lab := x_lab s; x_bw := x_bw s; x_d := d' |}
                        end
            end
        end
      else Some s
  | LClear => Some {| x_lab := x_lab s; x_bw := x_bw s; x_d := dl_clear (x_d s) |}
  | XMove v c =>
      match dm_get hash 0 (dl_part (x_d s)) v with
      | None => None
      | Some r =>
          if (v <? gn g) && (c <? k) && (match r with None => true | Some _ => false end) then
            match nth_error (x_lab s) v with
            | None => None
            | Some old =>
                match nth_error (x_bw s) old with
                | None => None
                | Some x =>
                    let bw1 := upd old (x - gvw g v)%Z (x_bw s) in
                    match nth_error bw1 c with
                    | None => None
                    | Some y => Some {| x_lab := upd v c (x_lab s); x_bw := upd c (y + gvw g v)%Z bw1; x_d := x_d s |}
                    end
                end
            end
          else Some s
      end
  end.
Fixpoint l_run (lk : bool) (es : list lev) (s : lsys) : option lsys :=
  match es with
  | [] => Some s
  | e :: t => match l_step lk e s with None => None | Some s' => l_run lk t s' end
  end.
End Delta.
