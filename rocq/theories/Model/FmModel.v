(* Model of one worker of kaminpar-shm/refinement/fm/fm_refiner.cc (LocalizedFMRefiner) with
   kaminpar-shm/refinement/fm/node_tracker.h. Weights are mathematical integers.

   Simplifications: the shared gain cache is a parameter (its state, what it reads, its move operation); the binary heaps
   are association lists whose top may be any contained element (the actual top is a maximum, C28), chosen by an oracle,
   which also covers _block_pq (update_block_pq, :408-420); the loop may stop at any time, which covers
   AdaptiveStoppingPolicy and the abort flag; statistics and _applied_moves are left out. [None] is an access outside of
   an array or a violated KASSERT. *)
From Verif Require Import Lib.Prelude Spec.Graph Spec.KeyedList Spec.LocalView Model.DynMapModel Model.DeltaModel Model.GainModel.

Section Fm.
Variables (g : graph) (k : nat) (hash : nat -> nat).
Variable lk : bool.      (* LargeKGenericDeltaGainCache instead of GenericDeltaGainCache *)
Variable exact : bool.   (* kIteratesExactGains *)
Variable gmin : Z.       (* numeric_limits<EdgeWeight>::min() *)
Variable limit : nat -> Z.  (* _p_ctx.max_block_weight *)
Variable id : Z.         (* _id, at least 1 *)
Variables (unlock_seeds unlock_moved : bool).  (* unlock_seed_nodes, unlock_locally_moved_nodes *)
Variables (Mem : Type) (cview : Mem -> bcache) (cmove : Mem -> nat -> nat -> nat -> option Mem).

(** The shared partition, the shared gain cache, and the local delta of both. *)
Record core := { c_lab : list nat; c_bw : list Z; c_mem : Mem; c_d : delta }.
(** Node states (node_tracker.h:50), the queues (one per block), _shared.target_blocks, _seed_nodes, _touched_nodes. *)
Record book := { b_trk : list Z; b_pq : list (list (nat * Z)); b_tgt : list nat; b_seeds : list nat; b_touched : list nat }.

(** node_tracker.h:18-20. *)
Definition UNLOCKED : Z := 0.
Definition MOVED_LOCALLY : Z := -1.
Definition MOVED_GLOBALLY : Z := -2.
(** node_tracker.h:35-37 set. *)
Definition trk_set (u : nat) (x : Z) (b : book) : book :=
  {| b_trk := upd u x (b_trk b); b_pq := b_pq b; b_tgt := b_tgt b; b_seeds := b_seeds b; b_touched := b_touched b |}.
Definition pq_set (q : list (list (nat * Z))) (b : book) : book :=
  {| b_trk := b_trk b; b_pq := q; b_tgt := b_tgt b; b_seeds := b_seeds b; b_touched := b_touched b |}.
Definition tgt_set (u x : nat) (b : book) : book :=
  {| b_trk := b_trk b; b_pq := b_pq b; b_tgt := upd u x (b_tgt b); b_seeds := b_seeds b; b_touched := b_touched b |}.
Definition add_seed (u : nat) (b : book) : book :=
  {| b_trk := b_trk b; b_pq := b_pq b; b_tgt := b_tgt b; b_seeds := b_seeds b ++ [u]; b_touched := b_touched b |}.
Definition add_touched (u : nat) (b : book) : book :=
  {| b_trk := b_trk b; b_pq := b_pq b; b_tgt := b_tgt b; b_seeds := b_seeds b; b_touched := b_touched b ++ [u] |}.

(** push, change_priority, pop of _node_pqs[b]. *)
Definition pq_push (b u : nat) (key : Z) (s : book) : option book :=
  match nth_error (b_pq s) b with
  | None => None
  | Some q => match kl_get u q with Some _ => None | None => Some (pq_set (upd b (q ++ [(u, key)]) (b_pq s)) s) end
  end.
Definition pq_change (b u : nat) (key : Z) (s : book) : option book :=
  match nth_error (b_pq s) b with
  | None => None
  | Some q => match kl_get u q with None => None | Some _ => Some (pq_set (upd b (kl_modify 0%Z u (fun _ => key) q) (b_pq s)) s) end
  end.
Definition pq_pop (b u : nat) (s : book) : book :=
  pq_set (upd b (filter (fun e => negb (fst e =? u)) (nth b (b_pq s) [])) (b_pq s)) s.

(** :366-406 find_best_gain, for any partition and cache: [weight] reads block weights, [gs] is what gains() enumerates,
    [gain] is gain(u, from, -). *)
Definition fb_step (weight : nat -> option Z) (wu : Z) (r : option (Z * nat * Z)) (e : nat * Z) : option (Z * nat * Z) :=
  match r, weight (fst e) with
  | Some (best, target, gap), Some x =>
      let gap' := (limit (fst e) - (x + wu))%Z in
      if (gap' <? Z.min gap 0)%Z then r
      else if ((best <? snd e) || ((snd e =? best) && (gap <? gap')))%Z then Some (snd e, fst e, gap') else r
  | _, _ => None
  end.
Definition find_best (from : nat) (wu : Z) (weight : nat -> option Z) (gs : option (list (nat * Z))) (gain : nat -> option Z) : option (nat * Z) :=
  match weight from, gs with
  | Some x, Some l =>
      match fold_left (fb_step weight wu) l (Some (gmin, from, limit from - x)%Z) with
      | None => None
      | Some (best, target, _) =>
          if target =? from then Some (target, gmin)
          else if exact then Some (target, best)
          else match gain target with None => None | Some x => Some (target, x) end
      end
  | _, _ => None
  end.
(** find_best_gain(_p_graph, _shared.gain_cache, u), together with the block of u. *)
Definition find_shared (c : core) (u : nat) : option (nat * (nat * Z)) :=
  match nth_error (c_lab c) u with
  | None => None
  | Some from =>
      match find_best from (gvw g u) (nth_error (c_bw c)) (bc_gains (cview (c_mem c)) u from) (bc_gain (cview (c_mem c)) u from) with
      | None => None
      | Some r => Some (from, r)
      end
  end.
(** find_best_gain(_d_graph, _d_gain_cache, u). *)
Definition d_gains_of (c : core) (u from : nat) : option (list (nat * Z)) :=
  if lk then lk_gains k hash exact (cview (c_mem c)) (c_d c) u from else dc_gains k hash exact (cview (c_mem c)) (c_d c) u from.
Definition d_gain_of (c : core) (u from to : nat) : option Z := dc_gain k hash (cview (c_mem c)) (c_d c) u from to.
Definition d_weight_of (c : core) (b : nat) : option Z := dg_block_weight (c_bw c) (c_d c) b.
Definition find_local (c : core) (u : nat) : option (nat * (nat * Z)) :=
  match dg_block hash (c_lab c) (c_d c) u with
  | None => None
  | Some from =>
      match find_best from (gvw g u) (d_weight_of c) (d_gains_of c u from) (d_gain_of c u from) with
      | None => None
      | Some r => Some (from, r)
      end
  end.

(** :300-309 insert_into_node_pq. *)
Definition insert_pq (r : option (nat * (nat * Z))) (u : nat) (s : book) : option book :=
  match r with
  | None => None
  | Some (from, (to, gain)) => if u <? length (b_tgt s) then pq_push from u gain (tgt_set u to s) else None
  end.
(** :311-360 update_after_move. *)
Definition update_after_move (c : core) (v from to : nat) (s : book) : option book :=
  match nth_error (c_lab c) v, nth_error (b_tgt s) v with
  | Some ob, Some ot =>
      let research :=
        match find_local c v with
        | None => None
        | Some (_, (nt, gain)) => pq_change ob v gain (tgt_set v nt s)
        end in
      if to =? ot then
        match d_weight_of c ot, d_gain_of c v ob ot with
        | Some x, Some y => if (x + gvw g v <=? limit ot)%Z then pq_change ob v y s else research
        | _, _ => None
        end
      else if from =? ot then research
      else if to =? ob then match d_gain_of c v ob ot with None => None | Some y => pq_change ob v y s end
      else match d_gain_of c v ob ot, d_gain_of c v ob to, d_weight_of c to with
           | Some y, Some z, Some x =>
               if ((y <? z) && (x + gvw g v <=? limit to))%Z then pq_change ob v z (tgt_set v to s) else pq_change ob v y s
           | _, _, _ => None
           end
  | _, _ => None
  end.
(** :221-235 the neighbours of a moved node; lock: node_tracker.h:24-29. *)
Definition touch_neighbour (c : core) (from to : nat) (r : option book) (e : nat * Z) : option book :=
  match r with
  | None => None
  | Some s =>
      match nth_error (b_trk s) (fst e) with
      | None => None
      | Some owner =>
          if (owner =? id)%Z then update_after_move c (fst e) from to s
          else if (owner =? UNLOCKED)%Z then
            match insert_pq (find_local c (fst e)) (fst e) (trk_set (fst e) id s) with
            | None => None
            | Some s' => Some (add_touched (fst e) s')
            end
          else Some s
      end
  end.

(** partitioned_graph.h set_block and gain_cache.move for one node of the shared partition. *)
Definition shared_move (c : core) (u from to : nat) : option core :=
  match nth_error (c_lab c) u with
  | None => None
  | Some old =>
      match nth_error (c_bw c) old with
      | None => None
      | Some x =>
          let bw1 := upd old (x - gvw g u)%Z (c_bw c) in
          match nth_error bw1 to with
          | None => None
          | Some y =>
              match cmove (c_mem c) u from to with
              | None => None
              | Some m => Some {| c_lab := upd u to (c_lab c); c_bw := upd to (y + gvw g u)%Z bw1; c_mem := m; c_d := c_d c |}
              end
          end
      end
  end.
(** :179-198 one move of the delta is applied to the shared partition. *)
Definition commit_one (r : option (core * book)) (e : nat * nat) : option (core * book) :=
  match r with
  | None => None
  | Some (c, s) =>
      match nth_error (c_lab c) (fst e) with
      | None => None
      | Some from =>
          match shared_move c (fst e) from (snd e) with
          | None => None
          | Some c' => Some (c', trk_set (fst e) MOVED_GLOBALLY s)
          end
      end
  end.
(** :173-213 a new best solution is applied to the shared partition. *)
Definition commit (c : core) (s : book) (u from to : nat) : option (core * book) :=
  match shared_move c u from to with
  | None => None
  | Some c1 =>
      match fold_left commit_one (dg_for_each (c_d c1)) (Some (c1, trk_set u MOVED_GLOBALLY s)) with
      | None => None
      | Some (c2, s2) => Some ({| c_lab := c_lab c2; c_bw := c_bw c2; c_mem := c_mem c2; c_d := dl_clear (c_d c2) |}, s2)
      end
  end.
(** :214-219 a move that is only performed locally. *)
Definition local_move (c : core) (u from to : nat) : option core :=
  match dg_set_block g hash (c_lab c) (c_d c) u to with
  | None => None
  | Some d =>
      match dc_move g k hash lk (cview (c_mem c)) d u from to with
      | None => None
      | Some d' => Some {| c_lab := c_lab c; c_bw := c_bw c; c_mem := c_mem c; c_d := d' |}
      end
  end.

(** :133-237 one iteration of the main loop; the queues yield node [u] of block [from]. A choice that is not contained in
    the queue cannot occur and is ignored. *)
Record fm := { f_core : core; f_book : book; f_cur : Z; f_best : Z }.
Definition fm_step (choice : nat * nat) (f : fm) : option fm :=
  let '(from, u) := choice in
  let c := f_core f in
  match kl_get u (nth from (b_pq (f_book f)) []) with
  | None => Some f
  | Some expected =>
      match find_local c u with
      | None => None
      | Some (_, (to, actual)) =>
          if (actual <? expected)%Z then
            match pq_change from u actual (f_book f) with
            | None => None
            | Some s => Some {| f_core := c; f_book := tgt_set u to s; f_cur := f_cur f; f_best := f_best f |}
            end
          else
            let s1 := trk_set u MOVED_LOCALLY (pq_pop from u (f_book f)) in
            if to =? from then Some {| f_core := c; f_book := s1; f_cur := f_cur f; f_best := f_best f |}
            else
              match d_weight_of c to with
              | None => None
              | Some x =>
                  if (x + gvw g u <=? limit to)%Z then
                    let cur := (f_cur f + actual)%Z in
                    let r := if (f_best f <? cur)%Z then commit c s1 u from to
                             else match local_move c u from to with None => None | Some c' => Some (c', s1) end in
                    match r with
                    | None => None
                    | Some (c', s2) =>
                        match fold_left (touch_neighbour c' from to) (gadj g u) (Some s2) with
                        | None => None
                        | Some s3 => Some {| f_core := c'; f_book := s3; f_cur := cur;
                                             f_best := if (f_best f <? cur)%Z then cur else f_best f |}
                        end
                    end
                  else Some {| f_core := c; f_book := s1; f_cur := f_cur f; f_best := f_best f |}
              end
      end
  end.
Fixpoint fm_loop (choices : list (nat * nat)) (f : fm) : option fm :=
  match choices with
  | [] => Some f
  | x :: t => match fm_step x f with None => None | Some f' => fm_loop t f' end
  end.

(** :119-125 with border_nodes.h:48-66 poll: [seeds] are the polled border nodes; those that can be locked are used. *)
Definition poll_one (c : core) (r : option book) (u : nat) : option book :=
  match r with
  | None => None
  | Some s =>
      match nth_error (b_trk s) u with
      | None => None
      | Some owner =>
          if (owner =? UNLOCKED)%Z then
            match insert_pq (find_shared c u) u (trk_set u id s) with
            | None => None
            | Some s' => Some (add_seed u s')
            end
          else Some s
      end
  end.
(** :244-255 unlock_touched_node. *)
Definition unlock_touched (s : list Z) (u : nat) : list Z :=
  let owner := nth u s 0%Z in
  if (owner =? MOVED_LOCALLY)%Z then upd u (if unlock_moved then UNLOCKED else MOVED_GLOBALLY) s
  else if (owner =? id)%Z then upd u UNLOCKED s else s.
(** :257-264, seed nodes. *)
Definition unlock_seed (s : list Z) (u : nat) : list Z :=
  if unlock_seeds then unlock_touched s u else upd u MOVED_GLOBALLY s.
(** :109-282 run_batch: returns the state and best_total_gain. *)
Definition run_batch (seeds : list nat) (choices : list (nat * nat)) (c : core) (s : book) : option (core * book * Z) :=
  let s0 := {| b_trk := b_trk s; b_pq := b_pq s; b_tgt := b_tgt s; b_seeds := []; b_touched := b_touched s |} in
  match fold_left (poll_one c) seeds (Some s0) with
  | None => None
  | Some s1 =>
      match fm_loop choices {| f_core := c; f_book := s1; f_cur := 0; f_best := 0 |} with
      | None => None
      | Some f =>
          let s2 := f_book f in
          let trk := fold_left unlock_touched (b_touched s2) (fold_left unlock_seed (b_seeds s2) (b_trk s2)) in
          Some ({| c_lab := c_lab (f_core f); c_bw := c_bw (f_core f); c_mem := c_mem (f_core f); c_d := dl_clear (c_d (f_core f)) |},
                {| b_trk := trk; b_pq := map (fun _ => []) (b_pq s2); b_tgt := b_tgt s2; b_seeds := b_seeds s2; b_touched := [] |},
                f_best f)
      end
  end.
(** :527-543 the worker keeps running batches (the loop of a single worker). *)
Fixpoint run_batches (bs : list (list nat * list (nat * nat))) (c : core) (s : book) : option (core * book * list Z) :=
  match bs with
  | [] => Some (c, s, [])
  | (seeds, choices) :: t =>
      match run_batch seeds choices c s with
      | None => None
      | Some (c', s', x) => match run_batches t c' s' with None => None | Some (c'', s'', l) => Some (c'', s'', x :: l) end
      end
  end.
(** :86-107 a new worker; [tgt]: _shared.target_blocks is not initialized. *)
Definition new_worker (trk : list Z) (tgt : list nat) : book :=
  {| b_trk := trk; b_pq := repeat [] k; b_tgt := tgt; b_seeds := []; b_touched := [] |}.
End Fm.
Arguments c_lab {Mem}. Arguments c_bw {Mem}. Arguments c_mem {Mem}. Arguments c_d {Mem}.
Arguments f_core {Mem}. Arguments f_book {Mem}. Arguments f_cur {Mem}. Arguments f_best {Mem}.

(** A move of the shared gain cache by a worker that runs alone: dense_gain_cache.h:114-124 and
    compact_hashing_gain_cache.h:210-226 move, the updates of all neighbours in sequence. *)
Definition cache_move (g : graph) (Mem : Type) (expand : nat -> nat -> nat -> nat -> Z -> list micro) (apply : micro -> Mem -> option Mem)
  (m : Mem) (u from to : nat) : option Mem :=
  fold_left (fun r x => match r with None => None | Some m => apply x m end)
    (flat_map (fun e => expand u (fst e) from to (snd e)) (gadj g u)) (Some m).
(** What the worker reads from the two caches (kIteratesNonadjacentBlocks = all, kIteratesExactGains = exact). *)
Definition dense_view (k : nat) (all exact : bool) (m : list Z) : bcache :=
  {| bc_conn := d_conn k m; bc_gain := d_gain k m; bc_gains := d_gains k all exact m |}.
Definition compact_view (g : graph) (k np : nat) (junk : N) (all exact : bool) (m : cmem) : bcache :=
  {| bc_conn := cg_conn g k np junk m; bc_gain := cg_gain g k np junk m; bc_gains := cg_gains g k np junk all exact m |}.
(** The state in which a worker is created: the delta is empty (fm_refiner.cc:86-107). *)
Definition fm_start {Mem : Type} (k : nat) (lab : list nat) (bw : list Z) (m : Mem) : core Mem :=
  {| c_lab := lab; c_bw := bw; c_mem := m; c_d := dl_make k |}.
