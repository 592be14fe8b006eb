(* Model of one round of the parallel FM refinement as far as nodes are locked, handed out and released:
   kaminpar-shm/refinement/fm/node_tracker.h, border_nodes.h and the calls in fm_refiner.cc:109-282 (run_batch).
   Every access to a shared variable (a node state or _next_border_node) is one atomic step; the workers' steps interleave
   in any order. Which nodes are touched, popped and committed is chosen by the schedule. [None] is an access outside of an
   array. The log records what was observed; it has no influence on the steps. *)
From Verif Require Import Lib.Prelude Spec.Ownership.

Section Round.
Variable n : nat.
Variable count : N.                            (* num_seed_nodes *)
Variables (unlock_seeds unlock_moved : bool).  (* unlock_seed_nodes, unlock_locally_moved_nodes *)
Variable border : list nat.                    (* _border_nodes *)

(** Where a worker is. Polling (border_nodes.h:48-66): [PCheck] before the loop condition, [PFetch] before the fetch_add,
    [PScan] before reading the owner of the next node, [PLock] before the compare-exchange. [Run]: in the main loop of
    run_batch; [Touch v] before the compare-exchange on a neighbour (:230). [Rel todo]: releasing the nodes (:244-273; the
    flag marks seed nodes); [Store x u todo] before the store. *)
Inductive phase :=
| Idle | PCheck (polled : N) | PFetch (polled : N) | PScan (polled : N) (cur to : N) | PLock (polled : N) (cur to : N) (u : nat)
| Run | Touch (v : nat) | Rel (todo : list (bool * nat)) | Store (x : Z) (u : nat) (todo : list (bool * nat)).
Record worker := mkW { w_ph : phase; w_seeds : list nat; w_touched : list nat; w_pq : list nat; w_pop : list nat }.
Record round := mkR { r_trk : list Z; r_next : N; r_ws : list worker; r_log : list oev; r_seen : list nat }.

(** fm_refiner.cc:489-493: worker IDs start at 1. *)
Definition wid (t : nat) : Z := (Z.of_nat t + 1)%Z.
Definition u32 (x : N) : N := (x mod 2 ^ 32)%N.
(** border_nodes.h:27-36 init (all nodes are unlocked, next = 0). *)
Definition idle_worker : worker := {| w_ph := Idle; w_seeds := []; w_touched := []; w_pq := []; w_pop := [] |}.
Definition round_start (T : nat) : round :=
  {| r_trk := repeat 0%Z n; r_next := 0; r_ws := repeat idle_worker T; r_log := []; r_seen := [] |}.

Definition set_ph (p : phase) (w : worker) : worker :=
  {| w_ph := p; w_seeds := w_seeds w; w_touched := w_touched w; w_pq := w_pq w; w_pop := w_pop w |}.
Definition set_w (t : nat) (w : worker) (r : round) : round :=
  {| r_trk := r_trk r; r_next := r_next r; r_ws := upd t w (r_ws r); r_log := r_log r; r_seen := r_seen r |}.
Definition set_trk (u : nat) (x : Z) (es : list oev) (r : round) : round :=
  {| r_trk := upd u x (r_trk r); r_next := r_next r; r_ws := r_ws r; r_log := r_log r ++ es; r_seen := r_seen r |}.

(** border_nodes.h:51 loop condition; :52-53 fetch_add and :54 (32-bit arithmetic); :57-58 owner; node_tracker.h:24-29
    lock; :59-60 lambda (fm_refiner.cc:120-121). *)
Definition check (t : nat) (w : worker) (polled : N) (r : round) : round :=
  if ((polled <? count) && (r_next r <? N.of_nat (length border)))%N then set_w t (set_ph (PFetch polled) w) r
  else set_w t (set_ph Run w) r.
Definition fetch (t : nat) (w : worker) (polled : N) (r : round) : round :=
  let remaining := (count - polled)%N in
  let from := r_next r in
  let to := N.min (u32 (from + remaining)) (N.of_nat (length border)) in
  {| r_trk := r_trk r; r_next := u32 (from + remaining); r_ws := upd t (set_ph (PScan polled from to) w) (r_ws r);
     r_log := r_log r; r_seen := r_seen r |}.
Definition scan (t : nat) (w : worker) (polled cur to : N) (r : round) : option round :=
  if (cur <? to)%N then
    match nth_error border (N.to_nat cur) with
    | None => None
    | Some u =>
        match nth_error (r_trk r) u with
        | None => None
        | Some x =>
            let r' := {| r_trk := r_trk r; r_next := r_next r; r_ws := r_ws r; r_log := r_log r; r_seen := r_seen r ++ [N.to_nat cur] |} in
            Some (if (x =? 0)%Z then set_w t (set_ph (PLock polled (cur + 1) to u) w) r'
                  else set_w t (set_ph (PScan polled (cur + 1) to) w) r')
        end
    end
  else Some (set_w t (set_ph (PCheck polled) w) r).
Definition lock_seed (t : nat) (w : worker) (polled cur to : N) (u : nat) (r : round) : option round :=
  match nth_error (r_trk r) u with
  | None => None
  | Some x =>
      Some (if (x =? 0)%Z then
              set_w t {| w_ph := PScan (polled + 1) cur to; w_seeds := w_seeds w ++ [u]; w_touched := w_touched w;
                         w_pq := w_pq w ++ [u]; w_pop := w_pop w |} (set_trk u (wid t) [OLock t u; OSeed t u] r)
            else set_w t (set_ph (PScan polled cur to) w) r)
  end.
(** fm_refiner.cc:223-234: lock a neighbour, insert it into the queue. *)
Definition lock_touched (t : nat) (w : worker) (v : nat) (r : round) : option round :=
  match nth_error (r_trk r) v with
  | None => None
  | Some x =>
      Some (if (x =? 0)%Z then
              set_w t {| w_ph := Run; w_seeds := w_seeds w; w_touched := w_touched w ++ [v];
                         w_pq := w_pq w ++ [v]; w_pop := w_pop w |} (set_trk v (wid t) [OLock t v] r)
            else set_w t (set_ph Run w) r)
  end.
(** :244-255 unlock_touched_node; :257-264 seed nodes. *)
Definition ret (t u : nat) (x : Z) : oev := if (x =? 0)%Z then OFree t u else ORetire t u.
Definition release (t : nat) (w : worker) (todo : list (bool * nat)) (r : round) : option round :=
  match todo with
  | [] => Some (set_w t idle_worker r)
  | (seed, u) :: rest =>
      if seed && negb unlock_seeds then Some (set_w t (set_ph (Store (-2) u rest) w) r)
      else match nth_error (r_trk r) u with
           | None => None
           | Some x =>
               if (x =? -1)%Z then Some (set_w t (set_ph (Store (if unlock_moved then 0 else -2) u rest) w) r)
               else if (x =? wid t)%Z then Some (set_w t (set_ph (Store 0 u rest) w) r)
               else Some (set_w t (set_ph (Rel rest) w)
                     {| r_trk := r_trk r; r_next := r_next r; r_ws := r_ws r; r_log := r_log r ++ [ORetire t u]; r_seen := r_seen r |})
           end
  end.

(** Actions of a worker: start a batch if there are border nodes left (:521-527), the next step of what it is doing,
    look at neighbour [v] (:222-230), pop node [u] from a queue and mark it (:157-158), mark a popped node as globally
    moved (:176, :197), end the main loop and clear the queues (:240-242). Actions that are not possible have no effect. *)
Inductive act := ABatch | AStep | ATouch (v : nat) | APop (u : nat) | ACommit (u : nat) | AEnd.
Definition r_step (e : nat * act) (r : round) : option round :=
  let '(t, a) := e in
  match nth_error (r_ws r) t with
  | None => Some r
  | Some w =>
      match a, w_ph w with
      | ABatch, Idle => if (r_next r <? N.of_nat (length border))%N then Some (set_w t (set_ph (PCheck 0) w) r) else Some r
      | AStep, PCheck polled => Some (check t w polled r)
      | AStep, PFetch polled => Some (fetch t w polled r)
      | AStep, PScan polled cur to => scan t w polled cur to r
      | AStep, PLock polled cur to u => lock_seed t w polled cur to u r
      | AStep, Touch v => lock_touched t w v r
      | AStep, Rel todo => release t w todo r
      | AStep, Store x u todo => if u <? length (r_trk r) then Some (set_w t (set_ph (Rel todo) w) (set_trk u x [ret t u x] r)) else None
      | ATouch v, Run =>
          if v <? n then
            match nth_error (r_trk r) v with
            | None => None
            | Some x => Some (if (x =? 0)%Z then set_w t (set_ph (Touch v) w) r else r)
            end
          else Some r
      | APop u, Run =>
          if existsb (Nat.eqb u) (w_pq w) then
            Some (set_w t {| w_ph := Run; w_seeds := w_seeds w; w_touched := w_touched w;
                             w_pq := remove Nat.eq_dec u (w_pq w); w_pop := w_pop w ++ [u] |} (set_trk u (-1) [OMark t u] r))
          else Some r
      | ACommit u, Run => if existsb (Nat.eqb u) (w_pop w) then Some (set_trk u (-2) [OMark t u] r) else Some r
      | AEnd, Run =>
          Some (set_w t {| w_ph := Rel (map (pair true) (w_seeds w) ++ map (pair false) (w_touched w)); w_seeds := w_seeds w;
                           w_touched := w_touched w; w_pq := []; w_pop := [] |} r)
      | _, _ => Some r
      end
  end.
Fixpoint r_run (es : list (nat * act)) (r : round) : option round :=
  match es with
  | [] => Some r
  | e :: t => match r_step e r with None => None | Some r' => r_run t r' end
  end.
End Round.
