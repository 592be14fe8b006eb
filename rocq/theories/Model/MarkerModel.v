(* Model of kaminpar-common/datastructures/marker.h: time-stamped marks.
   [w] is the width of Value (32 or 64 bits), [k] is kNumConcurrentMarkers. The literals 1u are 32-bit
   unsigned integers, so [~((1u << k) - 1u)] is a 32-bit mask; used on a 64-bit Value it is
   zero-extended. Values are [Z]. *)
From Verif Require Import Lib.Prelude Spec.MarkSet.
Local Open Scope Z_scope.

Record marker := mkMarker { mr_data : list Z; mr_id : Z; mr_first : list nat }.

(** marker.h: (1u << kNumConcurrentMarkers) - 1u and its 32-bit complement. *)
Definition mr_low (k : Z) : Z := 2 ^ k - 1.
Definition mr_mask (k : Z) : Z := 2 ^ 32 - 2 ^ k.

(** marker.h:31-36: a marker for [n] elements. *)
Definition mr_make (k : Z) (n : nat) : marker := mkMarker (repeat 0 n) 0 (repeat 0%nat (Z.to_nat k)).

(** marker.h:66-70 get. *)
Definition mr_get (k : Z) (s : marker) (e m : nat) : bool :=
  let d := nth e (mr_data s) 0 in
  (Z.land d (mr_mask k) =? mr_id s) && negb (Z.land d (2 ^ Z.of_nat m) =? 0).

(** marker.h:53-58: advance the first unmarked element. *)
Fixpoint mr_advance (fuel : nat) (k : Z) (s : marker) (m p : nat) : nat :=
  match fuel with
  | 0%nat => p
  | S f => if (Nat.ltb p (length (mr_data s)) && mr_get k s p m)%bool then mr_advance f k s m (S p) else p
  end.

(** marker.h:45-59 set<track>. *)
Definition mr_set (k : Z) (track : bool) (s : marker) (e m : nat) : marker :=
  let d := nth e (mr_data s) 0 in
  let d' := if Z.land d (mr_mask k) =? mr_id s then Z.lor d (2 ^ Z.of_nat m)
            else Z.lor (mr_id s) (2 ^ Z.of_nat m) in
  let s1 := mkMarker (upd e d' (mr_data s)) (mr_id s) (mr_first s) in
  if track
  then mkMarker (mr_data s1) (mr_id s1)
         (upd m (mr_advance (length (mr_data s1)) k s1 m (nth m (mr_first s1) 0%nat)) (mr_first s1))
  else s1.

(** marker.h:61-64 first_unmarked_element. *)
Definition mr_first_unmarked (s : marker) (m : nat) : nat := nth m (mr_first s) 0%nat.

(** marker.h:82-98 reset. *)
Definition mr_reset (w k : Z) (s : marker) : marker :=
  let id := (Z.lor (mr_id s) (mr_low k) + 1) mod 2 ^ w in
  let first := map (fun _ => 0%nat) (mr_first s) in
  if Z.lor id (mr_low k) =? 2 ^ w - 1
  then mkMarker (map (fun _ => 0) (mr_data s)) 0 first
  else mkMarker (mr_data s) id first.

(** marker.h:100-103 resize (new elements are 0). *)
Definition mr_resize (n : nat) (s : marker) : marker :=
  mkMarker (firstn n (mr_data s) ++ repeat 0 (n - length (mr_data s))) (mr_id s) (mr_first s).

Definition mr_step (w k : Z) (s : marker) (o : mop) : marker :=
  match o with
  | MSet track e m => mr_set k track s e m
  | MReset => mr_reset w k s
  | MResize n => mr_resize n s
  end.
Definition mr_run (w k : Z) (ops : list mop) (s : marker) : marker := fold_left (mr_step w k) ops s.
