(* Model of kaminpar-common/datastructures/dynamic_map.h: DynamicFlatMap ([rem = false]) and DynamicRememberingFlatMap
   ([rem = true]). [hash] is murmur64 (:140-147, :244-251); nothing is assumed about it, and the theorems hold for every
   function. The capacity is the length of the slot array; [tw] is the width of the timestamp type in bits. [None] is an
   endless probe loop. Allocation (memory is zeroed, :88-90) always succeeds. *)
From Verif Require Import Lib.Prelude Spec.KeyedList.

Section M.
Context {V : Type}.
Variables (rem : bool) (tw : N) (hash : nat -> nat) (dflt : V).

(** :134-138 / :238-242 MapElement. *)
Record slot := mkSlot { sl_key : nat; sl_val : V; sl_ts : N }.
(** Zeroed memory. *)
Definition slot0 : slot := {| sl_key := 0; sl_val := dflt; sl_ts := 0 |}.
Record dmap := mkDmap { dm_slots : list slot; dm_size : nat; dm_ts : N; dm_used : list nat }.

Definition dm_cap (m : dmap) : nat := length (dm_slots m).
Definition dm_slot (m : dmap) (i : nat) : slot := nth i (dm_slots m) slot0.
Definition dm_live (m : dmap) (i : nat) : bool := (sl_ts (dm_slot m i) =? dm_ts m)%N.

(** :76-93 constructor, initialize(16), initialize_impl :196-200 / :312-315. *)
Definition dm_blank (cap : nat) : dmap := {| dm_slots := repeat slot0 cap; dm_size := 0; dm_ts := 1; dm_used := [] |}.
Definition dm_make : dmap := dm_blank 16.

(** :175-184 / :286-298 find_impl; the mask of the capacity (a power of two) is the remainder. The position and whether
    the key is there (the invalid bit is not set). *)
Fixpoint dm_find_loop (fuel : nat) (m : dmap) (key h : nat) : option (nat * bool) :=
  match fuel with
  | 0 => None
  | S fl =>
      if dm_live m h then
        if sl_key (dm_slot m h) =? key then Some (h, true) else dm_find_loop fl m key (S h mod dm_cap m)
      else Some (h, false)
  end.
Definition dm_find (m : dmap) (key : nat) : option (nat * bool) := dm_find_loop (dm_cap m) m key (hash key mod dm_cap m).

(** :190-194 / :304-310 add_element_impl. *)
Definition dm_add (m : dmap) (key : nat) (v : V) (pos : nat) : dmap :=
  {| dm_slots := upd pos {| sl_key := key; sl_val := v; sl_ts := dm_ts m |} (dm_slots m);
     dm_size := S (dm_size m); dm_ts := dm_ts m;
     dm_used := if rem then dm_used m ++ [pos] else dm_used m |}.
(** :202-214 rehash_impl of the flat map: every live slot of the old array, in order, is inserted again. *)
Definition dm_rehash_flat (old : dmap) (new : dmap) : option dmap :=
  fold_left (fun a s => match a with
                        | None => None
                        | Some m => if (sl_ts s =? dm_ts old)%N then
                                      match dm_find m (sl_key s) with
                                      | None => None
                                      | Some (pos, _) => Some (dm_add m (sl_key s) (sl_val s) pos)
                                      end
                                    else Some m
                        end) (dm_slots old) (Some new).
(** :317-334 rehash_impl of the remembering map: the used positions, in order, are mapped to new positions. *)
Fixpoint dm_rehash_used (old : dmap) (todo : list nat) (done : list nat) (m : dmap) : option dmap :=
  match todo with
  | [] => Some {| dm_slots := dm_slots m; dm_size := dm_size m; dm_ts := dm_ts m; dm_used := done |}
  | pos :: t =>
      let e := dm_slot old pos in
      match dm_find m (sl_key e) with
      | None => None
      | Some (np, _) =>
          dm_rehash_used old t (done ++ [np])
            {| dm_slots := upd np {| sl_key := sl_key e; sl_val := sl_val e; sl_ts := dm_ts m |} (dm_slots m);
               dm_size := dm_size m; dm_ts := dm_ts m; dm_used := dm_used m |}
      end
  end.
(** :100-110 grow. The old size limits the number of used positions that are carried over (:324-327). *)
Definition dm_grow (m : dmap) : option dmap :=
  let new := dm_blank (2 * dm_cap m) in
  if rem then
    dm_rehash_used m (firstn (dm_size m) (dm_used m)) []
      {| dm_slots := dm_slots new; dm_size := dm_size m; dm_ts := dm_ts new; dm_used := [] |}
  else dm_rehash_flat m new.
(** :36-47 operator[], followed by an assignment through the returned reference. *)
Definition dm_set_at (m : dmap) (pos : nat) (f : V -> V) : dmap :=
  let s := dm_slot m pos in
  {| dm_slots := upd pos {| sl_key := sl_key s; sl_val := f (sl_val s); sl_ts := sl_ts s |} (dm_slots m);
     dm_size := dm_size m; dm_ts := dm_ts m; dm_used := dm_used m |}.
Definition dm_modify (m : dmap) (key : nat) (f : V -> V) : option dmap :=
  match dm_find m key with
  | None => None
  | Some (pos, true) => Some (dm_set_at m pos f)
  | Some (pos, false) =>
      if dm_cap m * 2 / 5 <? S (dm_size m) then
        match dm_grow m with
        | None => None
        | Some m' => match dm_find m' key with
                     | None => None
                     | Some (pos', _) => Some (dm_set_at (dm_add m' key dflt pos') pos' f)
                     end
        end
      else Some (dm_set_at (dm_add m key dflt pos) pos f)
  end.
(** :53-60 get_if_contained. [Some None] is the null pointer. *)
Definition dm_get (m : dmap) (key : nat) : option (option V) :=
  match dm_find m key with
  | None => None
  | Some (pos, true) => Some (Some (sl_val (dm_slot m pos)))
  | Some (_, false) => Some None
  end.
(** :66-69 clear, :216-218 / :336-339 clear_impl; the timestamp wraps around. *)
Definition dm_clear (m : dmap) : dmap :=
  {| dm_slots := dm_slots m; dm_size := 0; dm_ts := ((dm_ts m + 1) mod 2 ^ tw)%N; dm_used := if rem then [] else dm_used m |}.
(** :162-168 for_each of the flat map: by position; :266-271 for_each and :273-279 entries of the remembering map: by
    order of insertion. *)
Definition dm_for_each (m : dmap) : list (nat * V) :=
  if rem then map (fun p => (sl_key (dm_slot m p), sl_val (dm_slot m p))) (dm_used m)
  else map (fun p => (sl_key (dm_slot m p), sl_val (dm_slot m p))) (filter (dm_live m) (seq 0 (dm_cap m))).

Definition dm_step (o : kop V) (m : dmap) : option dmap :=
  match o with KModify k f => dm_modify m k f | KClear => Some (dm_clear m) end.
Fixpoint dm_run (ops : list (kop V)) (m : dmap) : option dmap :=
  match ops with
  | [] => Some m
  | o :: t => match dm_step o m with None => None | Some m' => dm_run t m' end
  end.
End M.
Arguments slot : clear implicits. Arguments dmap : clear implicits.
