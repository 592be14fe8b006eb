(* Model of kaminpar-common/datastructures/{fast_reset_array,sparse_map,fixed_size_sparse_map,rating_map}.h.
   Values are unbounded integers, Value() is 0. *)
From Verif Require Import Lib.Prelude Spec.RatingMap.

(** ** fast_reset_array.h *)
Record fra := mkFra { fa_data : list Z; fa_used : list nat }.
(** fast_reset_array.h:27-29: [n] zeros. *)
Definition fra_make (n : nat) : fra := mkFra (repeat 0%Z n) [].
(** :36-50 operator[]: note the position if the value is zero. The new value written by the caller through
    the reference is [f old]. *)
Definition fra_modify (a : fra) (k : nat) (f : Z -> Z) : fra :=
  let used := if (nth k (fa_data a) 0 =? 0)%Z then fa_used a ++ [k] else fa_used a in
  mkFra (upd k (f (nth k (fa_data a) 0%Z)) (fa_data a)) used.
(** :55-57 get. *)
Definition fra_get (a : fra) (k : nat) : Z := nth k (fa_data a) 0%Z.
(** :78-86 entries. *)
Definition fra_entries (a : fra) : list (nat * Z) := map (fun p => (p, nth p (fa_data a) 0%Z)) (fa_used a).
(** :88-93 clear. *)
Definition fra_clear (a : fra) : fra := mkFra (fold_left (fun d p => upd p 0%Z d) (fa_used a) (fa_data a)) [].
Definition fra_step (a : fra) (o : rop) : fra :=
  match o with RAdd k v => fra_modify a k (fun x => (x + v)%Z) | RClear => fra_clear a end.
Definition fra_run (ops : list rop) (a : fra) : fra := fold_left fra_step ops a.

(** ** sparse_map.h; the arrays are not initialised. *)
Record smap := mkSmap { sp_sparse : list nat; sp_dense : list (nat * Z); sp_size : nat }.
(** sparse_map.h:51-54, :143-: arrays of [n] entries with arbitrary contents. *)
Definition smap_make (sparse : list nat) (dense : list (nat * Z)) : smap := mkSmap sparse dense 0.
(** :79-85 contains. *)
Definition smap_contains (m : smap) (k : nat) : bool :=
  let i := nth k (sp_sparse m) 0 in (i <? sp_size m) && (fst (nth i (sp_dense m) (0, 0%Z)) =? k).
(** :87-92 add. *)
Definition smap_add (m : smap) (k : nat) (v : Z) : smap :=
  if smap_contains m k then m
  else mkSmap (upd k (sp_size m) (sp_sparse m)) (upd (sp_size m) (k, v) (sp_dense m)) (S (sp_size m)).
(** :94-101 remove. *)
Definition smap_remove (m : smap) (k : nat) : smap :=
  let i := nth k (sp_sparse m) 0 in
  if (i <? sp_size m) && (fst (nth i (sp_dense m) (0, 0%Z)) =? k)
  then let last := nth (sp_size m - 1) (sp_dense m) (0, 0%Z) in
       let dense := upd (sp_size m - 1) (nth i (sp_dense m) (0, 0%Z)) (upd i last (sp_dense m)) in
       mkSmap (upd (fst (nth i dense (0, 0%Z))) i (sp_sparse m)) dense (sp_size m - 1)
  else m.
(** :123-125 clear. *)
Definition smap_clear (m : smap) : smap := mkSmap (sp_sparse m) (sp_dense m) 0.
(** :127-134 operator[] followed by a write of [f old]. *)
Definition smap_modify (m : smap) (k : nat) (f : Z -> Z) : smap :=
  let m' := smap_add m k 0%Z in
  let i := nth k (sp_sparse m') 0 in
  mkSmap (sp_sparse m') (upd i (fst (nth i (sp_dense m') (0, 0%Z)), f (snd (nth i (sp_dense m') (0, 0%Z)))) (sp_dense m'))
    (sp_size m').
(** :136-139 get; :103-121 begin, end, entries. *)
Definition smap_get (m : smap) (k : nat) : Z := snd (nth (nth k (sp_sparse m) 0) (sp_dense m) (0, 0%Z)).
Definition smap_entries (m : smap) : list (nat * Z) := firstn (sp_size m) (sp_dense m).
Definition smap_step (m : smap) (o : smop) : smap :=
  match o with
  | SmAdd k v => smap_add m k v
  | SmSet k v => smap_modify m k (fun _ => v)
  | SmRemove k => smap_remove m k
  | SmClear => smap_clear m
  end.
Definition smap_run (ops : list smop) (m : smap) : smap := fold_left smap_step ops m.
Definition smap_rstep (m : smap) (o : rop) : smap :=
  match o with RAdd k v => smap_modify m k (fun x => (x + v)%Z) | RClear => smap_clear m end.
Definition smap_rrun (ops : list rop) (m : smap) : smap := fold_left smap_rstep ops m.

(** ** fixed_size_sparse_map.h; a slot holds the index of a dense element and a time stamp. The hash function
    (murmur64, :63-70) is a parameter: any function. [ms] = _map_size. *)
Record fsm := mkFsm { fm_sparse : list (nat * nat); fm_dense : list (nat * Z); fm_size : nat; fm_ts : nat }.
(** :182-200 allocate (map size [ms], zeroed). *)
Definition fsm_make (ms : nat) : fsm := mkFsm (repeat (0, 0) ms) (repeat (0, 0%Z) ms) 0 1.
Definition fsm_slot (m : fsm) (s : nat) : nat * nat := nth s (fm_sparse m) (0, 0).
(** :155-166 find: the first slot from the hash on that is not in use or holds the key. [fuel] bounds the
    probing; running out of it ([None]) means that the loop does not end. The mask by _map_size - 1 is
    written as a remainder. *)
Fixpoint fsm_find (fuel : nat) (ms : nat) (m : fsm) (key s : nat) : option nat :=
  match fuel with
  | 0 => None
  | S f =>
      if snd (fsm_slot m s) =? fm_ts m
      then if fst (nth (fst (fsm_slot m s)) (fm_dense m) (0, 0%Z)) =? key then Some s
           else fsm_find f ms m key (S s mod ms)
      else Some s
  end.
Definition fsm_lookup (hash : nat -> nat) (ms : nat) (m : fsm) (key : nat) : option nat :=
  fsm_find ms ms m key (hash key mod ms).
(** :135-143 operator[] followed by a write of [f old]; :175-180 addElement. *)
Definition fsm_modify (hash : nat -> nat) (ms : nat) (m : fsm) (key : nat) (f : Z -> Z) : option fsm :=
  match fsm_lookup hash ms m key with
  | None => None
  | Some s =>
      if snd (fsm_slot m s) =? fm_ts m
      then let i := fst (fsm_slot m s) in
           let e := nth i (fm_dense m) (0, 0%Z) in
           Some (mkFsm (fm_sparse m) (upd i (fst e, f (snd e)) (fm_dense m)) (fm_size m) (fm_ts m))
      else Some (mkFsm (upd s (fm_size m, fm_ts m) (fm_sparse m)) (upd (fm_size m) (key, f 0%Z) (fm_dense m))
                   (S (fm_size m)) (fm_ts m))
  end.
(** :145-148 clear. *)
Definition fsm_clear (m : fsm) : fsm := mkFsm (fm_sparse m) (fm_dense m) 0 (S (fm_ts m)).
(** :113-124 begin, end; contains, get. *)
Definition fsm_entries (m : fsm) : list (nat * Z) := firstn (fm_size m) (fm_dense m).
Definition fsm_contains (hash : nat -> nat) (ms : nat) (m : fsm) (key : nat) : option bool :=
  match fsm_lookup hash ms m key with None => None | Some s => Some (snd (fsm_slot m s) =? fm_ts m) end.
Definition fsm_get (hash : nat -> nat) (ms : nat) (m : fsm) (key : nat) : option Z :=
  match fsm_lookup hash ms m key with None => None | Some s => Some (snd (nth (fst (fsm_slot m s)) (fm_dense m) (0, 0%Z))) end.
Definition fsm_step (hash : nat -> nat) (ms : nat) (m : option fsm) (o : rop) : option fsm :=
  match m with
  | None => None
  | Some m => match o with RAdd k v => fsm_modify hash ms m k (fun x => (x + v)%Z) | RClear => Some (fsm_clear m) end
  end.
Definition fsm_run (hash : nat -> nat) (ms : nat) (ops : list rop) (m : option fsm) : option fsm :=
  fold_left (fsm_step hash ms) ops m.

(** ** rating_map.h:114-127 execute, :152-167 select_map: the entries seen at the end of one use of the map
    (a sequence of map[k] += v, starting from a cleared map). The maps are kept between uses; by the theorems
    about clear() a cleared map behaves like a new one, so a new one is used here. *)
Inductive rmap_kind := SuperSmall | Small | Large.
Definition rmap_select (max_size upper_bound : nat) : rmap_kind :=
  if upper_bound <? 128 / 3 then SuperSmall
  else if (max_size <? Z.to_nat 32768) || (Z.to_nat 32768 / 3 <? upper_bound) then Large else Small.
Definition rmap_execute (hash : nat -> nat) (max_size upper_bound : nat) (ops : list rop) : option (list (nat * Z)) :=
  match rmap_select max_size upper_bound with
  | SuperSmall => option_map fsm_entries (fsm_run hash 128 ops (Some (fsm_make 128)))
  | Small => option_map fsm_entries (fsm_run hash (Z.to_nat 32768) ops (Some (fsm_make (Z.to_nat 32768))))
  | Large => Some (fra_entries (fra_run ops (fra_make max_size)))
  end.
