(* Model of kaminpar-common/datastructures/compact_hash_map.h.
   [w] = number of bits of Type, [kb] = _key_bits, [size] = capacity (a power of two, _value_mask = size - 1),
   [full] = allow_full_map. The array is a list of unsigned [w]-bit integers. The map is used by one thread at a time
   (the gain caches lock it for modifications); concurrent reads are not modelled. *)
From Verif Require Import Lib.Prelude Spec.CountMap.
Local Open Scope Z_scope.

Section Map.
Variables (w kb : Z) (size : nat) (full : bool).
(** :194-196 value_bits. *)
Definition vb : Z := w - kb.
(** :161-163 hash: key & _value_mask. *)
Definition ch_hash (k : Z) : nat := Z.to_nat (Z.land k (Z.of_nat size - 1)).
Definition ch_next (pos : nat) : nat := ch_hash (Z.of_nat pos + 1).
(** :173-175 decode_key, :177-179 decode_value, :181-188 encode_key_value. Shifts are by less than [w] if 0 < kb < w. *)
Definition ch_key (e : Z) : Z := Z.shiftr e vb.
Definition ch_val (e : Z) : Z := Z.shiftr ((Z.shiftl e kb) mod 2 ^ w) kb.
Definition ch_encode (k v : Z) : Z := Z.lor (Z.shiftl k vb) v mod 2 ^ w.

(** :140-159 find: the first probe is hash(key) (pos starts at key - 1). [fuel] bounds the number of probes; [None]
    means that the loop does not end. *)
Fixpoint ch_find_loop (fuel : nat) (data : list Z) (key : Z) (pos : nat) : option (nat * Z) :=
  match fuel with
  | O => None
  | S f =>
      let entry := nth pos data 0 in
      if negb (entry =? 0) && negb (ch_key entry =? key) && negb (full && (ch_next pos =? ch_hash key)%nat)
      then ch_find_loop f data key (ch_next pos)
      else Some (pos, entry)
  end.
Definition ch_find (data : list Z) (key : Z) : option (nat * Z) := ch_find_loop size data key (ch_hash key).

(** :120-136 movable. *)
Definition ch_movable (key : Z) (from to : nat) : bool :=
  (2 <=? Nat.b2n (from <? ch_hash key) + Nat.b2n (ch_hash key <=? to) + Nat.b2n (to <? from))%nat.

(** :58-75 the loop that closes the hole; [cur], [hole] are the positions before an iteration. *)
Fixpoint ch_erase_loop (fuel : nat) (start hole cur : nat) (data : list Z) : option (list Z) :=
  match fuel with
  | O => None
  | S f =>
      let cur' := ch_next cur in
      let e := nth cur' data 0 in
      let mv := (e =? 0) || ch_movable (ch_key e) cur' hole in
      let data' := if mv then upd hole e data else data in
      let hole' := if mv then cur' else hole in
      if negb (e =? 0) && (negb full || negb (cur' =? start)%nat)
      then ch_erase_loop f start hole' cur' data'
      else Some (if full then upd hole' 0 data' else data')
  end.

(** :47-78 decrease_by: the new array and the return value. *)
Definition ch_decrease (data : list Z) (key value : Z) : option (list Z * bool) :=
  match ch_find data key with
  | None => None
  | Some (pos, entry) =>
      if value <? ch_val entry then Some (upd pos (entry - value) data, false)
      else match ch_erase_loop size pos pos pos data with
           | None => None
           | Some data' => Some (data', true)
           end
  end.
(** :81-85 increase_by. *)
Definition ch_increase (data : list Z) (key value : Z) : option (list Z * bool) :=
  match ch_find data key with
  | None => None
  | Some (pos, entry) => Some (upd pos (ch_encode key (ch_val entry + value)) data, entry =? 0)
  end.
(** :87-94 get. *)
Definition ch_get (data : list Z) (key : Z) : option Z :=
  match ch_find data key with
  | None => None
  | Some (_, entry) => Some (if full then if ch_key entry =? key then ch_val entry else 0 else ch_val entry)
  end.
(** :100-106 count, :108-115 for_each. *)
Definition ch_count (data : list Z) : nat := length (filter (fun i => negb (nth i data 0 =? 0)) (seq 0 size)).
Definition ch_for_each (data : list Z) : list (Z * Z) :=
  flat_map (fun i => if nth i data 0 =? 0 then [] else [(ch_key (nth i data 0), ch_val (nth i data 0))]) (seq 0 size).

Definition ch_step (data : list Z) (o : cmop) : option (list Z * bool) :=
  match o with CInc k v => ch_increase data k v | CDec k v => ch_decrease data k v end.
(** The array and the values returned by the calls. *)
Fixpoint ch_run (ops : list cmop) (data : list Z) : option (list Z * list bool) :=
  match ops with
  | [] => Some (data, [])
  | o :: t =>
      match ch_step data o with
      | None => None
      | Some (data', r) => match ch_run t data' with None => None | Some (d, rs) => Some (d, r :: rs) end
      end
  end.
End Map.
