(* Model of kaminpar-common/datastructures/compact_static_array.h. [isz] = sizeof(Int). Memory is a list of bytes;
   accesses outside of it return [None]. *)
From Verif Require Import Lib.Prelude.
Local Open Scope Z_scope.

Section Arr.
Variable isz : nat.
(** :331-338 the members: byte width, size in bytes, number of values, bytes, unrestricted size / number of values. *)
Record carr := { ca_bw : nat; ca_size : nat; ca_num : nat; ca_bytes : list Z; ca_usize : nat; ca_unum : nat }.

(** :195-209 resize (make_unique value-initialises the bytes). *)
Definition ca_resize (bw n : nat) : carr :=
  let size := (n * bw + isz - bw)%nat in
  {| ca_bw := bw; ca_size := size; ca_num := n; ca_bytes := repeat 0 size; ca_usize := size; ca_unum := n |}.
(** :166-180 construction from existing bytes. *)
Definition ca_of_bytes (bw : nat) (data : list Z) : carr :=
  let size := length data in
  let n := ((size - (isz - bw)) / bw)%nat in
  {| ca_bw := bw; ca_size := size; ca_num := n; ca_bytes := data; ca_usize := size; ca_unum := n |}.
(** :216-224 restrict, :230-233 unrestrict. *)
Definition ca_restrict (m : nat) (a : carr) : carr :=
  {| ca_bw := ca_bw a; ca_size := (m * ca_bw a + isz - ca_bw a)%nat; ca_num := m; ca_bytes := ca_bytes a;
     ca_usize := ca_size a; ca_unum := ca_num a |}.
Definition ca_unrestrict (a : carr) : carr :=
  {| ca_bw := ca_bw a; ca_size := ca_usize a; ca_num := ca_unum a; ca_bytes := ca_bytes a;
     ca_usize := ca_usize a; ca_unum := ca_unum a |}.
(** :245-249 the store loop: [cnt] more bytes at position [at]. *)
Fixpoint ca_store (cnt at_ : nat) (v : Z) (bytes : list Z) : option (list Z) :=
  match cnt with
  | O => Some bytes
  | S c => if (at_ <? length bytes)%nat
           then ca_store c (S at_) (Z.shiftr v 8) (upd at_ (Z.land v 255) bytes)
           else None
  end.
(** :241-250 write. *)
Definition ca_write (pos : nat) (v : Z) (a : carr) : option carr :=
  match ca_store (ca_bw a) (pos * ca_bw a) v (ca_bytes a) with
  | None => None
  | Some b => Some {| ca_bw := ca_bw a; ca_size := ca_size a; ca_num := ca_num a; ca_bytes := b;
                      ca_usize := ca_usize a; ca_unum := ca_unum a |}
  end.
(** memcpy of [cnt] bytes into a zeroed little-endian integer. *)
Fixpoint ca_load (cnt at_ : nat) (bytes : list Z) : option Z :=
  match cnt with
  | O => Some 0
  | S c => match nth_error bytes at_, ca_load c (S at_) bytes with
           | Some x, Some y => Some (x + 256 * y)
           | _, _ => None
           end
  end.
(** :258-264 operator[]. *)
Definition ca_read (pos : nat) (a : carr) : option Z := ca_load (ca_bw a) (pos * ca_bw a) (ca_bytes a).
(** :271-283 begin, end and :47-59 the iterator's * and ++: the values seen by a loop from begin to end, at most
    [fuel] of them. *)
Fixpoint ca_iter (fuel at_ stop bw : nat) (bytes : list Z) : option (list Z) :=
  if (at_ =? stop)%nat then Some []
  else match fuel with
       | O => None
       | S f => match ca_load bw at_ bytes, ca_iter f (at_ + bw) stop bw bytes with
                | Some x, Some l => Some (x :: l)
                | _, _ => None
                end
       end.
Definition ca_values (a : carr) : option (list Z) :=
  ca_iter (length (ca_bytes a)) 0 (ca_size a - (isz - ca_bw a)) (ca_bw a) (ca_bytes a).

Fixpoint ca_writes (ws : list (nat * Z)) (a : carr) : option carr :=
  match ws with
  | [] => Some a
  | (i, v) :: t => match ca_write i v a with None => None | Some a' => ca_writes t a' end
  end.
End Arr.
