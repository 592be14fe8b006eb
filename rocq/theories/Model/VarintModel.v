(* Model of kaminpar-common/graph_compression/varint.h.
   Memory is a list of bytes (integers in [0, 256)); writing through [ptr] appends to the list and
   reading through [const uint8_t **] consumes a prefix of it. [w] is the width of the integer
   type in bits. Reading past the end of the list and shifting by [w] or more (undefined behaviour
   in C++) yield [None]. *)
From Verif Require Import Lib.Prelude.
Local Open Scope Z_scope.

(** Conversion to an unsigned resp. signed [w]-bit integer (C++20: two's complement). *)
Definition wrap_u (w x : Z) : Z := x mod 2 ^ w.
Definition wrap_s (w x : Z) : Z := (x + 2 ^ (w - 1)) mod 2 ^ w - 2 ^ (w - 1).

(** varint.h:27-29 varint_max_length: (sizeof(Int) * 8) / 7 + 1. *)
Definition varint_max_length (w : Z) : Z := w / 7 + 1.

(** varint.h:38-47 varint_length: number of 7 bit groups. The loop runs at most [w / 7 + 1] times
    on [w]-bit integers, which serves as fuel; running out of fuel yields length 0. *)
Fixpoint varint_length_loop (fuel : nat) (i : Z) : Z :=
  match fuel with
  | O => 0
  | S f => if 127 <? i then
             match varint_length_loop f (Z.shiftr i 7) with 0 => 0 | l => l + 1 end
           else 1
  end.
Definition varint_fuel (w : Z) : nat := Z.to_nat (varint_max_length w).
Definition varint_length (w i : Z) : Z := varint_length_loop (varint_fuel w) i.

(** varint.h:57-73 and 83-95 varint_encode: the bytes written. Running out of fuel is an error
    ([None]). *)
Fixpoint varint_encode_loop (fuel : nat) (i : Z) : option (list Z) :=
  match fuel with
  | O => None
  | S f => if 127 <? i then
             match varint_encode_loop f (Z.shiftr i 7) with
             | None => None
             | Some r => Some (Z.lor (Z.land i 127) 128 :: r)
             end
           else Some [Z.land i 127]
  end.
(** The empty list stands for the error case; no integer is encoded as the empty list. *)
Definition varint_encode (w i : Z) : list Z :=
  match varint_encode_loop (varint_fuel w) i with Some l => l | None => [] end.

(** varint.h:104-123 varint_decode, varint.h:133-152 varint_decode_loop: value and remaining bytes. *)
Fixpoint varint_decode_loop (w value shift : Z) (data : list Z) : option (Z * list Z) :=
  match data with
  | [] => None
  | octet :: data' =>
      if negb (shift <? w) then None
      else if Z.land octet 128 =? 0 then
        Some (Z.lor value (wrap_u w (Z.shiftl octet shift)), data')
      else
        varint_decode_loop w (Z.lor value (wrap_u w (Z.shiftl (Z.land octet 127) shift))) (shift + 7) data'
  end.
Definition varint_decode (w : Z) (data : list Z) : option (Z * list Z) := varint_decode_loop w 0 0 data.

(** varint.h:321-333 marked_varint_length. *)
Definition marked_varint_length (w i : Z) : Z :=
  let i := Z.shiftr i 6 in if 0 <? i then 1 + varint_length w i else 1.

(** varint.h:340-357 and 367-386 marked_varint_encode. *)
Definition marked_varint_encode (w i : Z) (marked : bool) : list Z :=
  let first := Z.land i 63 in
  let first := if marked then Z.lor first 64 else first in
  let i := Z.shiftr i 6 in
  if i =? 0 then [first] else Z.lor first 128 :: varint_encode w i.

(** varint.h:395-424 and 433-461 marked_varint_decode. *)
Definition marked_varint_decode (w : Z) (data : list Z) : option (Z * bool * list Z) :=
  match data with
  | [] => None
  | first :: data' =>
      let continuation := negb (Z.land first 128 =? 0) in
      let marked := negb (Z.land first 64 =? 0) in
      let result := Z.land first 63 in
      if continuation then
        match varint_decode_loop w result 6 data' with
        | None => None
        | Some (r, rest) => Some (r, marked, rest)
        end
      else Some (result, marked, data')
  end.

(** varint.h:469-471 zigzag_encode on a signed [w]-bit integer ([>>] is arithmetic). *)
Definition zigzag_encode (w i : Z) : Z :=
  wrap_u w (Z.lxor (Z.shiftr i (w - 1)) (wrap_s w (Z.shiftl i 1))).

(** varint.h:469-471 zigzag_encode instantiated with an unsigned type ([>>] is logical); this is
    the instance that compressed_edge_array_max_size uses. *)
Definition zigzag_encode_u (w i : Z) : Z :=
  wrap_u w (Z.lxor (Z.shiftr i (w - 1)) (wrap_u w (Z.shiftl i 1))).

(** varint.h:479-481 zigzag_decode: unsigned arithmetic, result converted to signed. *)
Definition zigzag_decode (w i : Z) : Z :=
  wrap_s w (Z.lxor (Z.shiftr i 1) (wrap_u w (- Z.land i 1))).

(** varint.h:490-539 signed variants. *)
Definition signed_varint_length (w i : Z) : Z := varint_length w (zigzag_encode w i).
Definition signed_varint_length_u (w i : Z) : Z := varint_length w (zigzag_encode_u w i).
Definition signed_varint_encode (w i : Z) : list Z := varint_encode w (zigzag_encode w i).
Definition signed_varint_decode (w : Z) (data : list Z) : option (Z * list Z) :=
  match varint_decode w data with
  | None => None
  | Some (i, rest) => Some (zigzag_decode w i, rest)
  end.

(** _pext_u32 / _pext_u64 (Intel BMI2): gather the bits of [src] selected by [mask], lowest first. *)
Fixpoint pext (bits : nat) (src mask : Z) : Z :=
  match bits with
  | O => 0
  | S b =>
      let rest := pext b (Z.shiftr src 1) (Z.shiftr mask 1) in
      if Z.odd mask then Z.b2z (Z.odd src) + 2 * rest else rest
  end.

(** Little-endian load of [k] bytes ([reinterpret_cast] of the data pointer); [None] if there are
    fewer than [k] bytes. *)
Fixpoint load_le (k : nat) (data : list Z) : option Z :=
  match k, data with
  | O, _ => Some 0
  | S _, [] => None
  | S k', b :: data' => match load_le k' data' with None => None | Some r => Some (b + 256 * r) end
  end.

(** The mask 0x7F7F...7F with [k] bytes. *)
Fixpoint mask_7f (k : nat) : Z := match k with O => 0 | S k' => 127 + 256 * mask_7f k' end.

Definition cont_bit (k : nat) (data : list Z) : bool := negb (Z.land (nth k data 0) 128 =? 0).

(** varint.h:162-198 varint_decode_pext_unrolled for 4-byte integers (fast decoding enabled). *)
Definition varint_decode_pext_unrolled_32 (data : list Z) : option (Z * list Z) :=
  match data with
  | [] => None
  | b0 :: _ =>
    if negb (cont_bit 0 data) then Some (Z.land b0 127, skipn 1 data)
    else match load_le 4 data with
    | None => None
    | Some word =>
      if negb (cont_bit 1 data) then Some (pext 32 word (mask_7f 2), skipn 2 data)
      else if negb (cont_bit 2 data) then Some (pext 32 word (mask_7f 3), skipn 3 data)
      else if negb (cont_bit 3 data) then Some (pext 32 word (mask_7f 4), skipn 4 data)
      else match load_le 8 data with
      | None => None
      | Some word => Some (wrap_u 32 (pext 64 word (mask_7f 5)), skipn 5 data)
      end
    end
  end.

(** varint.h:199-268 varint_decode_pext_unrolled for 8-byte integers. *)
Definition varint_decode_pext_unrolled_64 (data : list Z) : option (Z * list Z) :=
  match data with
  | [] => None
  | b0 :: _ =>
    if negb (cont_bit 0 data) then Some (Z.land b0 127, skipn 1 data)
    else match load_le 4 data with
    | None => None
    | Some word =>
      if negb (cont_bit 1 data) then Some (pext 32 word (mask_7f 2), skipn 2 data)
      else if negb (cont_bit 2 data) then Some (pext 32 word (mask_7f 3), skipn 3 data)
      else if negb (cont_bit 3 data) then Some (pext 32 word (mask_7f 4), skipn 4 data)
      else match load_le 8 data with
      | None => None
      | Some word =>
        if negb (cont_bit 4 data) then Some (pext 64 word (mask_7f 5), skipn 5 data)
        else if negb (cont_bit 5 data) then Some (pext 64 word (mask_7f 6), skipn 6 data)
        else if negb (cont_bit 6 data) then Some (pext 64 word (mask_7f 7), skipn 7 data)
        else if negb (cont_bit 7 data) then Some (pext 64 word (mask_7f 8), skipn 8 data)
        else match nth_error data 8 with
        | None => None
        | Some b8 =>
          if negb (cont_bit 8 data) then
            Some (Z.lor (pext 64 word (mask_7f 8)) (wrap_u 64 (Z.shiftl (Z.land b8 127) 56)), skipn 9 data)
          else match nth_error data 9 with
          | None => None
          | Some b9 =>
            Some (Z.lor (Z.lor (pext 64 word (mask_7f 8)) (wrap_u 64 (Z.shiftl (Z.land b8 127) 56)))
                    (wrap_u 64 (Z.shiftl b9 63)), skipn 10 data)
          end
        end
      end
    end
  end.

(** std::countr_zero. *)
Fixpoint countr_zero (bits : nat) (x : Z) : Z :=
  match bits with O => 0 | S b => if Z.odd x then 0 else 1 + countr_zero b (Z.shiftr x 1) end.

(** varint.h:283-299 varint_decode_pext_branchless for 4-byte integers. *)
Definition varint_decode_pext_branchless_32 (data : list Z) : option (Z * list Z) :=
  match load_le 8 data with
  | None => None
  | Some word =>
      let continuation_bits := Z.land (wrap_u 64 (Z.lnot word)) 551911719040 (* 0x8080808080 *) in
      let mask := Z.lxor continuation_bits (wrap_u 64 (continuation_bits - 1)) in
      let length := (countr_zero 64 continuation_bits + 1) / 8 in
      Some (wrap_u 32 (pext 64 (Z.land word mask) (mask_7f 5)), skipn (Z.to_nat length) data)
  end.
