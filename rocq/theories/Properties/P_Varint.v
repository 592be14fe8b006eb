(* C22: variable length integers (kaminpar-common/graph_compression/varint.h). *)
From Verif Require Import Lib.Prelude Model.VarintModel Proofs.VarintProofs.
Local Open Scope Z_scope.

(** C22: an unsigned integer of any width is read back from the bytes written for it, and reading
    consumes exactly these bytes, whatever follows them. *)
Theorem C22_varint_roundtrip : forall w i suffix, 1 <= w -> 0 <= i < 2 ^ w ->
  varint_decode w (varint_encode w i ++ suffix) = Some (i, suffix).
Proof. exact varint_roundtrip. Qed.
Print Assumptions C22_varint_roundtrip.
Example C22_varint_roundtrip_ex :
  varint_encode 32 300 = [172; 2] /\ varint_decode 32 [172; 2; 99] = Some (300, [99]) /\
  length (varint_encode 64 (2 ^ 64 - 1)) = 10%nat.
Proof. vm_compute. auto. Qed.

(** C22: the announced length is the number of bytes written, it is at most varint_max_length, and
    bytes are bytes. *)
Theorem C22_varint_length : forall w i, 1 <= w -> 0 <= i < 2 ^ w ->
  Z.of_nat (length (varint_encode w i)) = varint_length w i /\
  1 <= varint_length w i <= varint_max_length w /\
  Forall (fun b => 0 <= b < 256) (varint_encode w i).
Proof. exact varint_encode_facts. Qed.
Print Assumptions C22_varint_length.
Example C22_varint_length_ex : varint_length 32 (2 ^ 32 - 1) = 5 /\ varint_max_length 32 = 5.
Proof. vm_compute. auto. Qed.

(** C22: marked integers: value and marker are read back. *)
Theorem C22_marked_varint_roundtrip : forall w i marked suffix, 7 <= w -> 0 <= i < 2 ^ w ->
  marked_varint_decode w (marked_varint_encode w i marked ++ suffix) = Some (i, marked, suffix).
Proof. exact marked_roundtrip. Qed.
Print Assumptions C22_marked_varint_roundtrip.
Example C22_marked_varint_roundtrip_ex :
  marked_varint_encode 32 1000 true = [232; 15] /\
  marked_varint_decode 32 [232; 15; 7] = Some (1000, true, [7]).
Proof. vm_compute. auto. Qed.

Theorem C22_marked_varint_length : forall w i marked, 7 <= w -> 0 <= i < 2 ^ w ->
  Z.of_nat (length (marked_varint_encode w i marked)) = marked_varint_length w i /\
  Forall (fun b => 0 <= b < 256) (marked_varint_encode w i marked).
Proof. exact marked_length. Qed.
Print Assumptions C22_marked_varint_length.
Example C22_marked_varint_length_ex : marked_varint_length 32 63 = 1 /\ marked_varint_length 32 64 = 2.
Proof. vm_compute. auto. Qed.

(** C22: signed integers (zigzag), including the most negative one. *)
Theorem C22_signed_varint_roundtrip : forall w i suffix, 2 <= w -> - 2 ^ (w - 1) <= i < 2 ^ (w - 1) ->
  signed_varint_decode w (signed_varint_encode w i ++ suffix) = Some (i, suffix).
Proof. exact signed_roundtrip. Qed.
Print Assumptions C22_signed_varint_roundtrip.
Example C22_signed_varint_roundtrip_ex :
  signed_varint_encode 32 (-3) = [5] /\ signed_varint_decode 32 [5; 1] = Some (-3, [1]) /\
  signed_varint_decode 64 (signed_varint_encode 64 (- 2 ^ 63)) = Some (- 2 ^ 63, []).
Proof. vm_compute. auto. Qed.

(** C22: the fast decoders (bit extraction on words) agree with the plain one. They load up to 8
    bytes at once; the bytes behind the code must exist but are irrelevant. *)
Theorem C22_fast_decode_32 : forall i suffix, 0 <= i < 2 ^ 32 ->
  Forall (fun b => 0 <= b < 256) suffix -> (7 <= length suffix)%nat ->
  varint_decode_pext_unrolled_32 (varint_encode 32 i ++ suffix) = Some (i, suffix).
Proof. exact pext_unrolled_32_ok. Qed.
Print Assumptions C22_fast_decode_32.
Example C22_fast_decode_32_ex :
  varint_decode_pext_unrolled_32 ([172; 2] ++ repeat 255 7) = Some (300, repeat 255 7).
Proof. vm_compute. auto. Qed.

Theorem C22_fast_decode_64 : forall i suffix, 0 <= i < 2 ^ 64 ->
  Forall (fun b => 0 <= b < 256) suffix -> (7 <= length suffix)%nat ->
  varint_decode_pext_unrolled_64 (varint_encode 64 i ++ suffix) = Some (i, suffix).
Proof. exact pext_unrolled_64_ok. Qed.
Print Assumptions C22_fast_decode_64.
Example C22_fast_decode_64_ex :
  varint_decode_pext_unrolled_64 (varint_encode 64 (2 ^ 64 - 1) ++ repeat 255 7) = Some (2 ^ 64 - 1, repeat 255 7).
Proof. vm_compute. auto. Qed.

Theorem C22_branchless_decode_32 : forall i suffix, 0 <= i < 2 ^ 32 ->
  Forall (fun b => 0 <= b < 256) suffix -> (7 <= length suffix)%nat ->
  varint_decode_pext_branchless_32 (varint_encode 32 i ++ suffix) = Some (i, suffix).
Proof. exact pext_branchless_32_ok. Qed.
Print Assumptions C22_branchless_decode_32.
Example C22_branchless_decode_32_ex :
  varint_decode_pext_branchless_32 (varint_encode 32 (2 ^ 32 - 1) ++ repeat 255 7) = Some (2 ^ 32 - 1, repeat 255 7).
Proof. vm_compute. auto. Qed.
