(* C24: the StreamVByte codec. *)
From Verif Require Import Lib.Prelude Spec.ByteCodec Model.StreamVByteModel Proofs.StreamVByte64.
Local Open Scope Z_scope.

(** C24: for every sequence of 32-bit integers, of every length, and every kind of differential coding, encoding into a
    buffer with room for four bytes per value succeeds, writes nothing behind the returned pointer, and decoding the encoded
    bytes, with any 15 or more bytes behind them, gives the sequence back, one by one or in pairs. Coding relative to the
    largest value requires a non-decreasing sequence. The decoder of pairs ends where the encoder ended. *)
Theorem C24_round_trip_32_partial : forall gap vs mem, fit 32 vs -> (gap = G_DM -> nondecreasing vs) ->
  (control_bytes (length vs) + 4 * length vs <= length mem)%nat ->
  exists mem' fin, svb_encode 4 gap vs mem = Some (mem', fin) /\
    (control_bytes (length vs) <= fin <= control_bytes (length vs) + 4 * length vs)%nat /\
    length mem' = length mem /\ skipn fin mem' = skipn fin mem /\
    forall behind, (15 <= length behind)%nat ->
      (exists pos, svb_decode32 gap (firstn fin mem' ++ behind) (length vs) = Some (vs, pos)) /\
      (Nat.even (length vs) = true ->
       exists ps, svb_decode32_pairs gap (firstn fin mem' ++ behind) (length vs) = Some (ps, fin) /\ listed_in_pairs ps vs).
Proof. exact round32. Qed.
Print Assumptions C24_round_trip_32_partial.
Example C24_round_trip_32_ex : let vs := [3; 9; 300; 70000; 20000000; 20000000; 4294967295] in
  fit 32 vs /\ nondecreasing vs /\
  svb_encode 4 G_DM vs (repeat 7 31) = Some ([144; 63; 3; 9; 44; 1; 112; 17; 1; 144; 27; 48; 1; 144; 27; 48; 1; 143; 238; 254; 255] ++ repeat 7 10, 21%nat) /\
  svb_decode32 G_DM ([144; 63; 3; 9; 44; 1; 112; 17; 1; 144; 27; 48; 1; 144; 27; 48; 1; 143; 238; 254; 255] ++ repeat 9 15) 7 = Some (vs, 9%nat).
Proof. cbv zeta. split; [repeat constructor; discriminate|]. split; [repeat constructor; discriminate|]. split; vm_compute; reflexivity. Qed.

(** C24: the numbers returned by the calls that add values sum up to the number of encoded bytes (32-bit integers). *)
Theorem C24_reported_sizes : forall gap vs mem, fit 32 vs -> (control_bytes (length vs) + 4 * length vs <= length mem)%nat ->
  exists s n mem', enc_adds 4 gap (enc_init (length vs) mem) vs = Some (s, n) /\ svb_encode 4 gap vs mem = Some (mem', n).
Proof. exact sizes_reported. Qed.
Print Assumptions C24_reported_sizes.

(** C24 for 64-bit integers holds only without differential coding and for values of one, two, four or eight bytes. *)
Theorem C24_round_trip_64_partial : forall vs mem,
  Forall (fun v => 0 <= v < 2 ^ 16 \/ 2 ^ 24 <= v < 2 ^ 32 \/ 2 ^ 56 <= v < 2 ^ 64) vs ->
  (control_bytes (length vs) + 8 * length vs <= length mem)%nat ->
  exists mem' fin, svb_encode 8 G_NONE vs mem = Some (mem', fin) /\ length mem' = length mem /\ skipn fin mem' = skipn fin mem /\
    forall behind, (15 <= length behind)%nat -> svb_decode64 G_NONE (firstn fin mem' ++ behind) (length vs) = Some vs.
Proof. exact round64. Qed.
Print Assumptions C24_round_trip_64_partial.
Example C24_round_trip_64_ex : let vs := [3; 300; 4294967295; 18446744073709551615; 0; 77; 16777216] in
  Forall (fun v => 0 <= v < 2 ^ 16 \/ 2 ^ 24 <= v < 2 ^ 32 \/ 2 ^ 56 <= v < 2 ^ 64) vs /\
  exists mem', svb_encode 8 G_NONE vs (repeat 7 58) = Some (mem', 23%nat) /\ svb_decode64 G_NONE mem' 7 = Some vs.
Proof. cbv zeta. split; [repeat (apply Forall_cons; [lia|]); apply Forall_nil|]. eexists. split; vm_compute; reflexivity. Qed.

(** A 64-bit value of three bytes (likewise five, six or seven) is stored without the padding that its length code
    announces: the padding is computed after the value has been shifted out. All later values of the group are lost. *)
Theorem C24_three_bytes_refuted : exists vs mem mem' fin got, fit 64 vs /\ svb_encode 8 G_NONE vs mem = Some (mem', fin) /\
  (fin + 15 <= length mem')%nat /\ svb_decode64 G_NONE mem' (length vs) = Some got /\ got <> vs.
Proof.
  exists [65536; 1], (repeat 0 40). do 3 eexists. split; [repeat constructor; discriminate|].
  split; [vm_compute; reflexivity|]. split; [vm_compute; lia|]. split; [vm_compute; reflexivity|discriminate].
Qed.
Print Assumptions C24_three_bytes_refuted.

(** With differential coding of any kind, decoding 64-bit values reports nothing for a group of four: small values, plenty
    of room. *)
Theorem C24_delta_64_refuted : forall gap, gap <> G_NONE -> exists vs mem mem' fin, vs <> [] /\ fit 16 vs /\ nondecreasing vs /\
  svb_encode 8 gap vs mem = Some (mem', fin) /\ (fin + 15 <= length mem')%nat /\ svb_decode64 gap mem' (length vs) = Some [].
Proof.
  intros gap H. exists [1; 2; 3; 4], (repeat 0 60). destruct gap; [congruence| | | |];
    (do 2 eexists; split; [discriminate|]; split; [repeat constructor; discriminate|]; split; [repeat constructor; discriminate|];
     split; [vm_compute; reflexivity|]; split; [vm_compute; lia|vm_compute; reflexivity]).
Qed.
Print Assumptions C24_delta_64_refuted.

(** Coding relative to the largest value: without the order the round trip is wrong, because the encoder refers to the
    largest value so far and the decoder to the last one. *)
Theorem C24_largest_unsorted_refuted : exists vs mem mem' fin got pos, fit 32 vs /\ svb_encode 4 G_DM vs mem = Some (mem', fin) /\
  (fin + 15 <= length mem')%nat /\ svb_decode32 G_DM mem' (length vs) = Some (got, pos) /\ got <> vs.
Proof.
  exists [0; 0; 0; 5; 0; 0; 0; 1; 0], (repeat 0 60). do 4 eexists. split; [repeat constructor; discriminate|].
  split; [vm_compute; reflexivity|]. split; [vm_compute; lia|]. split; [vm_compute; reflexivity|discriminate].
Qed.
Print Assumptions C24_largest_unsorted_refuted.

(** The decoder reads 16 bytes at once: with 14 bytes behind the encoded ones it reads past the end of the buffer. *)
Theorem C24_padding_needed : exists vs mem mem' fin, fit 32 vs /\ svb_encode 4 G_NONE vs mem = Some (mem', fin) /\
  (fin + 14)%nat = length mem' /\ svb_decode32 G_NONE mem' (length vs) = None.
Proof.
  exists [1], (repeat 0 16). do 2 eexists. split; [repeat constructor; discriminate|].
  split; [vm_compute; reflexivity|]. split; vm_compute; reflexivity.
Qed.
Print Assumptions C24_padding_needed.
