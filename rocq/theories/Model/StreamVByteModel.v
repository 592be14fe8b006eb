(* Model of kaminpar-common/graph_compression/streamvbyte.h (encoder, and the x86-64 decoder; the ARM decoder of 32-bit
   integers computes the same lanes). Integers are unsigned. Memory is the list of bytes from the pointer passed to the
   constructor on; an access outside of it is [None]. *)
From Verif Require Import Lib.Prelude Model.MathModel Model.VarintModel.
Local Open Scope Z_scope.

(** :27-33 DifferentialCodingKind. *)
Inductive gapkind := G_NONE | G_D1 | G_D2 | G_DM | G_D4.

Section Width.
(** sizeof(Int): 4 or 8. *)
Variable W : nat.
Definition w_bits : Z := 8 * Z.of_nat W.

(** math.h byte_width. *)
Definition bwidth (v : Z) : nat := N.to_nat (byte_width (Z.to_N v)).
(** :44-69 required_byte_width. *)
Definition required_byte_width (v : Z) : nat :=
  if Nat.eqb W 4 then bwidth v
  else match bwidth v with 1%nat => 1%nat | 2%nat => 2%nat | 3%nat | 4%nat => 4%nat | _ => 8%nat end.
(** :71-90 encoded_byte_width. *)
Definition encoded_byte_width (v : Z) : Z :=
  if Nat.eqb W 4 then Z.of_nat (required_byte_width v) - 1
  else match required_byte_width v with 1%nat => 0 | 2%nat => 1 | 4%nat => 2 | _ => 3 end.

Section Encoder.
Variable gap : gapkind.
(** :154-168 the members. [e_buf]: the buffered values, oldest first; the entries of _buffer behind them are 0. *)
Record enc := { e_mem : list Z; e_ctl : nat; e_dat : nat; e_buf : list Z;
                e_p1 : Z; e_p2 : Z; e_p3 : Z; e_p4 : Z; e_pmax : Z; e_nmax : Z }.
(** :93-105 the constructor. *)
Definition enc_init (num_values : nat) (mem : list Z) : enc :=
  {| e_mem := mem; e_ctl := 0; e_dat := N.to_nat (div_ceil (N.of_nat num_values) 4); e_buf := [];
     e_p1 := 0; e_p2 := 0; e_p3 := 0; e_p4 := 0; e_pmax := 0; e_nmax := 0 |}.
(** A store through a pointer, and several of them with the pointer advancing. *)
Definition put (pos : nat) (b : Z) (mem : list Z) : option (list Z) :=
  if Nat.ltb pos (length mem) then Some (upd pos b mem) else None.
Fixpoint put_all (pos : nat) (bs mem : list Z) : option (list Z) :=
  match bs with
  | [] => Some mem
  | b :: t => match put pos b mem with None => None | Some m => put_all (S pos) t m end
  end.
(** :180-183 do { store the low byte; value >>= 8 } while (value > 0): the bytes stored and the remaining value. *)
Fixpoint value_loop (fuel : nat) (v : Z) : list Z * Z :=
  match fuel with
  | O => ([], v)
  | S f => let v' := Z.shiftr v 8 in
           if 0 <? v' then let '(bs, r) := value_loop f v' in (v mod 256 :: bs, r) else ([v mod 256], v')
  end.
(** :177-191 the bytes stored for one value (the padding is computed from the value left over by the loop). *)
Definition value_bytes (v : Z) : list Z :=
  let '(bs, r) := value_loop W v in
  bs ++ (if Nat.eqb W 8 then repeat 0 (required_byte_width r - bwidth r) else []).
(** :171-175 the control byte. *)
Definition control_byte (buf : list Z) : Z :=
  let w i := encoded_byte_width (nth i buf 0) in
  Z.lor (Z.lor (Z.lor (Z.shiftl (w 3%nat) 6) (Z.shiftl (w 2%nat) 4)) (Z.shiftl (w 1%nat) 2)) (w 0%nat).
(** :170-196 unchecked_flush of the buffered values. *)
Definition unchecked_flush (s : enc) : option enc :=
  let data := concat (map value_bytes (e_buf s)) in
  match put (e_ctl s) (control_byte (e_buf s)) (e_mem s) with
  | None => None
  | Some m =>
      match put_all (e_dat s) data m with
      | None => None
      | Some m => Some {| e_mem := m; e_ctl := S (e_ctl s); e_dat := e_dat s + length data; e_buf := [];
                          e_p1 := e_p1 s; e_p2 := e_p2 s; e_p3 := e_p3 s; e_p4 := e_p4 s; e_pmax := e_pmax s; e_nmax := e_nmax s |}
      end
  end.
Definition sub (a b : Z) : Z := wrap_u w_bits (a - b).
(** :107-145 add: the new state and the returned number of bytes. *)
Definition enc_add (s : enc) (value : Z) : option (enc * nat) :=
  let '(v, p1, p2, p3, p4, nmax) :=
    match gap with
    | G_NONE => (value, e_p1 s, e_p2 s, e_p3 s, e_p4 s, e_nmax s)
    | G_D1 => (sub value (e_p1 s), value, e_p2 s, e_p3 s, e_p4 s, e_nmax s)
    | G_D2 => (sub value (e_p2 s), value, e_p1 s, e_p3 s, e_p4 s, e_nmax s)
    | G_DM => (sub value (e_pmax s), e_p1 s, e_p2 s, e_p3 s, e_p4 s, Z.max (e_pmax s) value)
    | G_D4 => (sub value (e_p4 s), value, e_p1 s, e_p2 s, e_p3 s, e_nmax s)
    end in
  let buf := e_buf s ++ [v] in
  let full := Nat.eqb (length (e_buf s)) 3 in
  let dm := match gap with G_DM => full | _ => false end in
  let s' := {| e_mem := e_mem s; e_ctl := e_ctl s; e_dat := e_dat s; e_buf := buf; e_p1 := p1; e_p2 := p2; e_p3 := p3; e_p4 := p4;
               e_pmax := if dm then nmax else e_pmax s; e_nmax := if dm then 0 else nmax |} in
  if full then match unchecked_flush s' with None => None | Some s'' => Some (s'', required_byte_width v) end
  else Some (s', required_byte_width v + (if Nat.eqb (length (e_buf s)) 0 then 1 else 0))%nat.
(** :147-153 flush. *)
Definition enc_flush (s : enc) : option enc := match e_buf s with [] => Some s | _ => unchecked_flush s end.
(** A caller that adds all values; the second result is the sum of the returned numbers. *)
Fixpoint enc_adds (s : enc) (vs : list Z) : option (enc * nat) :=
  match vs with
  | [] => Some (s, 0%nat)
  | v :: t => match enc_add s v with
              | None => None
              | Some (s, r) => match enc_adds s t with None => None | Some (s, r') => Some (s, r + r')%nat end
              end
  end.
(** Construction, add for every value, flush: the memory and the returned pointer. *)
Definition svb_encode (vs mem : list Z) : option (list Z * nat) :=
  match enc_adds (enc_init (length vs) mem) vs with
  | None => None
  | Some (s, _) => match enc_flush s with None => None | Some s => Some (e_mem s, e_dat s) end
  end.
End Encoder.

(* ---------------------------------------------------------------------------------------------------- decoder *)
(** :224-265, :267-328 the length of the [i]-th value of a control byte. *)
Definition header (ctl : Z) (i : nat) : Z := Z.land (Z.shiftr ctl (2 * Z.of_nat i)) 3.
Definition actual_length (h : Z) : nat :=
  if Nat.eqb W 4 then Z.to_nat (h + 1)
  else if h =? 0 then 1 else if h =? 1 then 2 else if h =? 2 then 4 else 8.
(** Values per 128-bit register; for 64-bit values the table index is half a control byte. *)
Definition lanes_per_reg : nat := 16 / W.
Definition lengths (ctl : Z) : list nat := map (fun i => actual_length (header ctl i)) (seq 0 lanes_per_reg).
Definition length_table (ctl : Z) : nat := fold_right Nat.add 0%nat (lengths ctl).
(** The rows of the shuffle table: source positions, 255 for a zero byte. *)
Fixpoint shuffle_rows (byte : nat) (lens : list nat) : list nat :=
  match lens with
  | [] => []
  | l :: t => (seq byte l ++ repeat 255%nat (W - l)) ++ shuffle_rows (byte + l) t
  end.
Definition shuffle_table (ctl : Z) : list nat := shuffle_rows 0 (lengths ctl).
(** _mm_loadu_si128: 16 bytes. *)
Definition load16 (mem : list Z) (pos : nat) : option (list Z) :=
  if Nat.leb (pos + 16) (length mem) then Some (firstn 16 (skipn pos mem)) else None.
(** _mm_shuffle_epi8. *)
Definition shuffle_epi8 (data : list Z) (mask : list nat) : list Z :=
  map (fun m => if Nat.leb 128 m then 0 else nth (m mod 16) data 0) mask.
(** The lanes of a register (little-endian). *)
Definition le_bytes (bs : list Z) : Z := fold_right (fun b a => b + 256 * a) 0 bs.
Definition lanes (reg : list Z) : list Z :=
  map (fun i => le_bytes (firstn W (skipn (i * W) reg))) (seq 0 lanes_per_reg).
Definition decode_reg (mem : list Z) (pos : nat) (ctl : Z) : option (list Z) :=
  match load16 mem pos with None => None | Some data => Some (lanes (shuffle_epi8 data (shuffle_table ctl))) end.
End Width.

(** :362-391 decode_gaps for 32-bit lanes (lane 0 first). _mm_slli_si128 by 4 (8) bytes moves the lanes up by one (two). *)
Definition add32 (a b : Z) : Z := wrap_u 32 (a + b).
Definition add4 (a b : list Z) : list Z := map (fun p => add32 (fst p) (snd p)) (combine a b).
Definition slli (k : nat) (a : list Z) : list Z := firstn 4 (repeat 0 k ++ a).
Definition bcast (k : nat) (a : list Z) : list Z := repeat (nth k a 0) 4.
Definition decode_gaps (gap : gapkind) (prev data : list Z) : list Z :=
  match gap with
  | G_NONE => data
  | G_D1 => let temp := add4 (slli 2 data) data in add4 (add4 (slli 1 temp) temp) (bcast 3 prev)
  | G_D2 => add4 (add4 (slli 2 data) data) [nth 2 prev 0; nth 3 prev 0; nth 2 prev 0; nth 3 prev 0]
  | G_DM => add4 data (bcast 3 prev)
  | G_D4 => add4 data prev
  end.

Section Decode32.
Variable gap : gapkind.
Variable mem : list Z.
(** :393-439 the loop over the full groups [i], ..., [i + cnt - 1]: values passed to the callback (a callback that asks to
    stop sees a prefix of them), data pointer, registers. *)
Fixpoint groups32 (cnt i pos : nat) (prev : list Z) : option (list Z * nat * list Z) :=
  match cnt with
  | O => Some ([], pos, prev)
  | S c =>
      match nth_error mem i with
      | None => None
      | Some ctl =>
          match decode_reg 4 mem pos ctl with
          | None => None
          | Some data =>
              let prev := decode_gaps gap prev data in
              match groups32 c (S i) (pos + length_table 4 ctl) prev with
              | None => None
              | Some (vs, pos, last) => Some (prev ++ vs, pos, last)
              end
          end
      end
  end.
(** :330-340 the constructor, :353-538 decode32 with PassPairs = false: the values and the final data pointer. *)
Definition svb_decode32 (n : nat) : option (list Z * nat) :=
  let cnt := (n / 4)%nat in
  let start := (cnt + if Nat.eqb (n mod 4) 0 then 0 else 1)%nat in
  match groups32 cnt 0 start [0; 0; 0; 0] with
  | None => None
  | Some (vs, pos, prev) =>
      if Nat.eqb (n mod 4) 0 then Some (vs, pos)
      else match nth_error mem cnt with
           | None => None
           | Some ctl => match decode_reg 4 mem pos ctl with
                         | None => None
                         | Some data => Some (vs ++ firstn (n mod 4) (decode_gaps gap prev data), pos)
                         end
           end
  end.
(** PassPairs = true (:404-407, :441-464): the values are passed in pairs; a partial group is decoded if it has two
    values, and the data pointer is moved behind it. *)
Fixpoint pairs_of (l : list Z) : list (Z * Z) :=
  match l with a :: b :: t => (a, b) :: pairs_of t | _ => [] end.
Definition svb_decode32_pairs (n : nat) : option (list (Z * Z) * nat) :=
  let cnt := (n / 4)%nat in
  let start := (cnt + if Nat.eqb (n mod 4) 0 then 0 else 1)%nat in
  match groups32 cnt 0 start [0; 0; 0; 0] with
  | None => None
  | Some (vs, pos, prev) =>
      if Nat.eqb (n mod 4) 2
      then match nth_error mem cnt with
           | None => None
           | Some ctl => match decode_reg 4 mem pos ctl with
                         | None => None
                         | Some data => Some (pairs_of vs ++ pairs_of (firstn 2 (decode_gaps gap prev data)), (pos + length_table 4 ctl - 2)%nat)
                         end
           end
      else Some (pairs_of vs, pos)
  end.
End Decode32.

Section Decode64.
Variable gap : gapkind.
Variable mem : list Z.
(** :744-790 the loop over the full groups: two registers per control byte; with differential coding nothing is passed to
    the callback. *)
Fixpoint groups64 (cnt i pos : nat) : option (list Z * nat) :=
  match cnt with
  | O => Some ([], pos)
  | S c =>
      match nth_error mem i with
      | None => None
      | Some ctl =>
          let lh := Z.land ctl 15 in let uh := Z.shiftr ctl 4 in
          match decode_reg 8 mem pos lh, decode_reg 8 mem (pos + length_table 8 lh) uh with
          | Some d1, Some d2 =>
              match groups64 c (S i) (pos + length_table 8 lh + length_table 8 uh) with
              | None => None
              | Some (vs, pos) => Some ((match gap with G_NONE => d1 ++ d2 | _ => [] end) ++ vs, pos)
              end
          | _, _ => None
          end
      end
  end.
(** :711-871 decode64: the values passed to the callback. *)
Definition svb_decode64 (n : nat) : option (list Z) :=
  let cnt := (n / 4)%nat in
  let start := (cnt + if Nat.eqb (n mod 4) 0 then 0 else 1)%nat in
  match groups64 cnt 0 start with
  | None => None
  | Some (vs, pos) =>
      if Nat.eqb (n mod 4) 0 then Some vs
      else match nth_error mem cnt with
           | None => None
           | Some ctl =>
               let lh := Z.land ctl 15 in let uh := Z.shiftr ctl 4 in
               match decode_reg 8 mem pos lh with
               | None => None
               | Some d1 =>
                   if Nat.leb (n mod 4) 2 then Some (vs ++ firstn (n mod 4) d1)
                   else match decode_reg 8 mem (pos + length_table 8 lh) uh with
                        | None => None
                        | Some d2 => Some (vs ++ d1 ++ firstn 1 d2)
                        end
               end
           end
  end.
End Decode64.
