(* Model of kaminpar-shm/partitioning/partition_utils.cc. BlockID and NodeID are 32-bit unsigned
   integers, represented by [N]. *)
From Verif Require Import Lib.Prelude Model.MathModel.
Local Open Scope N_scope.

(** partition_utils.cc:41 nibble reversal table. *)
Definition lut_table : list N := [0; 8; 4; 12; 2; 10; 6; 14; 1; 9; 5; 13; 3; 11; 7; 15].
Definition lut (x : N) : N := nth (N.to_nat x) lut_table 0.

(** partition_utils.cc:42-46 32-bit reversal (before the final shift). *)
Definition reverse32 (block : N) : N :=
  N.lor (lut (N.shiftr (N.land block 0xF0000000) 28))
  (N.lor (N.shiftl (lut (N.shiftr (N.land block 0x0F000000) 24)) 4)
  (N.lor (N.shiftl (lut (N.shiftr (N.land block 0x00F00000) 20)) 8)
  (N.lor (N.shiftl (lut (N.shiftr (N.land block 0x000F0000) 16)) 12)
  (N.lor (N.shiftl (lut (N.shiftr (N.land block 0x0000F000) 12)) 16)
  (N.lor (N.shiftl (lut (N.shiftr (N.land block 0x00000F00) 8)) 20)
  (N.lor (N.shiftl (lut (N.shiftr (N.land block 0x000000F0) 4)) 24)
         (N.shiftl (lut (N.land block 0x0000000F)) 28))))))).

(** partition_utils.cc:21-50 compute_final_k. [>> (32 - level)] is undefined behaviour for
    level = 0 (current_k = 1); the parameter [ub] is the unspecified result of that shift.
    [(1 << level) - 1] is evaluated on [int] and overflows for level = 31, i.e. for
    current_k >= 2^31; the theorems assume input_k < 2^31. [current_k = 0] (clz undefined) is
    [None]. *)
Definition compute_final_k (ub block current_k input_k : N) : option N :=
  if current_k =? input_k then Some 1
  else match floor_log2 32 current_k with
  | None => None
  | Some level =>
    let base := N.shiftr input_k level in
    let num_plus_one_blocks := N.land input_k (2 ^ level - 1) in
    let reversed_block := if level =? 0 then ub else N.shiftr (reverse32 block) (32 - level) in
    Some (base + (if reversed_block <? num_plus_one_blocks then 1 else 0))
  end.

(** partition_utils.cc:62-75 loop of compute_first_sub_block. [width] is a 32-bit unsigned integer
    that wraps; running out of fuel ([None]) models non-termination. *)
Fixpoint first_sub_block_loop (fuel : nat) (block current_k width current_value mask ans : N)
  : option N :=
  if width <=? current_k then
    match fuel with
    | O => None
    | S fuel' =>
      let (lhs, rhs) := split_integral current_value in
      let width' := (width * 2) mod 2 ^ 32 in
      if negb (N.land block mask =? 0)
      then first_sub_block_loop fuel' block current_k width' rhs (N.shiftr mask 1) (ans + lhs)
      else first_sub_block_loop fuel' block current_k width' lhs (N.shiftr mask 1) ans
    end
  else Some ans.

(** partition_utils.cc:53-76 compute_first_sub_block ([mask] is an [int]; exact for
    current_k <= 2^31). *)
Definition compute_first_sub_block (block current_k input_k : N) : option N :=
  if current_k =? 1 then Some 0
  else match ceil_log2 32 current_k with
  | None => None
  | Some level => first_sub_block_loop 40 block current_k 1 input_k (2 ^ (level - 1)) 0
  end.

(** partition_utils.cc:85-90 compute_first_invalid_sub_block. *)
Definition compute_first_invalid_sub_block (ub block current_k input_k : N) : option N :=
  match compute_first_sub_block block current_k input_k, compute_final_k ub block current_k input_k with
  | Some a, Some b => Some (a + b)
  | _, _ => None
  end.

(** std::clamp(v, lo, hi); undefined if hi < lo. *)
Definition clamp (v lo hi : N) : option N :=
  if hi <? lo then None else Some (if v <? lo then lo else if hi <? v then hi else v).

(** partition_utils.cc:92-100 compute_k_for_n with contraction limit [c] and input k [k]
    (integer division by c = 0 is undefined). The multiplication [2 * c] is on size_t
    (exact for the 32-bit range considered). *)
Definition compute_k_for_n (n c k : N) : option N :=
  if n <? 2 * c then Some 2
  else if c =? 0 then None
  else match ceil_log2 32 (n / c) with
  | None => None
  | Some l => match int_one_shl 32 l with None => None | Some kp => clamp kp 2 k end
  end.

(** partition_utils.cc:131-133 compute_next_k. *)
Definition compute_next_k (current_k k : N) : N := N.min (current_k * 2) k.
