(* Model of kaminpar-common/math.h and kaminpar-common/degree_buckets.h.
   Unsigned machine integers of width [w] are represented by [N]; where the C++ code can
   wrap around or run into undefined behaviour this is written explicitly. *)
From Verif Require Import Lib.Prelude.
Local Open Scope N_scope.

(** Unsigned subtraction on [w]-bit integers (C++ wraps around). *)
Definition wsub (w a b : N) : N := (a + 2 ^ w - b) mod 2 ^ w.

(** math.h:61-63 div_ceil: x / y + (x % y != 0). *)
Definition div_ceil (x y : N) : N := x / y + (if x mod y =? 0 then 0 else 1).

(** math.h:65-69 mod_ceil. *)
Definition mod_ceil (x y : N) : N := let m := x mod y in if m =? 0 then y else m.

(** math.h:77-79 is_power_of_2: arg && ((arg & (arg - 1)) == 0). For arg = 0 the [&&]
    short-circuits, so the wrapped [arg - 1] is irrelevant; [N.pred] is exact otherwise. *)
Definition is_power_of_2 (arg : N) : bool :=
  negb (arg =? 0) && (N.land arg (N.pred arg) =? 0).

(** __builtin_clz / __builtin_clzl on a [w]-bit argument; undefined ([None]) for 0. *)
Definition clz (w arg : N) : option N := if arg =? 0 then None else Some (w - N.size arg).

(** math.h:82-96 floor_log2: digits - clz(arg) - 1. *)
Definition floor_log2 (w arg : N) : option N :=
  match clz w arg with None => None | Some c => Some (w - c - 1) end.

(** math.h:104-106 ceil_log2: floor_log2(arg) + 1 - ((arg & (arg-1)) == 0). *)
Definition ceil_log2 (w arg : N) : option N :=
  match floor_log2 w arg with
  | None => None
  | Some l => Some (l + 1 - (if N.land arg (N.pred arg) =? 0 then 1 else 0))
  end.

(** [1 << s] where the literal 1 is a (32-bit) [int], converted to an unsigned [w]-bit type:
    s < 31 is exact, s = 31 yields INT_MIN (C++20), which is sign-extended by the conversion,
    s >= 32 is undefined behaviour. *)
Definition int_one_shl (w s : N) : option N :=
  if s <? 31 then Some (2 ^ s mod 2 ^ w)
  else if s =? 31 then Some (Z.to_N ((- 2 ^ 31) mod 2 ^ Z.of_N w)%Z)
  else None.

(** math.h:98-100 floor2, math.h:108-110 ceil2. *)
Definition floor2 (w arg : N) : option N :=
  match floor_log2 w arg with None => None | Some l => int_one_shl w l end.
Definition ceil2 (w arg : N) : option N :=
  match ceil_log2 w arg with None => None | Some l => int_one_shl w l end.

(** math.h:112-119 byte_width; std::bit_width is [N.size]. *)
Definition byte_width (i : N) : N := if i =? 0 then 1 else div_ceil (N.size i) 8.

(** math.h:136-140 split_integral with the default ratio 0.5: (ceil(v * 0.5), floor(v * 0.5)).
    The double arithmetic is exact for values below 2^53; modelled as exact integers. *)
Definition split_integral (v : N) : N * N := ((v + 1) / 2, v / 2).

(** math.h:152-159 compute_local_range. *)
Definition compute_local_range (n size rank : N) : N * N :=
  let chunk := n / size in
  let remainder := n mod size in
  let from := rank * chunk + N.min rank remainder in
  let to := N.min (from + (if rank <? remainder then chunk + 1 else chunk)) n in
  (from, to).

(** math.h:173-183 compute_local_range_rank on [w]-bit unsigned integers; [element - rem] wraps. *)
Definition compute_local_range_rank (w n size element : N) : N :=
  if n <=? size then element
  else
    let c := n / size in
    let rem := n mod size in
    let r0 := wsub w element rem / c in
    if (element <? rem) || (r0 <? rem) then element / (c + 1) else r0.

(** math.h:185-189 find_in_distribution. std::upper_bound returns the first position in
    [begin+1, end) whose value is larger than [value], or end; the result is the distance of that
    position from begin, minus one. *)
Fixpoint upper_bound (value : N) (l : list N) : nat :=
  match l with
  | [] => 0%nat
  | x :: t => if value <? x then 0%nat else S (upper_bound value t)
  end.
Definition find_in_distribution (value : N) (distribution : list N) : nat :=
  (1 + upper_bound value (tl distribution) - 1)%nat.

(** math.h:201-207 distribute_round_robin. *)
Definition distribute_round_robin (w n size element : N) : N :=
  let owner := compute_local_range_rank w n size element in
  let local := element - fst (compute_local_range n size owner) in
  fst (compute_local_range n size (local mod size)) + (local / size) * size + owner.

(** math.h:209-214 decode_grid_position, math.h:216-219 encode_grid_position. *)
Definition decode_grid_position (pos num_columns : N) : N * N :=
  (pos / num_columns, pos mod num_columns).
Definition encode_grid_position (row column num_columns : N) : N := row * num_columns + column.

(** degree_buckets.h:19-21 lowest_degree_in_bucket: (1u << bucket) >> 1u on 32-bit unsigned;
    shifting by 32 or more is undefined. *)
Definition lowest_degree_in_bucket (bucket : N) : option N :=
  if bucket <? 32 then Some ((2 ^ bucket mod 2 ^ 32) / 2) else None.

(** degree_buckets.h:23-25 degree_bucket (defined for every degree). *)
Definition degree_bucket (w degree : N) : option N :=
  if degree =? 0 then Some 0
  else match floor_log2 w degree with None => None | Some l => Some (l + 1) end.
