(* C35, C40, C42 and the arithmetic part of C41: kaminpar-common/math.h. *)
From Verif Require Import Lib.Prelude Model.MathModel Proofs.MathProofs.
Local Open Scope N_scope.

(** C35: the local ranges of ranks 0..size-1 tile [0,n) and are balanced. *)
Theorem C35_local_ranges_tile : forall n size,
  0 < size ->
  fst (compute_local_range n size 0) = 0 /\
  snd (compute_local_range n size (size - 1)) = n /\
  (forall r, r + 1 < size ->
     snd (compute_local_range n size r) = fst (compute_local_range n size (r + 1))) /\
  (forall r, r < size ->
     let (from, to) := compute_local_range n size r in
     from <= to /\ (to - from = n / size \/ to - from = n / size + 1)).
Proof. exact local_ranges_tile. Qed.
Print Assumptions C35_local_ranges_tile.
Example C35_local_ranges_tile_ex :
  map (compute_local_range 10 4) [0; 1; 2; 3] = [(0, 3); (3, 6); (6, 8); (8, 10)].
Proof. reflexivity. Qed.

(** C35: the rank computed for an element is the one whose range contains it. *)
Theorem C35_local_range_rank : forall w n size e r,
  0 < size -> n < 2 ^ w -> e < n ->
  (compute_local_range_rank w n size e = r <->
   r < size /\ fst (compute_local_range n size r) <= e < snd (compute_local_range n size r)).
Proof. exact local_range_rank_iff. Qed.
Print Assumptions C35_local_range_rank.
Example C35_local_range_rank_ex :
  0 < 4 /\ 10 < 2 ^ 32 /\ 7 < 10 /\ compute_local_range_rank 32 10 4 7 = 2
  /\ compute_local_range_rank 32 10 4 1 = 0.
Proof. vm_compute. auto. Qed.

(** C35: looking up the owner of a value in a sorted distribution array. *)
Theorem C35_find_in_distribution : forall value d,
  (forall i j, (i <= j < length d)%nat -> nth i d 0 <= nth j d 0) ->
  (1 <= length d)%nat -> nth 0 d 0 <= value < last d 0 ->
  let i := find_in_distribution value d in
  (S i < length d)%nat /\ nth i d 0 <= value < nth (S i) d 0.
Proof. exact find_in_distribution_spec. Qed.
Print Assumptions C35_find_in_distribution.
Example C35_find_in_distribution_ex :
  find_in_distribution 5 [0; 3; 5; 5; 9] = 3%nat.
Proof. reflexivity. Qed.

(** C40: the claim "distribute_round_robin is a permutation" is false of the code:
    with n = 4 elements on 3 ranks, elements 1 and 3 are both sent to position 2. *)
Theorem C40_round_robin_permutation_refuted :
  exists n size e1 e2, 0 < size /\ e1 < n /\ e2 < n /\ e1 <> e2 /\
    distribute_round_robin 64 n size e1 = distribute_round_robin 64 n size e2.
Proof. exact round_robin_collision. Qed.
Print Assumptions C40_round_robin_permutation_refuted.

(** C40 (partial): it is a permutation if n is a multiple of size^2. *)
Theorem C40_round_robin_square_partial : forall w q s,
  0 < s -> q * (s * s) < 2 ^ w ->
  (forall e, e < q * (s * s) -> distribute_round_robin w (q * (s * s)) s e < q * (s * s)) /\
  (forall e1 e2, e1 < q * (s * s) -> e2 < q * (s * s) ->
     distribute_round_robin w (q * (s * s)) s e1 = distribute_round_robin w (q * (s * s)) s e2 ->
     e1 = e2).
Proof. exact round_robin_square_perm. Qed.
Print Assumptions C40_round_robin_square_partial.
Example C40_round_robin_square_ex :
  map (distribute_round_robin 64 16 4) [0; 1; 2; 3; 4; 5] = [0; 4; 8; 12; 1; 5].
Proof. reflexivity. Qed.

(** C42: ceiling division is the least z with y * z >= x. *)
Theorem C42_div_ceil : forall x y, 0 < y ->
  y * div_ceil x y >= x /\ (forall z, y * z >= x -> div_ceil x y <= z).
Proof. exact div_ceil_spec. Qed.
Print Assumptions C42_div_ceil.
Example C42_div_ceil_ex : div_ceil 7 3 = 3 /\ div_ceil 6 3 = 2. Proof. vm_compute; auto. Qed.

Theorem C42_is_power_of_2 : forall x, is_power_of_2 x = true <-> exists e, x = 2 ^ e.
Proof. exact is_power_of_2_spec. Qed.
Print Assumptions C42_is_power_of_2.
Example C42_is_power_of_2_ex : is_power_of_2 64 = true /\ is_power_of_2 48 = false.
Proof. vm_compute; auto. Qed.

(** C42: rounded logarithms: 2^l <= x < 2^(l+1), resp. the least c with x <= 2^c. *)
Theorem C42_floor_log2 : forall w x, 0 < x -> x < 2 ^ w ->
  exists l, floor_log2 w x = Some l /\ 2 ^ l <= x < 2 ^ (l + 1).
Proof. exact floor_log2_bounds. Qed.
Print Assumptions C42_floor_log2.
Example C42_floor_log2_ex : floor_log2 32 1000 = Some 9. Proof. reflexivity. Qed.

Theorem C42_ceil_log2 : forall w x, 0 < x -> x < 2 ^ w ->
  exists c, ceil_log2 w x = Some c /\ x <= 2 ^ c /\ forall e, x <= 2 ^ e -> c <= e.
Proof. exact ceil_log2_bounds. Qed.
Print Assumptions C42_ceil_log2.
Example C42_ceil_log2_ex : ceil_log2 32 1000 = Some 10 /\ ceil_log2 32 1024 = Some 10.
Proof. vm_compute; auto. Qed.

(** C42: rounding to powers of two on 32-bit integers. *)
Theorem C42_floor2_32 : forall x, 0 < x -> x < 2 ^ 32 ->
  floor2 32 x = Some (2 ^ N.log2 x).
Proof. exact floor2_32_some. Qed.
Print Assumptions C42_floor2_32.
Theorem C42_ceil2_32 : forall x, 0 < x -> x <= 2 ^ 31 ->
  ceil2 32 x = Some (2 ^ N.log2_up x).
Proof. exact ceil2_32_some. Qed.
Print Assumptions C42_ceil2_32.
Example C42_ceil2_ex : floor2 32 1000 = Some 512 /\ ceil2 32 1000 = Some 1024.
Proof. vm_compute; auto. Qed.

(** C42: on 64-bit integers the shift of the [int] literal 1 gives a wrong value at 2^31
    and is undefined above; on 32-bit integers ceil2 is undefined above 2^31. *)
Theorem C42_pow2_rounding_64_refuted :
  (exists x, 0 < x < 2 ^ 64 /\ floor2 64 x <> Some (2 ^ N.log2 x) /\ floor2 64 x <> None) /\
  (exists x, 0 < x < 2 ^ 64 /\ floor2 64 x = None) /\
  (exists x, 0 < x < 2 ^ 32 /\ ceil2 32 x = None).
Proof. exact pow2_rounding_64_witness. Qed.
Print Assumptions C42_pow2_rounding_64_refuted.

(** C42: the byte width is the least positive number of bytes that can store the value. *)
Theorem C42_byte_width : forall i,
  i < 256 ^ byte_width i /\ forall b, 1 <= b -> i < 256 ^ b -> byte_width i <= b.
Proof. exact byte_width_spec. Qed.
Print Assumptions C42_byte_width.
Example C42_byte_width_ex : byte_width 255 = 1 /\ byte_width 256 = 2. Proof. vm_compute; auto. Qed.

Theorem C42_split_integral : forall v,
  let (a, b) := split_integral v in a + b = v /\ b <= a /\ a <= b + 1.
Proof. exact split_integral_spec. Qed.
Print Assumptions C42_split_integral.
Example C42_split_integral_ex : split_integral 7 = (4, 3). Proof. reflexivity. Qed.

(** C41 (arithmetic): grid encode/decode are inverse. *)
Theorem C41_grid_position_roundtrip :
  (forall row col c, col < c -> decode_grid_position (encode_grid_position row col c) c = (row, col)) /\
  (forall pos c, 0 < c -> let (row, col) := decode_grid_position pos c in
     encode_grid_position row col c = pos /\ col < c).
Proof. exact (conj grid_decode_encode grid_encode_decode). Qed.
Print Assumptions C41_grid_position_roundtrip.
Example C41_grid_position_ex : decode_grid_position 17 5 = (3, 2). Proof. reflexivity. Qed.

(** C39 (arithmetic): the bucket of a degree is the one whose degree range contains it. *)
Theorem C39_degree_bucket : forall d,
  d < 2 ^ 30 ->
  exists b lo hi, degree_bucket 32 d = Some b /\ lowest_degree_in_bucket b = Some lo
    /\ lowest_degree_in_bucket (b + 1) = Some hi /\ (d = 0 /\ b = 0 \/ lo <= d < hi /\ b > 0).
Proof. exact degree_bucket_spec. Qed.
Print Assumptions C39_degree_bucket.
Example C39_degree_bucket_ex : degree_bucket 32 5 = Some 3 /\ lowest_degree_in_bucket 3 = Some 4.
Proof. vm_compute; auto. Qed.
