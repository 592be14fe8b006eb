(* Model of the block weight limits of intermediate partitions: kaminpar-shm/partitioning/helper.cc:26-133
   (create_kway_context, create_twoway_context), kaminpar.h:371-394 and
   deep/vcycle_deep_multilevel.cc:19-97. Limits are exact integers unless stated otherwise. Not modelled here:
   the relaxation of the limits (setup with relax_max_block_weights, LimitsModel), the adaptive epsilon
   (helper.cc:96-122) and the limits computed with doubles for uniform weights (kaminpar.h:385-387, see
   [uniform_limit] in ContextFloatModel). *)
From Verif Require Import Lib.Prelude Model.MathModel Model.PartUtilsModel Model.SubgraphModel Model.VarintModel.

(** kaminpar.h:371-394 sum over the limits of the blocks [first, last) ([None]: range outside the vector). *)
Definition range_sum (ls : list Z) (first last : nat) : option Z :=
  if (first <=? last) && (last <=? length ls) then Some (zsum (firstn (last - first) (skipn first ls))) else None.

(** kaminpar.h:371-381 total_max_block_weights. Simplification: the product of a signed weight and an unsigned
    number of blocks does not overflow. *)
Definition total_max (uniform : bool) (ls : list Z) (first last : nat) : option Z :=
  if uniform then option_map (fun x => (x * Z.of_nat (last - first))%Z) (nth_error ls first)
  else range_sum ls first last.

(** helper.cc:30-40 limits of a partition into [kp] blocks, for limits [ls] of the [k] final blocks that are not
    uniform. State: current fine block, limits so far. *)
Definition kway_step (ub : N) (ls : list Z) (kp k : nat) (st : option (nat * list Z)) (b : nat) : option (nat * list Z) :=
  match st with
  | None => None
  | Some (cur, out) =>
    match final_k ub b kp k with
    | None => None
    | Some num => option_map (fun w => (cur + num, out ++ [w])) (range_sum ls cur (cur + num))
    end
  end.
Definition kway_limits (ub : N) (ls : list Z) (kp k : nat) : option (list Z) :=
  option_map snd (fold_left (kway_step ub ls kp k) (seq 0 kp) (Some (0, []))).

(** helper.cc:64-85 limits of the two sides of the bipartition of block [b] of [kp] (without adaptive epsilon). *)
Definition first_sub (b kp k : nat) : option nat :=
  option_map N.to_nat (compute_first_sub_block (N.of_nat b) (N.of_nat kp) (N.of_nat k)).
Definition first_invalid_sub (ub : N) (b kp k : nat) : option nat :=
  option_map N.to_nat (compute_first_invalid_sub_block ub (N.of_nat b) (N.of_nat kp) (N.of_nat k)).
Definition twoway_limits (ub : N) (uniform : bool) (ls : list Z) (b kp k : nat) : option (Z * Z) :=
  match first_sub b kp k, first_invalid_sub ub b kp k, final_k ub b kp k with
  | Some first, Some last, Some num =>
    let num0 := N.to_nat (fst (split_integral (N.of_nat num))) in
    match total_max uniform ls first (first + num0), total_max uniform ls (first + num0) last with
    | Some m0, Some m1 => Some (m0, m1)
    | _, _ => None
    end
  | _, _, _ => None
  end.

(** vcycle_deep_multilevel.cc:48-50 std::accumulate with the initial value 0 of type int: every partial sum is
    converted to a 32-bit signed integer. (With 32-bit weights an overflow is undefined behaviour; modelled as
    wrapping.) *)
Definition accumulate_int (ls : list Z) : Z := fold_left (fun a x => wrap_s 32 (a + x)) ls 0%Z.
Definition range_sum_int (ls : list Z) (first last : nat) : option Z :=
  if (first <=? last) && (last <=? length ls) then Some (accumulate_int (firstn (last - first) (skipn first ls))) else None.

(** math.h:98-110 floor2, ceil2 for BlockID. *)
Definition floor2_nat (x : nat) : option nat := option_map N.to_nat (floor2 32 (N.of_nat x)).
Definition ceil2_nat (x : nat) : option nat := option_map N.to_nat (ceil2 32 (N.of_nat x)).

(** vcycle_deep_multilevel.cc:35-45 number of blocks of the next cycle (with [nk] blocks) for block [b] of [ck]. *)
Definition vcycle_sub_blocks (ub : N) (b ck nk : nat) : option nat :=
  match floor2_nat ck, ceil2_nat ck with
  | Some f, Some c =>
    let expanded := ck - f in
    if b <? 2 * expanded then final_k ub b (Nat.min c nk) nk else final_k ub (b - expanded) f nk
  | _, _ => None
  end.

(** vcycle_deep_multilevel.cc:19-61 compute_max_block_weights: [ls] are the limits of the input context. *)
Definition vcycle_step (ub : N) (ck : nat) (next : list Z) (st : option (nat * list Z)) (b : nat) : option (nat * list Z) :=
  match st with
  | None => None
  | Some (cur, out) =>
    match vcycle_sub_blocks ub b ck (length next) with
    | None => None
    | Some num => option_map (fun w => (cur + num, out ++ [w])) (range_sum_int next cur (cur + num))
    end
  end.
Definition vcycle_max_weights (ub : N) (ls : list Z) (ck : nat) (next : list Z) : option (list Z) :=
  if ck =? length ls then Some ls
  else option_map snd (fold_left (vcycle_step ub ck next) (seq 0 ck) (Some (0, []))).

(** vcycle_deep_multilevel.cc:76-97: the limits of all cycles, for the cycles [steps] (the last one has k
    blocks), computed from the last one to the first one. *)
Fixpoint vcycle_limits (ub : N) (ls : list Z) (steps : list nat) : option (list (list Z)) :=
  match steps with
  | [] => Some []
  | ck :: rest =>
    match vcycle_limits ub ls rest with
    | None => None
    | Some out => option_map (fun l => l :: out) (vcycle_max_weights ub ls ck (hd [] out))
    end
  end.
