(* Model of PartitionContext::setup, kaminpar-shm/kaminpar.cc:30-76, with IEEE 754 binary64 arithmetic (round to nearest
   even) as formalised by Flocq. Simplifications: only the block weight limits are kept; BlockWeight and NodeWeight are
   [w]-bit signed integers (w = 32, or 64 in builds with 64-bit weights); conversions of a double to BlockWeight that are
   out of range (undefined behaviour in C++) give [None]; the sum of the limits (:60-62), which overflows when it needs
   [w] bits, is [None] in that case. *)
From Verif Require Import Lib.Prelude.
From Flocq Require Import Core.Core IEEE754.BinarySingleNaN.
Local Open Scope Z_scope.

Definition Hprec : Prec_gt_0 53 := eq_refl.
Definition Hemax : Prec_lt_emax 53 1024 := eq_refl.
(** The C++ type double. *)
Definition double := binary_float 53 1024.
(** Conversion of an integer, +, -, *, /, std::ceil. *)
Definition d_of (z : Z) : double := @binary_normalize 53 1024 Hprec Hemax mode_NE z 0 false.
Definition d_add (x y : double) : double := @Bplus 53 1024 Hprec Hemax mode_NE x y.
Definition d_sub (x y : double) : double := @Bminus 53 1024 Hprec Hemax mode_NE x y.
Definition d_mul (x y : double) : double := @Bmult 53 1024 Hprec Hemax mode_NE x y.
Definition d_div (x y : double) : double := @Bdiv 53 1024 Hprec Hemax mode_NE x y.
Definition d_ceil (x : double) : double := @Bnearbyint 53 1024 Hemax mode_UP x.
(** Does a signed integer type with [w] bits contain [z]? *)
Definition fits (w z : Z) : bool := (- 2 ^ (w - 1) <=? z) && (z <? 2 ^ (w - 1)).
(** Conversion to a signed integer type with [w] bits: towards zero. *)
Definition d_to (w : Z) (x : double) : option Z :=
  if is_finite x && fits w (Btrunc x) then Some (Btrunc x) else None.
Definition i_fit (w z : Z) : option Z := if fits w z then Some z else None.

Record limits := mkLimits { l_max : list Z; l_unrelaxed : list Z; l_total : option Z }.

(** kaminpar.h:404-411 infer_epsilon for [_uniform_block_weights] = false (the value while the second setup runs). *)
Definition inferred_epsilon (sum total : Z) : double :=
  d_sub (d_div (d_mul (d_of 1) (d_of sum)) (d_of total)) (d_of 1).
(** kaminpar.cc:69-72: the relaxed limit. *)
Definition relax_one (w : Z) (eps : double) (max_nw limit : Z) : option Z :=
  match d_to w (d_add (d_ceil (d_div (d_mul (d_of 1) (d_of limit)) (d_add (d_of 1) eps))) (d_of max_nw)) with
  | None => None
  | Some r => Some (Z.max limit r)
  end.
Fixpoint relax_all (w : Z) (eps : double) (max_nw : Z) (ls : list Z) : option (list Z) :=
  match ls with
  | [] => Some []
  | l :: t => match relax_one w eps max_nw l, relax_all w eps max_nw t with
              | Some l', Some t' => Some (l' :: t')
              | _, _ => None
              end
  end.
(** kaminpar.cc:48-76. *)
Definition setup_limits (w total max_nw : Z) (ls : list Z) (relax : bool) : option limits :=
  let sum := i_fit w (zsum ls) in
  if relax then
    match sum with
    | None => None
    | Some s =>
        match relax_all w (inferred_epsilon s total) max_nw ls with
        | None => None
        | Some ls' => Some (mkLimits ls' ls sum)
        end
    end
  else Some (mkLimits ls ls sum).
(** kaminpar.cc:38-39 perfectly_balanced_block_weight. *)
Definition perfect_weight (w total k : Z) : option Z := d_to w (d_ceil (d_div (d_mul (d_of 1) (d_of total)) (d_of k))).
(** kaminpar.cc:30-46. *)
Definition setup_uniform (w total max_nw k : Z) (eps : double) (relax : bool) : option limits :=
  match perfect_weight w total k with
  | None => None
  | Some p =>
      match d_to w (d_mul (d_add (d_of 1) eps) (d_of p)) with
      | None => None
      | Some mx => setup_limits w total max_nw (repeat mx (Z.to_nat k)) relax
      end
  end.
