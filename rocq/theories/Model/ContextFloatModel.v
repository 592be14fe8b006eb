(* Model of the limits of intermediate blocks if all final blocks have the same limit: kaminpar-shm/kaminpar.h:383-411
   with IEEE 754 binary64 arithmetic (see LimitsModel). *)
From Verif Require Import Lib.Prelude Model.LimitsModel.
From Flocq Require Import Core.Core IEEE754.BinarySingleNaN.
Local Open Scope Z_scope.

(** kaminpar.h:400-404 infer_epsilon for uniform block weights; [orig] is the total node weight with which the
    context was set up. *)
Definition uniform_epsilon (eps : double) (orig total k : Z) : double :=
  let mx := d_mul (d_add (d_of 1) eps) (d_ceil (d_div (d_mul (d_of 1) (d_of orig)) (d_of k))) in
  d_sub (d_div mx (d_ceil (d_div (d_mul (d_of 1) (d_of total)) (d_of k)))) (d_of 1).

(** kaminpar.h:383-387 total_unrelaxed_max_block_weights of [cnt] consecutive blocks for uniform block weights. *)
Definition uniform_limit (w : Z) (eps : double) (orig total k cnt : Z) : option Z :=
  d_to w (d_mul (d_add (d_of 1) (uniform_epsilon eps orig total k))
                (d_ceil (d_div (d_mul (d_mul (d_of 1) (d_of cnt)) (d_of total)) (d_of k)))).
