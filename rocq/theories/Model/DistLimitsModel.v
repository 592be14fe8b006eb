(* kaminpar-dist/context.cc:44-98: the limits of the block weights of a distributed graph (or of a graph that every rank has).
   Doubles as in LimitsModel; BlockWeight has 64 bits. *)
From Verif Require Import Lib.Prelude Model.LimitsModel.
Local Open Scope Z_scope.

(** :83-97 the limit of a block; [perfect]: the perfectly balanced block weight, [n]: number of nodes of the graph, [total]: their weight,
    [max_nw]: the largest weight. [None]: a conversion or sum out of range. *)
Definition dist_limit (n total max_nw perfect : Z) (eps : double) : option Z :=
  match d_to 64 (d_mul (d_add (d_of 1) eps) (d_of perfect)), i_fit 64 (perfect + max_nw) with
  | Some max_eps, Some max_abs => Some (if n =? total then max_eps else Z.max max_eps max_abs)
  | _, _ => None
  end.
(** :74-98 the limits of the k blocks (:77 is the same expression as kaminpar-shm/kaminpar.cc:38-39). *)
Definition dist_limits (n total max_nw k : Z) (eps : double) : option (list Z) :=
  match perfect_weight 64 total k with
  | None => None
  | Some p => match dist_limit n total max_nw p eps with None => None | Some m => Some (repeat m (Z.to_nat k)) end
  end.
