(* Preconditions of the sparse gain cache. *)
From Verif Require Import Lib.Prelude Spec.Graph Spec.Gain.

(** The nodes are ordered by degree buckets: nodes bk b, ..., bk (b + 1) - 1 have degrees in [2^(b-1), 2^b), those of
    bucket 0 have no neighbours; there are [nb] buckets. *)
Definition bucket_ordered (g : graph) (bk : nat -> nat) (nb : nat) : Prop :=
  bk 0 = 0 /\ bk nb = gn g /\ (forall b, b < nb -> bk b <= bk (S b)) /\
  forall b u, b < nb -> bk b <= u < bk (S b) ->
    if b =? 0 then length (gadj g u) = 0 else 2 ^ (b - 1) <= length (gadj g u) < 2 ^ b.

(** Weights fit: a cell has [w] bits; hash table cells also hold the block, of as many bits as the number of blocks
    requires ([kb]). Only nodes with fewer than 2 * thr neighbours in graphs ordered by degree buckets have hash tables. *)
Definition sparse_fits (g : graph) (k : nat) (w : Z) (sorted : bool) (nb thr : nat) : Prop :=
  (1 < w)%Z /\ nb <= 31 /\
  (forall u, u < gn g -> (weighted_degree g u < 2 ^ (w - 1))%Z) /\
  (sorted = true -> 2 <= k < 2 ^ 31 /\ exists kb, (0 < kb < w)%Z /\ (2 ^ (kb - 1) < Z.of_nat k <= 2 ^ kb)%Z /\
     forall u, u < gn g -> length (gadj g u) < 2 * thr -> (weighted_degree g u < 2 ^ (w - kb))%Z).
