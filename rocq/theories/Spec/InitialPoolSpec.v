(* Specification vocabulary for the choice among several bipartitions. *)
From Verif Require Import Lib.Prelude Spec.Graph Spec.InitialSpec.

(** Both blocks respect their limits. *)
Definition feasible (limit : nat -> Z) (g : graph) (label : list nat) : Prop :=
  forall b, b < 2 -> (block_weight g (fun u => nth u label 0%nat) b <= limit b)%Z.

(** [a] is at least as good as [b]: feasible if [b] is, and among two that are both feasible or both infeasible it does
    not cut more, and if it cuts as much, is not more imbalanced. *)
Definition at_least_as_good (limit : nat -> Z) (imbalance : list Z -> Z) (g : graph) (a b : list nat * list Z) : Prop :=
  (feasible limit g (fst b) -> feasible limit g (fst a)) /\
  ((feasible limit g (fst a) -> feasible limit g (fst b)) ->
   (cut_of g (fst a) <= cut_of g (fst b))%Z /\
   (cut_of g (fst a) = cut_of g (fst b) -> (imbalance (snd a) <= imbalance (snd b))%Z)).
