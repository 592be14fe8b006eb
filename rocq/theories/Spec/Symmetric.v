(* Symmetric edge lists, independent of the code that checks them. *)
From Coq Require Import Sorting.Sorted.
From Verif Require Import Lib.Prelude Spec.Graph.

(** Every edge is listed at both ends with the same weight. *)
Definition symmetric (g : graph) : Prop := forall u v w, u < gn g -> In (v, w) (gadj g u) -> In (u, w) (gadj g v).
(** No two edges of a node have the same target. *)
Definition no_parallel_edges (g : graph) : Prop := forall u, u < gn g -> NoDup (map fst (gadj g u)).
Definition no_self_loops (g : graph) : Prop := forall u w, u < gn g -> ~ In (u, w) (gadj g u).
(** What std::sort with a comparison of the targets guarantees. *)
Definition sorts_by_target (sort : nat -> list (nat * Z) -> list (nat * Z)) : Prop :=
  forall u r, Permutation (sort u r) r /\ StronglySorted (fun a b => fst a <= fst b) (sort u r).
