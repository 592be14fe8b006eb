(* Specification of a multilevel hierarchy built by sequential clustering. *)
From Verif Require Import Lib.Prelude Spec.Graph Spec.Quotient Model.RatingMapModel Model.InitialCoarsenModel.

(** Node weights are not negative and below [bound]. *)
Definition fits (bound : Z) (g : graph) : Prop := forall u, u < gn g -> (0 <= gvw g u < bound)%Z.

(** Every level is the quotient of the previous one; it has fewer nodes, but at least one; a coarse node that stands for two
    or more nodes weighs at most [limit]. *)
Fixpoint coarsening (limit : Z) (g : graph) (levels : list (list nat * graph)) : Prop :=
  match levels with
  | [] => True
  | (mapping, h) :: rest =>
      length mapping = gn g /\ is_quotient g (fun u => nth u mapping 0) h /\ 0 < gn h < gn g /\
      (forall u v, u < gn g -> v < gn g -> u <> v -> nth u mapping 0 = nth v mapping 0 ->
         (gvw h (nth u mapping 0%nat) <= limit)%Z) /\
      coarsening limit h rest
  end.

(** A coarsener between two calls: nothing is left in its two accumulators. The clustering, the move counter, the bucket
    array and the flags may have any contents. *)
Definition idle_array (a : fra) : Prop := fa_used a = [] /\ forall k, nth k (fa_data a) 0%Z = 0%Z.
Definition idle (co : coarsener) : Prop := idle_array (snd (co_lp co)) /\ idle_array (co_ec co).

(** What the environment may choose: nodes in any order, each at most once; a graph that would not shrink has converged. *)
Definition legal_env (n : nat) (env : cenv) : Prop :=
  NoDup (ce_order env) /\ (forall u, In u (ce_order env) -> u < n) /\ (forall m, ce_converged env m m = true).
