(* What a heavy edge matching has to look like. *)
From Verif Require Import Lib.Prelude Spec.Graph.

(** [label] is a matching of [G], given as a clustering: a node that is not labelled by itself is labelled by a neighbour, along an edge of positive
    weight, that is labelled by itself; both together weigh at most [maxw] (unless the limit is ignored); no label has two such nodes. *)
Record matching_of (G : graph) (maxw : Z) (ignore : bool) (label : nat -> nat) : Prop := {
  mo_leader : forall u, u < gn G -> label u < gn G /\ label (label u) = label u;
  mo_edge : forall u, u < gn G -> label u <> u -> exists w, In (label u, w) (gadj G u) /\ (0 < w)%Z;
  mo_weight : forall u, u < gn G -> label u <> u -> ignore = false -> (gvw G u + gvw G (label u) <= maxw)%Z;
  mo_pairs : forall u v, u < gn G -> v < gn G -> label u = label v -> label u <> u -> label v <> v -> u = v
}.
