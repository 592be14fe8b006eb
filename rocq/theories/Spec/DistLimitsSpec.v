(* Partitions that respect limits of the block weights. *)
From Verif Require Import Lib.Prelude Spec.Graph.

Definition within (G : graph) (limits : list Z) (part : nat -> nat) : Prop :=
  (forall u, u < gn G -> part u < length limits) /\ forall b, b < length limits -> (block_weight G part b <= nth b limits 0)%Z.
(** [mx] is the largest node weight. *)
Definition max_weight (G : graph) (mx : Z) : Prop := (exists u, u < gn G /\ gvw G u = mx) /\ forall u, u < gn G -> (gvw G u <= mx)%Z.
