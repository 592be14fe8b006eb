(* What a colouring of a distributed graph has to look like. *)
From Verif Require Import Lib.Prelude Model.DistGraphModel Spec.Graph.

Definition no_self_loops (G : graph) : Prop := forall u v w, u < gn G -> In (v, w) (gadj G u) -> v <> u.
(** Neighbours have different colours. *)
Definition proper_coloring (G : graph) (color : nat -> nat) : Prop :=
  forall u v w, u < gn G -> In (v, w) (gadj G u) -> color u <> color v.
(** All ranks together hold [value]: every own node and every ghost has the value of its global node. *)
Definition held_by (P : nat) (d : nat -> dcsr) {V} (value : nat -> V) (arr : nat -> list V) : Prop :=
  forall r, r < P -> length (arr r) = dn (d r) + dghost_n (d r) /\
    forall l g, dlocal_to_global (d r) l = Some g -> nth_error (arr r) l = Some (value g).
