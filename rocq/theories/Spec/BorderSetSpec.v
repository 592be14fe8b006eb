(* Border nodes and independent sets. *)
From Verif Require Import Lib.Prelude Spec.Graph.

(** [u] has a neighbour in another block. *)
Definition border_node (G : graph) (block : nat -> nat) (u : nat) : Prop := u < gn G /\ exists v w, In (v, w) (gadj G u) /\ block v <> block u.
Definition independent (G : graph) (S : nat -> Prop) : Prop := forall u v w, S u -> S v -> ~ In (v, w) (gadj G u).
(** The nodes that the ranks return together: rank [r] owns the nodes from [nth r dist 0] on. *)
Definition picked (P : nat) (dist : list nat) (out : nat -> list nat) (g : nat) : Prop := exists r u, r < P /\ In u (out r) /\ g = nth r dist 0 + u.
