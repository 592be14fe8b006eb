(* Spec vocabulary for C64: renaming the nodes of a distributed graph. *)
From Verif Require Import Lib.Prelude Model.DistGraphModel Spec.Graph Spec.DistGraphSpec.

(** [f] keeps every node on its rank. *)
Definition keeps_ranks (P : nat) (dist : list nat) (f : nat -> nat) : Prop := forall r g, r < P -> owns dist r g -> owns dist r (f g).
(** Nodes without neighbours, then one class per power of two. *)
Definition degree_class (deg : nat) : nat := if deg =? 0 then 0 else S (Nat.log2 deg).
(** Every rank has room for the weights of its ghosts, or stores no node weights. *)
Definition room_for_ghosts (P : nat) (d : nat -> dcsr) : Prop :=
  forall r, r < P -> dc_nw (d r) = [] \/ dn (d r) + dghost_n (d r) <= length (dc_nw (d r)).
(** Every rank knows the weights of its ghosts. *)
Definition ghost_weights (P : nat) (G : graph) (d : nat -> dcsr) : Prop :=
  forall r u g, r < P -> dn (d r) <= u < dn (d r) + dghost_n (d r) -> dlocal_to_global (d r) u = Some g -> dnode_weight (dc_nw (d r)) u = Some (gvw G g).
(** All degrees are 32-bit numbers. *)
Definition degrees_fit (P : nat) (d : nat -> dcsr) : Prop :=
  forall r u, r < P -> u < dn (d r) -> (N.of_nat (degree_of (dc_nodes (d r)) u) < 2 ^ 32)%N.
(** The elements of the buffers, each with the number of its buffer. *)
Definition tagged {X} (bufs : list (list X)) : list (nat * X) := concat (map (fun b => map (fun x => (b, x)) (nth b bufs [])) (seq 0 (length bufs))).
