(* Specification of the quotient (contracted) graph of a clustering. *)
From Verif Require Import Lib.Prelude Spec.Graph.

(** Total weight of the edges listed at members of [c] that lead to members of [d]. *)
Definition cluster_conn (g : graph) (f : nat -> nat) (c d : nat) : Z :=
  sumn (gn g) (fun u => if f u =? c then sumn (gn g) (fun v => if f v =? d then conn g u v else 0%Z) else 0%Z).

(** [h] is the quotient graph of [g] under the surjective map [f] of nodes to coarse nodes: nodes weigh the sum
    of their members; the weight between two coarse nodes is the total weight between their members; every
    neighbour is listed once, nobody is its own neighbour, and coarse nodes are neighbours iff some of their
    members are. *)
Definition is_quotient (g : graph) (f : nat -> nat) (h : graph) : Prop :=
  maps_into (gn g) (gn h) f /\
  (forall c, c < gn h -> exists u, u < gn g /\ f u = c) /\
  (forall c, c < gn h -> gvw h c = sumn (gn g) (fun u => if f u =? c then gvw g u else 0%Z)) /\
  (forall c d, c < gn h -> d < gn h -> c <> d -> conn h c d = cluster_conn g f c d) /\
  (forall c, c < gn h -> NoDup (map fst (gadj h c))) /\
  (forall c d, c < gn h ->
     (In d (map fst (gadj h c)) <-> d <> c /\ exists u v w, u < gn g /\ f u = c /\ In (v, w) (gadj g u) /\ f v = d)).

(** [f] numbers the clusters of the label array [cl] on [n] nodes: it uses exactly the numbers below [m], and two
    nodes have the same number iff they have the same label. *)
Definition numbers_clusters (n m : nat) (cl f : nat -> nat) : Prop :=
  maps_into n m f /\ (forall c, c < m -> exists u, u < n /\ f u = c) /\
  (forall u v, u < n -> v < n -> (f u = f v <-> cl u = cl v)).

Definition positive_edges (g : graph) : Prop := forall u v w, u < gn g -> In (v, w) (gadj g u) -> (0 < w)%Z.

(** A multilevel hierarchy: every level is the quotient of the previous one under its mapping. *)
Fixpoint hierarchy (g : graph) (levels : list (list nat * graph)) : Prop :=
  match levels with
  | [] => True
  | (mapping, h) :: rest => is_quotient g (fun u => nth u mapping 0) h /\ hierarchy h rest
  end.
Fixpoint coarsest (g : graph) (levels : list (list nat * graph)) : graph :=
  match levels with [] => g | (_, h) :: rest => coarsest h rest end.
