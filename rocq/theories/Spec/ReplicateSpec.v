(* A graph that is distributed among ranks, as the replication finds it and has to produce it. *)
From Verif Require Import Lib.Prelude Model.DistGraphModel Spec.Graph Spec.DistGraphSpec.

(** [P] ranks hold the graph [G] together: rank r sees its part of [G] through the interface of its graph, the arrays of its own nodes and
    edges are in order, its own nodes have the right weights, and everybody knows who has which nodes and how many edges. *)
Definition distributed (P : nat) (G : graph) (dist edist : list nat) (d : nat -> dcsr) : Prop :=
  distribution P (gn G) dist /\ length edist = P + 1 /\ nth 0 edist 0 = 0 /\
  forall r, r < P ->
    local_view G dist r (dn (d r)) (dghost_n (d r)) (dlocal_to_global (d r)) (dglobal_to_local (d r)) (dghost_owner (d r)) (dcontains (d r)) (dadj (d r)) /\
    (forall u, u < dn (d r) -> dnode_weight (dc_nw (d r)) u = Some (gvw G (nth r dist 0 + u))) /\
    dc_rank (d r) = r /\ dc_dist (d r) = dist /\ dc_edist (d r) = edist /\ nth (S r) edist 0 = nth r edist 0 + length (dc_edges (d r)) /\
    1 <= length (dc_nodes (d r)) /\ nth 0 (dc_nodes (d r)) 0 = 0 /\
    (forall i, i < dn (d r) -> nth i (dc_nodes (d r)) 0 <= nth (S i) (dc_nodes (d r)) 0) /\
    nth (dn (d r)) (dc_nodes (d r)) 0 = length (dc_edges (d r)) /\
    (dc_ew (d r) = [] \/ length (dc_ew (d r)) = length (dc_edges (d r))).
(** Weights are stored either on all ranks with nodes (edges) or on none. *)
Definition weights_everywhere (P : nat) (d : nat -> dcsr) : Prop :=
  ((exists q, q < P /\ dc_nw (d q) <> []) -> forall r, r < P -> dc_nw (d r) <> [] \/ dn (d r) = 0) /\
  ((exists q, q < P /\ dc_ew (d q) <> []) -> forall r, r < P -> dc_ew (d r) <> [] \/ dc_edges (d r) = []).
(** Every node is in exactly one of the ranges (start, length). *)
Definition ranges_of (n : nat) (chunks : list (nat * nat)) : Prop :=
  Permutation (flat_map (fun c => seq (fst c) (snd c)) chunks) (seq 0 n).
