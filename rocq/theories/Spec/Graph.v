(* Specification vocabulary for weighted graphs and partitions, independent of any data structure
   of the code: a graph has [gn] nodes 0..gn-1, every node has a list of (neighbour, edge weight)
   pairs (an undirected edge appears in the lists of both endpoints) and a weight. *)
From Verif Require Import Lib.Prelude.

Record graph := mkGraph { gn : nat; gadj : nat -> list (nat * Z); gvw : nat -> Z }.

(** All neighbours are nodes of the graph. *)
Definition closed_graph (g : graph) : Prop :=
  forall u v w, u < gn g -> In (v, w) (gadj g u) -> v < gn g.

(** Total weight of the (parallel) edges listed at [u] that lead to [v]. *)
Definition conn (g : graph) (u v : nat) : Z :=
  zsum (map snd (filter (fun e => fst e =? v) (gadj g u))).

(** The edge lists describe an undirected weighted graph. *)
Definition undirected (g : graph) : Prop :=
  forall u v, u < gn g -> v < gn g -> conn g u v = conn g v u.

(** Weight of all undirected edges whose endpoints are in different blocks, each counted once. *)
Definition cut_weight (g : graph) (p : nat -> nat) : Z :=
  sumn (gn g) (fun u => sumn u (fun v => if p u =? p v then 0%Z else conn g u v)).

(** Weight of a block, total node weight. *)
Definition block_weight (g : graph) (p : nat -> nat) (b : nat) : Z :=
  sumn (gn g) (fun u => if p u =? b then gvw g u else 0%Z).
Definition total_weight (g : graph) : Z := sumn (gn g) (gvw g).

(** [f] maps the nodes of [g] bijectively to the nodes of [h], preserving node weights and the
    multiset of weighted neighbours of every node. *)
Definition isomorphic_by (f : nat -> nat) (g h : graph) : Prop :=
  gn h = gn g /\ maps_into (gn g) (gn g) f /\ injn (gn g) f /\
  (forall u, u < gn g -> gvw h (f u) = gvw g u) /\
  (forall u, u < gn g ->
     Permutation (gadj h (f u)) (map (fun e => (f (fst e), snd e)) (gadj g u))).

(** The graph described by the caller's CSR arrays (METIS convention): the neighbours of [u] are
    adjncy[xadj[u] .. xadj[u+1]), empty weight arrays mean unit weights. *)
Definition user_graph (xadj adjncy : list nat) (vwgt adjwgt : list Z) : graph :=
  {| gn := length xadj - 1;
     gadj u := map (fun e => (nth e adjncy 0, match adjwgt with [] => 1%Z | _ => nth e adjwgt 0%Z end))
                   (seq (nth u xadj 0) (nth (S u) xadj 0 - nth u xadj 0));
     gvw u := match vwgt with [] => 1%Z | _ => nth u vwgt 0%Z end |}.

(** Well-formed CSR arrays. *)
Definition wf_csr (xadj adjncy : list nat) (vwgt adjwgt : list Z) : Prop :=
  1 <= length xadj /\ nth 0 xadj 0 = 0 /\
  (forall i, S i < length xadj -> nth i xadj 0 <= nth (S i) xadj 0) /\
  last xadj 0 = length adjncy /\
  (forall v, In v adjncy -> v < length xadj - 1) /\
  (vwgt = [] \/ length vwgt = length xadj - 1) /\
  (adjwgt = [] \/ length adjwgt = length adjncy).

(** Two descriptions of the same graph. *)
Definition same_graph (g h : graph) : Prop :=
  gn g = gn h /\ forall u, u < gn g -> gadj g u = gadj h u /\ gvw g u = gvw h u.

(** The nodes of a CSR node array are grouped by exponentially spaced degree classes in increasing
    order, nodes of degree zero come last; [n'] is the number of non-isolated nodes. *)
Definition degree_of (xadj : list nat) (u : nat) : nat := nth (S u) xadj 0 - nth u xadj 0.
Definition sorted_by_degree_class (xadj : list nat) (n' : nat) : Prop :=
  n' <= length xadj - 1 /\
  (forall u, u < n' -> 0 < degree_of xadj u) /\
  (forall u, n' <= u < length xadj - 1 -> degree_of xadj u = 0) /\
  (forall u v, u <= v < n' -> Nat.log2 (degree_of xadj u) <= Nat.log2 (degree_of xadj v)).

(** The subgraph of the first [n'] nodes of a graph none of whose edges leaves them. *)
Definition prefix_graph (n' : nat) (g : graph) : graph := {| gn := n'; gadj := gadj g; gvw := gvw g |}.

(** The arrays describe a k-way partition of [g] with exact block weights ([k] = number of weights). *)
Definition exact_block_weights (g : graph) (label : list nat) (weight : list Z) : Prop :=
  length label = gn g /\ (forall u, u < gn g -> nth u label 0 < length weight) /\
  forall b, b < length weight -> nth b weight 0%Z = block_weight g (fun u => nth u label 0) b.
