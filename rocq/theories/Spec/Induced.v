(* Specification vocabulary for block-induced subgraphs. A graph is written as a plain list: entry u
   is (weight of node u, list of (neighbour, edge weight)). *)
From Verif Require Import Lib.Prelude.

Definition lgraph := list (Z * list (nat * Z)).

Definition lg_weight (g : lgraph) (u : nat) : Z := fst (nth u g (0%Z, [])).
Definition lg_adj (g : lgraph) (u : nat) : list (nat * Z) := snd (nth u g (0%Z, [])).

(** Neighbours are nodes, node and edge weights are positive. *)
Definition lg_ok (g : lgraph) : Prop :=
  forall w adj, In (w, adj) g ->
    (1 <= w)%Z /\ forall v x, In (v, x) adj -> v < length g /\ (1 <= x)%Z.

Definition lg_m (g : lgraph) : nat := list_sum (map (fun r => length (snd r)) g).

(** Position of the first occurrence of [u]. *)
Fixpoint index_of (u : nat) (l : list nat) : nat :=
  match l with [] => 0 | x :: t => if x =? u then 0 else S (index_of u t) end.

Definition memb (u : nat) (l : list nat) : bool := existsb (Nat.eqb u) l.

(** The subgraph induced by the nodes [ns], numbered in the order in which [ns] lists them: it keeps
    the node weights and exactly the edges with both endpoints in [ns]. *)
Definition induced (ns : list nat) (g : lgraph) : lgraph :=
  map (fun u => (lg_weight g u,
                 map (fun e => (index_of (fst e) ns, snd e))
                     (filter (fun e => memb (fst e) ns) (lg_adj g u)))) ns.

(** The nodes of block [b] in increasing order. *)
Definition members (part : list nat) (b : nat) : list nat :=
  filter (fun u => nth u part (S b) =? b) (seq 0 (length part)).

(** The label lists of the two sides of a bipartition, merged back into node order. *)
Fixpoint merge_labels (side L0 L1 : list nat) : list nat :=
  match side with
  | [] => []
  | s :: t => if s =? 0 then hd 0 L0 :: merge_labels t (tl L0) L1
              else hd 0 L1 :: merge_labels t L0 (tl L1)
  end.

(** Recursive bipartitioning of [g] into [num] blocks with an arbitrary bipartitioner: split the
    nodes in two, give the first side ceil(num/2) and the second side floor(num/2) blocks and recurse
    on the induced subgraphs. [abs] and [k] are the position of the block in the bipartitioning tree
    (the bipartitioner is told about it). *)
Fixpoint rb_labels (fuel : nat) (bip : lgraph -> nat -> nat -> list nat)
    (g : lgraph) (abs k num : nat) : list nat :=
  match fuel with
  | O => repeat 0 (length g)
  | S f =>
    if num <=? 1 then repeat 0 (length g)
    else
      let side := bip g abs k in
      let k0 := (num + 1) / 2 in
      let L0 := rb_labels f bip (induced (members side 0) g) (2 * abs) (2 * k) k0 in
      let L1 := rb_labels f bip (induced (members side 1) g) (2 * abs + 1) (2 * k) (num / 2) in
      merge_labels side L0 (map (Nat.add k0) L1)
  end.

(** A bipartitioner returns one label in {0, 1} per node. *)
Definition bipartitioner (bip : lgraph -> nat -> nat -> list nat) : Prop :=
  forall g abs k, length (bip g abs k) = length g /\ forall s, In s (bip g abs k) -> s < 2.

(** The nodes of block [b] in the order in which [order] lists them. *)
Definition listing (part order : list nat) (b : nat) : list nat :=
  filter (fun u => nth u part (S b) =? b) order.

(** Extension of a partition into kp blocks: block b is split into [num b] blocks by recursive
    bipartitioning of its induced subgraph (numbered as [order] lists the nodes); the new blocks of
    block b are numbered after those of the blocks before it. *)
Definition extended_label (bip : lgraph -> nat -> nat -> list nat) (g : lgraph) (part order : list nat)
    (kp : nat) (num : nat -> nat) (u : nat) : nat :=
  let b := nth u part 0 in
  let us := listing part order b in
  list_sum (map num (seq 0 b)) +
  nth (index_of u us) (rb_labels (num b) bip (induced us g) b kp (num b)) 0.
