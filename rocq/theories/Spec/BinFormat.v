(* Specification of the ParHIP binary graph format, independent of the code that reads and writes it. *)
From Verif Require Import Lib.Prelude Spec.Graph Spec.TextFormat.
Local Open Scope Z_scope.

(** The value of a little-endian sequence of bytes. *)
Definition le_value (bs : list Z) : Z := fold_right (fun b a => b + 256 * a) 0 bs.
(** The [k] bytes at position [pos] of the file hold the value [v]. *)
Definition field (t : list Z) (pos : Z) (k : nat) (v : Z) : Prop :=
  exists bs, length bs = k /\ Forall (fun b => 0 <= b < 256) bs /\ firstn k (skipn (Z.to_nat pos) t) = bs /\ le_value bs = v.

(** Number of directed edges of the nodes before [u]. *)
Definition arcs_before (g : graph) (u : nat) : Z := sumn u (fun v => Z.of_nat (length (gadj g v))).

(** The file describes the graph [g]: [bn], [bi], [bnw], [bew] (4 or 8) are the numbers of bytes of node IDs, edge
    offsets, node weights and edge weights; [nw], [ew] tell whether there are weights. Header: version (inverted flags),
    number of nodes, number of directed edges. Then for every node and one more the position in the file of its first
    neighbour, the neighbours, the node weights, the edge weights. *)
Definition parhip_file (bn bi bnw bew : nat) (nw ew : bool) (g : graph) (t : list Z) : Prop :=
  let inv (b : bool) := if b then 0 else 1 in
  let n := Z.of_nat (gn g) in
  let base := 24 + Z.of_nat bi * (n + 1) in
  let nws := base + Z.of_nat bn * num_arcs g in
  let ews := nws + (if nw then Z.of_nat bnw * n else 0) in
  field t 0 8 (inv ew + 2 * inv nw + 4 * inv (Nat.eqb bi 8) + 8 * inv (Nat.eqb bn 8) +
               16 * inv (Nat.eqb bnw 8) + 32 * inv (Nat.eqb bew 8)) /\
  field t 8 8 n /\ field t 16 8 (num_arcs g) /\
  (forall u, (u <= gn g)%nat -> field t (24 + Z.of_nat bi * Z.of_nat u) bi (base + Z.of_nat bn * arcs_before g u)) /\
  (forall u i, (u < gn g)%nat -> (i < length (gadj g u))%nat ->
     field t (base + Z.of_nat bn * (arcs_before g u + Z.of_nat i)) bn (Z.of_nat (fst (nth i (gadj g u) (0%nat, 0))))) /\
  (nw = true -> forall u, (u < gn g)%nat -> field t (nws + Z.of_nat bnw * Z.of_nat u) bnw (gvw g u)) /\
  (ew = true -> forall u i, (u < gn g)%nat -> (i < length (gadj g u))%nat ->
     field t (ews + Z.of_nat bew * (arcs_before g u + Z.of_nat i)) bew (snd (nth i (gadj g u) (0%nat, 0)))).
(** Weights that are not stored are 1; stored ones are positive. *)
Definition weights_ok (g : graph) (nw ew : bool) : Prop :=
  (forall u, (u < gn g)%nat -> 1 <= gvw g u /\ (nw = false -> gvw g u = 1)) /\
  (forall u v w, (u < gn g)%nat -> In (v, w) (gadj g u) -> 1 <= w /\ (ew = false -> w = 1)).
