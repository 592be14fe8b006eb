(* The subgraphs that are induced by the blocks of a partition, and the ranks that work on them. *)
From Verif Require Import Lib.Prelude Spec.Graph.

(** [H] is the subgraph of [G] induced by block [b] of the partition [part]; node i of [H] is node ns[i] of [G]: the same weights, and of its edges those
    that stay in the block, in their order. *)
Definition induced_by (G : graph) (part : nat -> nat) (b : nat) (ns : list nat) (H : graph) : Prop :=
  NoDup ns /\ (forall g, In g ns <-> g < gn G /\ part g = b) /\ gn H = length ns /\ closed_graph H /\
  forall i, i < length ns -> gvw H i = gvw G (nth i ns 0) /\
    map (fun e => (nth (fst e) ns 0, snd e)) (gadj H i) = filter (fun e => part (fst e) =? b) (gadj G (nth i ns 0)).

(** [P] ranks work on k blocks. As many blocks as ranks or fewer: block after block is given to P / k consecutive ranks, the first P mod k blocks to
    one more. Otherwise, if P divides k: every rank works on k / P consecutive blocks. *)
Definition works_on (P k r b : nat) : Prop :=
  if k <=? P then b * (P / k) + Nat.min b (P mod k) <= r < S b * (P / k) + Nat.min (S b) (P mod k)
  else r * (k / P) <= b < S r * (k / P).
(** Numbers of blocks and ranks for which the code finds the blocks of a rank. *)
Definition few_left (P k : nat) : Prop := P mod k <= 1 \/ (P / k = 1 /\ P mod k = 2).
(** At most one rank left over (or two, with one rank per block otherwise), or the same number of blocks on every rank. *)
Definition supported (P k : nat) : Prop := 0 < k /\ 0 < P /\ (k <= P /\ few_left P k \/ P < k /\ k mod P = 0).
