(* Specification: the binary tree of block counts described in
   kaminpar-shm/partitioning/partition_utils.h:14-36. The root carries the requested number of
   blocks; a node with label v has children ceil(v/2) (left) and floor(v/2) (right). *)
From Verif Require Import Lib.Prelude.
Local Open Scope N_scope.

(** The labels on level [l] of the tree with root label [v], from left to right. *)
Fixpoint tree_level (l : nat) (v : N) : list N :=
  match l with
  | O => [v]
  | S l' => tree_level l' ((v + 1) / 2) ++ tree_level l' (v / 2)
  end.

(** Sum of a list of naturals. *)
Fixpoint nsum (l : list N) : N := match l with [] => 0 | x :: t => x + nsum t end.
