(* Specification of the block weight limits of intermediate partitions. The caller gives one limit per final
   block. An intermediate block stands for a run of consecutive final blocks: the root stands for all of them,
   and a block that stands for v final blocks is split into one for the first ceil(v/2) and one for the rest. *)
From Verif Require Import Lib.Prelude.

(** The runs of final blocks of the blocks on level [l] of the bipartitioning tree. *)
Fixpoint tree_runs {A} (l : nat) (xs : list A) : list (list A) :=
  match l with
  | O => [xs]
  | S l' => let h := (length xs + 1) / 2 in tree_runs l' (firstn h xs) ++ tree_runs l' (skipn h xs)
  end.

(** What a quantity of the final blocks (a limit or a weight) amounts to for the blocks on level [l]. *)
Definition tree_sums (l : nat) (xs : list Z) : list Z := map zsum (tree_runs l xs).

(** Levels in increasing order. *)
Fixpoint increasing (lvls : list nat) : Prop :=
  match lvls with a :: ((b :: _) as t) => a <= b /\ increasing t | _ => True end.
