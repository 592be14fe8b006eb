(* Growing the number of blocks of a partition. *)
From Verif Require Import Lib.Prelude.
Local Open Scope N_scope.

(** Every block is split into the same number of blocks, at least two and at most [K], from one number of blocks to the next. *)
Fixpoint splits (K first : N) (steps : list N) : Prop :=
  match steps with [] => True | next :: t => (exists f, 2 <= f <= K /\ next = first * f) /\ splits K next t end.
Definition power_of_two (x : N) : Prop := exists e, x = 2 ^ e.
