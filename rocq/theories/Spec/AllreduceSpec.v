(* What a reduction over all ranks has to return. *)
From Verif Require Import Lib.Prelude.

(** Every rank has, in each of the first [size] entries, the sum over all ranks; the other entries are unchanged. *)
Definition reduced (P size : nat) (before after : list (list Z)) : Prop :=
  length after = P /\ forall r, r < P -> length (nth r after []) = length (nth r before []) /\
    forall i, nth i (nth r after []) 0%Z = if i <? size then fold_right Z.add 0%Z (map (fun b => nth i b 0%Z) before) else nth i (nth r before []) 0%Z.
