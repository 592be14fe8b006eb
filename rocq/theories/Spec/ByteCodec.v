(* What encoding integers into bytes and decoding them again has to satisfy. *)
From Coq Require Import Sorting.Sorted.
From Verif Require Import Lib.Prelude.
Local Open Scope Z_scope.

(** The values fit into [bits] bits. *)
Definition fit (bits : Z) (vs : list Z) : Prop := Forall (fun v => 0 <= v < 2 ^ bits) vs.
(** The values are listed in non-decreasing order. *)
Definition nondecreasing (vs : list Z) : Prop := Sorted Z.le vs.
(** The pairs in [ps] list the values of [vs], two by two. *)
Definition listed_in_pairs (ps : list (Z * Z)) (vs : list Z) : Prop := flat_map (fun p => [fst p; snd p]) ps = vs.
(** Control bytes: one for every four values, also for the last one to three. *)
Definition control_bytes (n : nat) : nat := (n + 3) / 4.
