(* Admissible numbers of blocks during deep multilevel partitioning into [k] blocks: the powers of two
   up to k, and k itself. *)
From Verif Require Import Lib.Prelude.

Definition level_ok (kp k : nat) : Prop :=
  1 <= kp /\ kp <= k /\ ((exists l, kp = 2 ^ l) \/ kp = k).

(** [part'] is a partition into [kp'] blocks that refines [part]: nodes that share a block afterwards
    shared a block before. *)
Definition refines (part part' : list nat) (kp' : nat) : Prop :=
  length part' = length part /\ (forall x, In x part' -> x < kp') /\
  forall u v, u < length part -> v < length part -> nth u part' 0 = nth v part' 0 -> nth u part 0 = nth v part 0.
