(* Specification of a bit vector: the operations and their effect on the bits. *)
From Verif Require Import Lib.Prelude.

Inductive rbop := RSet (p : nat) | RUnset (p : nat) | RSetTo (p : nat) (x : bool) | RUpdate.
(** The abstract bit vector. *)
Definition bstep (f : nat -> bool) (o : rbop) : nat -> bool :=
  match o with
  | RSet p => fun q => if (q =? p)%nat then true else f q
  | RUnset p => fun q => if (q =? p)%nat then false else f q
  | RSetTo p x => fun q => if (q =? p)%nat then x else f q
  | RUpdate => f
  end.
Definition bvalid (n : nat) (o : rbop) : Prop :=
  match o with RSet p | RUnset p | RSetTo p _ => (p < n)%nat | RUpdate => True end.

