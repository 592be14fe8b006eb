(* Specification of a map with operator[] and clear: an association list in order of insertion. *)
From Verif Require Import Lib.Prelude.

Section K.
Context {V : Type}.
Fixpoint kl_get (k : nat) (l : list (nat * V)) : option V :=
  match l with [] => None | (x, v) :: t => if x =? k then Some v else kl_get k t end.
(** map[k] = f(map[k]), where map[k] creates the entry with the value [d] if there is none. *)
Fixpoint kl_modify (d : V) (k : nat) (f : V -> V) (l : list (nat * V)) : list (nat * V) :=
  match l with
  | [] => [(k, f d)]
  | (x, v) :: t => if x =? k then (x, f v) :: t else (x, v) :: kl_modify d k f t
  end.
Inductive kop := KModify (k : nat) (f : V -> V) | KClear.
Definition kl_step (d : V) (l : list (nat * V)) (o : kop) : list (nat * V) :=
  match o with KModify k f => kl_modify d k f l | KClear => [] end.
Definition kl_run (d : V) (ops : list kop) : list (nat * V) := fold_left (kl_step d) ops [].
Definition is_clear (o : kop) : bool := match o with KClear => true | _ => false end.
End K.
Arguments kop : clear implicits.
