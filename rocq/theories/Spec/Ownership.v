(* Specification of exclusive ownership: what may be observed when several workers lock and release nodes. *)
From Verif Require Import Lib.Prelude.

(** Observable events: worker [t] locks a free node; writes a mark on a node it has locked; receives a node as a seed;
    gives a node back; gives a node up for good (nobody may use it any more). *)
Inductive oev := OLock (t u : nat) | OMark (t u : nat) | OSeed (t u : nat) | OFree (t u : nat) | ORetire (t u : nat).
Inductive ostate := Free | Held (t : nat) | Retired.

(** An event is legal if the node is free and gets locked, or if it is held by the worker. *)
Definition o_legal (o : nat -> ostate) (e : oev) : Prop :=
  match e with
  | OLock t u => o u = Free
  | OMark t u | OSeed t u | OFree t u | ORetire t u => o u = Held t
  end.
Definition o_step (o : nat -> ostate) (e : oev) : nat -> ostate :=
  match e with
  | OLock t u => fun v => if v =? u then Held t else o v
  | OFree t u => fun v => if v =? u then Free else o v
  | ORetire t u => fun v => if v =? u then Retired else o v
  | OMark _ _ | OSeed _ _ => o
  end.
Fixpoint o_exclusive (o : nat -> ostate) (l : list oev) : Prop :=
  match l with
  | [] => True
  | e :: t => o_legal o e /\ o_exclusive (o_step o e) t
  end.
Definition seeds_of (l : list oev) : list nat := flat_map (fun e => match e with OSeed _ u => [u] | _ => [] end) l.
