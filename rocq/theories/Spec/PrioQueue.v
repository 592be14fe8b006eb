(* Specification of a family of addressable priority queues: a map from the element IDs to the queue
   that contains the element and its key. *)
From Verif Require Import Lib.Prelude.
Local Open Scope Z_scope.

Definition pq := nat -> option (nat * Z).
Definition pq_empty : pq := fun _ => None.
Definition pq_set (a : pq) (id : nat) (v : option (nat * Z)) : pq :=
  fun j => if Nat.eqb j id then v else a j.

(** [before mx a b]: an element with key [a] may be returned before one with key [b]. *)
Definition before (mx : bool) (a b : Z) : Prop := if mx then b <= a else a <= b.

(** An element of queue [h] that may be returned next. *)
Definition pq_first (mx : bool) (a : pq) (h id : nat) (key : Z) : Prop :=
  a id = Some (h, key) /\ forall j k, a j = Some (h, k) -> before mx key k.

(** Calls. *)
Inductive hop := HPush (h id : nat) (key : Z) | HPop (h : nat) | HChange (h id : nat) (key : Z)
  | HRemove (h id : nat) | HClear (h : nat).

Definition pq_step (mx : bool) (a : pq) (o : hop) (a' : pq) : Prop :=
  match o with
  | HPush h id key => a id = None /\ a' = pq_set a id (Some (h, key))
  | HPop h => exists id key, pq_first mx a h id key /\ a' = pq_set a id None
  | HChange h id key => (exists old, a id = Some (h, old)) /\ a' = pq_set a id (Some (h, key))
  | HRemove h id => (exists old, a id = Some (h, old)) /\ a' = pq_set a id None
  | HClear h => a' = fun j => match a j with
                               | Some (h', k) => if Nat.eqb h' h then None else Some (h', k)
                               | None => None
                               end
  end.

Inductive pq_run (mx : bool) : list hop -> pq -> pq -> Prop :=
  | pq_run_nil a : pq_run mx [] a a
  | pq_run_cons o t a b c : pq_step mx a o b -> pq_run mx t b c -> pq_run mx (o :: t) a c.
