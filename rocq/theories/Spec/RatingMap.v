(* Specification of maps that accumulate values: the entries in the order in which their keys were first
   touched since the last clear. *)
From Verif Require Import Lib.Prelude.

(** map[k] += v; map.clear(). *)
Inductive rop := RAdd (k : nat) (v : Z) | RClear.

Definition touched (k : nat) (l : list (nat * Z)) : bool := existsb (fun e => fst e =? k) l.
Fixpoint acc_add (k : nat) (v : Z) (l : list (nat * Z)) : list (nat * Z) :=
  match l with
  | [] => [(k, v)]
  | (k', v') :: t => if k' =? k then (k', (v' + v)%Z) :: t else (k', v') :: acc_add k v t
  end.
Definition acc_step (l : list (nat * Z)) (o : rop) : list (nat * Z) :=
  match o with RAdd k v => acc_add k v l | RClear => [] end.
Definition acc_run (ops : list rop) : list (nat * Z) := fold_left acc_step ops [].
(** The value accumulated for [k] (0 if [k] was not touched). *)
Definition acc_get (k : nat) (l : list (nat * Z)) : Z := zsum (map snd (filter (fun e => fst e =? k) l)).

(** Keys are below [n]; added values are positive. *)
Definition keys_below (n : nat) (ops : list rop) : Prop := forall k v, In (RAdd k v) ops -> k < n.
Definition positive_values (ops : list rop) : Prop := forall k v, In (RAdd k v) ops -> (0 < v)%Z.
(** At no time more than [c] different keys. *)
Definition at_most_keys (c : nat) (ops : list rop) : Prop := forall j, length (acc_run (firstn j ops)) <= c.

(** Calls of a SparseMap: insert if absent, assign through operator[], remove, clear. *)
Inductive smop := SmAdd (k : nat) (v : Z) | SmSet (k : nat) (v : Z) | SmRemove (k : nat) | SmClear.
Definition sm_spec_step (m : nat -> option Z) (o : smop) : nat -> option Z :=
  match o with
  | SmAdd k v => fun x => if x =? k then (match m k with Some w => Some w | None => Some v end) else m x
  | SmSet k v => fun x => if x =? k then Some v else m x
  | SmRemove k => fun x => if x =? k then None else m x
  | SmClear => fun _ => None
  end.
Definition sm_spec_run (ops : list smop) : nat -> option Z := fold_left sm_spec_step ops (fun _ => None).
Definition sm_keys_below (n : nat) (ops : list smop) : Prop :=
  forall o, In o ops -> match o with SmAdd k _ | SmSet k _ | SmRemove k => k < n | SmClear => True end.
