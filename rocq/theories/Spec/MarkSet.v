(* Specification of a marker: several sets of marked elements below a size. *)
From Verif Require Import Lib.Prelude.

(** Calls: mark an element in the [m]-th set (optionally tracking the first unmarked element),
    forget all marks, change the number of elements. *)
Inductive mop := MSet (track : bool) (e m : nat) | MReset | MResize (n : nat).

Record marks := mkMarks { mk_size : nat; mk_marked : nat -> nat -> bool }.
Definition marks_init (n : nat) : marks := mkMarks n (fun _ _ => false).
Definition marks_step (s : marks) (o : mop) : marks :=
  match o with
  | MSet _ e m => mkMarks (mk_size s) (fun e' m' => ((e' =? e) && (m' =? m)) || mk_marked s e' m')
  | MReset => mkMarks (mk_size s) (fun _ _ => false)
  | MResize n => mkMarks n (fun e m => (e <? n) && mk_marked s e m)
  end.
Definition marks_run (ops : list mop) (s : marks) : marks := fold_left marks_step ops s.

(** The caller marks only existing elements, with markers below [k]. *)
Fixpoint valid_mops (k : Z) (ops : list mop) (size : nat) : Prop :=
  match ops with
  | [] => True
  | MSet _ e m :: t => e < size /\ (Z.of_nat m < k)%Z /\ valid_mops k t size
  | MReset :: t => valid_mops k t size
  | MResize n :: t => valid_mops k t n
  end.
Definition num_resets (ops : list mop) : Z :=
  Z.of_nat (length (filter (fun o => match o with MReset => true | _ => false end) ops)).
(** No change of the number of elements; every mark is set with tracking. *)
Fixpoint no_resize (ops : list mop) : Prop :=
  match ops with [] => True | MResize _ :: _ => False | _ :: t => no_resize t end.
Fixpoint all_tracked (ops : list mop) : Prop :=
  match ops with [] => True | MSet track _ _ :: t => track = true /\ all_tracked t | _ :: t => all_tracked t end.
