(* Model of kaminpar-common/datastructures/binary_heap.h: the addressable 4-ary heaps.

   One model covers SharedBinaryHeap (62-243), BinaryHeap (274-457) and DynamicBinaryForest
   (463-655): a family of heaps that share one array of handles (_id_pos). BinaryHeap is the case of
   one heap; its fixed array plus _size is represented by the list of its first _size elements.
   IDs are [nat], keys are [Z] (signed machine integers), kInvalidID in _id_pos is [None]. *)
From Verif Require Import Lib.Prelude Spec.PrioQueue.
Local Open Scope Z_scope.

(** binary_heap.h:18-30: comparators of max heaps ([mx = true]) and min heaps. *)
Definition hcmp (mx : bool) (a b : Z) : bool := if mx then b >? a else a >? b.
(** binary_heap.h:19, 26 kMinValue for [w]-bit signed keys. *)
Definition hextreme (mx : bool) (w : Z) : Z := if mx then 2 ^ (w - 1) - 1 else - 2 ^ (w - 1).

Definition helem := (nat * Z)%type.
Definition hd0 : helem := (0%nat, 0).
Definition hid (l : list helem) (i : nat) : nat := fst (nth i l hd0).
Definition hkey (l : list helem) (i : nat) : Z := snd (nth i l hd0).

(** binary_heap.h:647-650 (and the two std::swap calls at 201-202, 230-231): exchange two elements
    and their handles. *)
Definition hswap (a b : nat) (st : list helem * list (option nat)) : list helem * list (option nat) :=
  let (l, ids) := st in
  let ea := nth a l hd0 in
  let eb := nth b l hd0 in
  let pa := nth (fst ea) ids None in
  let pb := nth (fst eb) ids None in
  (upd a eb (upd b ea l), upd (fst ea) pb (upd (fst eb) pa ids)).

(** binary_heap.h:612-620 sift_up (also 197-206, 417-426): the loop does not stop early. *)
Fixpoint sift_up (mx : bool) (fuel pos : nat) (st : list helem * list (option nat))
    : option (list helem * list (option nat)) :=
  if Nat.eqb pos 0 then Some st
  else match fuel with
  | 0%nat => None
  | S fuel' =>
      let parent := ((pos - 1) / 4)%nat in
      let st' := if hcmp mx (hkey (fst st) parent) (hkey (fst st) pos) then hswap pos parent st else st in
      sift_up mx fuel' parent st'
  end.

(** binary_heap.h:629-637: the child that wins. *)
Definition select_child (mx : bool) (l : list helem) (pos : nat) : nat :=
  let first_child := (4 * pos + 1)%nat in
  fold_left (fun s c => if hcmp mx (hkey l s) (hkey l c) then c else s)
    (seq (S first_child) (Nat.min (4 * pos + 4 + 1) (length l) - S first_child)) first_child.

(** binary_heap.h:622-645 sift_down (also 208-234, 428-453). *)
Fixpoint sift_down (mx : bool) (fuel pos : nat) (st : list helem * list (option nat))
    : option (list helem * list (option nat)) :=
  if (length (fst st) <=? 4 * pos + 1)%nat then Some st
  else match fuel with
  | 0%nat => None
  | S fuel' =>
      let c := select_child mx (fst st) pos in
      if hcmp mx (hkey (fst st) c) (hkey (fst st) pos) || (hkey (fst st) c =? hkey (fst st) pos)
      then Some st
      else sift_down mx fuel' c (hswap pos c st)
  end.

(** A family of heaps with shared handles. *)
Record forest := mkForest { fo_ids : list (option nat); fo_heaps : list (list helem) }.

(** binary_heap.h:483-491. *)
Definition forest_init (capacity heaps : nat) : forest :=
  mkForest (repeat None capacity) (repeat [] heaps).

Definition fo_heap (f : forest) (h : nat) : list helem := nth h (fo_heaps f) [].
Definition fo_set (f : forest) (h : nat) (st : list helem * list (option nat)) : forest :=
  mkForest (snd st) (upd h (fst st) (fo_heaps f)).

(** binary_heap.h:497-500 contains. *)
Definition fo_contains (f : forest) (id : nat) : bool :=
  match nth id (fo_ids f) None with Some _ => true | None => false end.
(** binary_heap.h:603-609 key; [None] where the assertions fail. *)
Definition fo_key (f : forest) (h id : nat) : option Z :=
  match nth id (fo_ids f) None with
  | Some p => match nth_error (fo_heap f h) p with Some e => Some (snd e) | None => None end
  | None => None
  end.
(** binary_heap.h:511-518 peek_id, peek_key, 583-585 size. *)
Definition fo_peek (f : forest) (h : nat) : option helem := nth_error (fo_heap f h) 0.
Definition fo_size (f : forest) (h : nat) : nat := length (fo_heap f h).

(** binary_heap.h:502-509 push. *)
Definition fo_push (mx : bool) (f : forest) (h id : nat) (key : Z) : option forest :=
  if (Nat.ltb h (length (fo_heaps f)) && Nat.ltb id (length (fo_ids f)) && negb (fo_contains f id))%bool then
    let l := fo_heap f h ++ [(id, key)] in
    let ids := upd id (Some (length l - 1)%nat) (fo_ids f) in
    match sift_up mx (length l) (length l - 1) (l, ids) with
    | Some st => Some (fo_set f h st)
    | None => None
    end
  else None.

(** binary_heap.h:525-531 pop (also 119-126, 338-345); [None] on an empty heap. *)
Definition fo_pop (mx : bool) (f : forest) (h : nat) : option forest :=
  let l := fo_heap f h in
  match l with
  | [] => None
  | _ =>
    let n := (length l - 1)%nat in
    let front := nth 0 l hd0 in
    let back := nth n l hd0 in
    let ids := upd (fst front) None (upd (fst back) (Some 0%nat) (fo_ids f)) in
    let l' := firstn n (upd 0 back (upd n front l)) in
    match sift_down mx (length l') 0 (l', ids) with
    | Some st => Some (fo_set f h st)
    | None => None
    end
  end.

(** The new key is stored, binary_heap.h:558, 566. *)
Definition set_key (l : list helem) (p : nat) (key : Z) : list helem := upd p (hid l p, key) l.

(** binary_heap.h:554-560 decrease_priority, 562-568 increase_priority. *)
Definition fo_decrease_priority (mx : bool) (f : forest) (h id : nat) (key : Z) : option forest :=
  match nth id (fo_ids f) None with
  | Some p => match sift_up mx p p (set_key (fo_heap f h) p key, fo_ids f) with
              | Some st => Some (fo_set f h st)
              | None => None
              end
  | None => None
  end.
Definition fo_increase_priority (mx : bool) (f : forest) (h id : nat) (key : Z) : option forest :=
  match nth id (fo_ids f) None with
  | Some p => match sift_down mx (length (fo_heap f h)) p (set_key (fo_heap f h) p key, fo_ids f) with
              | Some st => Some (fo_set f h st)
              | None => None
              end
  | None => None
  end.

(** binary_heap.h:541-549 change_priority. *)
Definition fo_change_priority (mx : bool) (f : forest) (h id : nat) (key : Z) : option forest :=
  match fo_key f h id with
  | None => None
  | Some old =>
      if hcmp mx key old then fo_increase_priority mx f h id key
      else if hcmp mx old key then fo_decrease_priority mx f h id key
      else Some f
  end.

(** binary_heap.h:520-523 remove. *)
Definition fo_remove (mx : bool) (w : Z) (f : forest) (h id : nat) : option forest :=
  match fo_key f h id with
  | None => None
  | Some _ =>
    match fo_decrease_priority mx f h id (hextreme mx w) with
    | None => None
    | Some f' => fo_pop mx f' h
    end
  end.

(** binary_heap.h:570-575 clear. *)
Definition fo_clear (f : forest) (h : nat) : option forest :=
  if Nat.ltb h (length (fo_heaps f)) then
    Some (fo_set f h ([], fold_left (fun ids e => upd (fst e) None ids) (fo_heap f h) (fo_ids f)))
  else None.

Definition fo_step (mx : bool) (w : Z) (f : forest) (o : hop) : option forest :=
  match o with
  | HPush h id key => fo_push mx f h id key
  | HPop h => fo_pop mx f h
  | HChange h id key => fo_change_priority mx f h id key
  | HRemove h id => fo_remove mx w f h id
  | HClear h => fo_clear f h
  end.
Fixpoint fo_run (mx : bool) (w : Z) (ops : list hop) (f : forest) : option forest :=
  match ops with
  | [] => Some f
  | o :: t => match fo_step mx w f o with Some f' => fo_run mx w t f' | None => None end
  end.

(** A key that fits into a signed [w]-bit integer and is not the value that remove() writes
    (push asserts this: binary_heap.h:503-504). *)
Definition key_ok (mx : bool) (w : Z) (k : Z) : Prop :=
  - 2 ^ (w - 1) <= k < 2 ^ (w - 1) /\ k <> hextreme mx w.
(** What the caller has to respect, in terms of the public observers (the assertions of the code). *)
Definition valid_hop (mx : bool) (w : Z) (f : forest) (o : hop) : Prop :=
  match o with
  | HPush h id key => (h < length (fo_heaps f))%nat /\ (id < length (fo_ids f))%nat /\
                      fo_contains f id = false /\ key_ok mx w key
  | HPop h => (0 < fo_size f h)%nat
  | HChange h id key => In id (map fst (fo_heap f h)) /\ key_ok mx w key
  | HRemove h id => In id (map fst (fo_heap f h))
  | HClear h => (h < length (fo_heaps f))%nat
  end.
Fixpoint valid_hops (mx : bool) (w : Z) (ops : list hop) (f : forest) : Prop :=
  match ops with
  | [] => True
  | o :: t => valid_hop mx w f o /\ forall f', fo_step mx w f o = Some f' -> valid_hops mx w t f'
  end.

(** What the observers return. *)
Definition observes (mx : bool) (f : forest) (A : pq) : Prop :=
  (forall id, fo_contains f id = true <-> A id <> None) /\
  (forall h id key, A id = Some (h, key) -> fo_key f h id = Some key) /\
  (forall h id key, In (id, key) (fo_heap f h) <-> A id = Some (h, key)) /\
  (forall h, NoDup (map fst (fo_heap f h))) /\
  (forall h, match fo_peek f h with
             | Some (id, key) => pq_first mx A h id key
             | None => forall id key, A id <> Some (h, key)
             end).
