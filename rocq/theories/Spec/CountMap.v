(* Specification of a map from keys to non-negative counts. *)
From Verif Require Import Lib.Prelude.
Local Open Scope Z_scope.

(** The keys are 0 .. K-1; a key that is not contained has count 0. *)
Inductive cmop := CInc (k v : Z) | CDec (k v : Z).
Definition cm_step (M : Z -> Z) (o : cmop) : Z -> Z :=
  match o with
  | CInc k v => fun x => if x =? k then M x + v else M x
  | CDec k v => fun x => if x =? k then M x - v else M x
  end.
Definition cm_run (ops : list cmop) (M : Z -> Z) : Z -> Z := fold_left cm_step ops M.
(** Number of keys contained. *)
Definition cm_keys (K : nat) (M : Z -> Z) : list Z := filter (fun k => negb (M k =? 0)) (map Z.of_nat (seq 0 K)).
Definition cm_size (K : nat) (M : Z -> Z) : nat := length (cm_keys K M).

(** What the caller respects: keys in range, positive amounts, counts stay below [V], at most [cap] keys, and only
    what was added before is taken away. *)
Definition cm_valid_op (K : nat) (V : Z) (cap : nat) (M : Z -> Z) (o : cmop) : Prop :=
  match o with
  | CInc k v => 0 <= k < Z.of_nat K /\ 0 < v /\ M k + v < V /\ (cm_size K (cm_step M o) <= cap)%nat
  | CDec k v => 0 <= k < Z.of_nat K /\ 0 < v <= M k
  end.
Fixpoint cm_valid (K : nat) (V : Z) (cap : nat) (M : Z -> Z) (ops : list cmop) : Prop :=
  match ops with
  | [] => True
  | o :: t => cm_valid_op K V cap M o /\ cm_valid K V cap (cm_step M o) t
  end.
(** What the calls return: an insertion reports that the key was not contained before, a removal that it is not
    contained any more. *)
Fixpoint cm_rets (M : Z -> Z) (ops : list cmop) : list bool :=
  match ops with
  | [] => []
  | o :: t => (match o with CInc k v => M k =? 0 | CDec k v => M k - v =? 0 end) :: cm_rets (cm_step M o) t
  end.
