(* kaminpar-mpi/sparse_allreduce.h:47-105: inplace_sparse_allreduce with doubling_allreduce_tag. All ranks; values are integers without overflow.
   A send of a rank and the receive of its partner are one step: all ranks use the same number of rounds, and in every round partners name each other. *)
From Verif Require Import Lib.Prelude.

(** :67-74. The ranks below the middle of their group go up, the others down. *)
Definition partner (it r : nat) : nat := if r mod (2 * 2 ^ it) <? 2 ^ it then r + 2 ^ it else r - 2 ^ it.
(** :79-83: the entries of the first [size] that are not zero. *)
Definition nonzeros (size : nat) (b : list Z) : list (nat * Z) := filter (fun e => negb (snd e =? 0)%Z) (combine (seq 0 size) b).
(** :102-104. *)
Definition add_entries (b : list Z) (l : list (nat * Z)) : list Z := fold_left (fun b e => upd (fst e) (nth (fst e) b 0%Z + snd e)%Z b) l b.
(** One round of all ranks; [None]: a rank sends to a rank that does not exist. *)
Definition exchange_round (P size it : nat) (bufs : list (list Z)) : option (list (list Z)) :=
  if forallb (fun r => partner it r <? P) (seq 0 P)
  then Some (map (fun r => add_entries (nth r bufs []) (nonzeros size (nth (partner it r) bufs []))) (seq 0 P)) else None.
(** :66: the loop; [None] also if [fuel] rounds are not enough. *)
Fixpoint doubling_from (fuel P size it : nat) (bufs : list (list Z)) : option (list (list Z)) :=
  if 2 * 2 ^ it <? P + 1 then
    match fuel with
    | 0 => None
    | S f => match exchange_round P size it bufs with Some b => doubling_from f P size (S it) b | None => None end
    end
  else Some bufs.
Definition doubling_allreduce (P size : nat) (bufs : list (list Z)) : option (list (list Z)) := doubling_from P P size 0 bufs.
