(* What "for every schedule" means for message-passing programs. *)
From Verif Require Import Lib.Prelude Model.MpiModel.

(** All runs of the programs [procs] end (after at most [N] steps), and when nobody can step any more, everybody has returned:
    rank r the value [outs r]. *)
Definition always_returns {M A} (procs : list (proc M A)) (outs : nat -> A) : Prop :=
  exists N, forall sched s, run sched (start procs) = Some s ->
    length sched <= N /\
    ((forall r, step r s = None) -> s_procs s = map (fun r => Ret (outs r)) (seq 0 (length procs))).

(** A way of combining the values of the ranks pairwise. *)
Inductive tree := Leaf (r : nat) | Node (a b : tree).
Fixpoint leaves (t : tree) : list nat := match t with Leaf r => [r] | Node a b => leaves a ++ leaves b end.
Fixpoint eval {X} (comb : X -> X -> X) (x : nat -> X) (t : tree) : X :=
  match t with Leaf r => x r | Node a b => comb (eval comb x a) (eval comb x b) end.
