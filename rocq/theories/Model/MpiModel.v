(* Programs of kaminpar-mpi with point-to-point messages: alltoall.h (sparse_alltoall_complete) and binary_reduction_tree.h.
   Ranks 0, ..., P - 1 run concurrently. Messages between two ranks arrive in the order in which they were sent (MPI standard,
   non-overtaking; all messages have tag 0 and receives name their source). A blocking send, or the wait for a non-blocking one,
   may or may not wait until the message is received (the MPI library decides): [sy r d] says whether it does for messages from r
   to d; it then waits for an acknowledgement, which the receiving side sends when it receives. *)
From Verif Require Import Lib.Prelude.

(** ** Ranks and messages *)
Inductive proc (M A : Type) : Type :=
| Ret (a : A)                               (* returned *)
| Send (to : nat) (m : M) (k : proc M A)
| Recv (from : nat) (k : M -> proc M A)     (* waits for a message *)
| Fail.                                     (* array access out of bounds, or a loop that does not end *)
Arguments Ret {M A}. Arguments Send {M A}. Arguments Recv {M A}. Arguments Fail {M A}.

Section System.
Context {M A : Type}.
(** The programs of all ranks and the messages under way (sender, receiver). *)
Record sys := Sys { s_procs : list (proc M A); s_chans : list (list (list M)) }.
Definition chan (q r : nat) (C : list (list (list M))) : list M := nth r (nth q C []) [].
Definition set_chan (q r : nat) (l : list M) (C : list (list (list M))) := upd q (upd r l (nth q C [])) C.
(** Rank [r] takes a step; [None]: it cannot. *)
Definition step (r : nat) (s : sys) : option sys :=
  match nth_error (s_procs s) r with
  | Some (Send d m k) => if d <? length (s_procs s) then Some (Sys (upd r k (s_procs s)) (set_chan r d (chan r d (s_chans s) ++ [m]) (s_chans s))) else None
  | Some (Recv q k) =>
      match chan q r (s_chans s) with
      | [] => None
      | m :: t => Some (Sys (upd r (k m) (s_procs s)) (set_chan q r t (s_chans s)))
      end
  | _ => None
  end.
(** A schedule: who steps next. *)
Fixpoint run (sched : list nat) (s : sys) : option sys :=
  match sched with
  | [] => Some s
  | r :: t => match step r s with Some s' => run t s' | None => None end
  end.
Definition start (procs : list (proc M A)) : sys := Sys procs (repeat (repeat [] (length procs)) (length procs)).
End System.
Arguments sys : clear implicits.

(** ** alltoall.h:134-169 sparse_alltoall_complete. [b]: the buffers of rank [r]; the result lists the calls of the receiver. *)
Section Complete.
Context {X : Type}.
Notation prog := (proc (list X) (list (nat * list X))).
Variable sy : nat -> nat -> bool.
Variable P : nat.
Definition ack : list X := [].
(** :141-149. *)
Fixpoint post_sends (r : nat) (b : list (list X)) (pes : list nat) (k : prog) : prog :=
  match pes with
  | [] => k
  | pe :: t => if pe =? r then post_sends r b t k
               else match nth_error b pe with Some m => Send pe m (post_sends r b t k) | None => Fail end
  end.
(** :164-166 waitall. *)
Fixpoint wait_all (r : nat) (pes : list nat) (k : prog) : prog :=
  match pes with
  | [] => k
  | pe :: t => if (pe =? r) || negb (sy r pe) then wait_all r t k else Recv pe (fun _ => wait_all r t k)
  end.
(** :155-162. *)
Fixpoint receive_all (r : nat) (b : list (list X)) (pes : list nat) (calls : list (nat * list X)) (k : list (nat * list X) -> prog) : prog :=
  match pes with
  | [] => k calls
  | pe :: t => if pe =? r then match nth_error b r with Some m => receive_all r b t (calls ++ [(r, m)]) k | None => Fail end
               else Recv pe (fun m => let next := receive_all r b t (calls ++ [(pe, m)]) k in
                                      if sy pe r then Send pe ack next else next)
  end.
Definition complete_prog (r : nat) (b : list (list X)) : prog :=
  post_sends r b (seq 0 P) (receive_all r b (seq 0 P) [] (fun calls => wait_all r (seq 0 P) (Ret calls))).
End Complete.

(** ** binary_reduction_tree.h:17-63 perform_binary_reduction. The result of a rank that sent its buffer is an empty buffer
    ([None]). The test [rank < ceil(active / 2.0)] is exact. *)
Section Reduction.
Context {X : Type}.
Notation prog := (proc X (option X)).
Variable sy : nat -> nat -> bool.
Variable comb : X -> X -> X.
Variables (empty token : X).
Fixpoint reduce_loop (fuel r active : nat) (buf : X) : prog :=
  match fuel with
  | 0 => Fail
  | S f =>
      if active <=? 1 then Ret (Some buf)
      else if active <=? r then reduce_loop f r active buf
      else
        let next := active / 2 + active mod 2 in
        if (r =? 0) && (active mod 2 =? 1) then reduce_loop f r next buf
        else if r <? (active + 1) / 2 then
          let from := r + active / 2 in
          Recv from (fun m => let rest := reduce_loop f r next (comb buf m) in if sy from r then Send from token rest else rest)
        else
          let to := r - active / 2 in
          Send to buf (if sy r to then Recv to (fun _ => Ret None) else Ret None)
  end.
Definition reduce_prog (P r : nat) (buf : X) : prog :=
  if P =? 1 then Ret (Some (comb buf empty)) else reduce_loop (S P) r P buf.
End Reduction.
