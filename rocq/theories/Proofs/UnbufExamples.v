(* Concrete executions of unbuffered contraction with two threads. *)
From Verif Require Import Lib.Prelude Spec.Graph Spec.Quotient Spec.RatingMap Model.ContractModel Model.UnbufModel Proofs.ContractExamples.

(** All nodes in the first phase, with buffers of one node: thread 0 flushes two nodes at once while thread 1 flushes
    its buffer; the stores interleave. *)
Definition ex_evs1 : list uevent := [UProc 0 1; UProc 1 2; UProc 0 0; UFlush 1] ++ flat_map (fun _ => [UWrite 0; UWrite 1; UWrite 0]) (seq 0 7).
(** All nodes in the second phase. *)
Definition ex_evs2 : list uevent := [UProc 0 1; UProc 1 0; UProc 1 2].
Definition ex_sched2 (c : nat) : list sevent * list cevent :=
  (match c with
   | 1 => [SAdd 1 1; SAdd 0 0; SFlush 1 0; SFlush 0 1; SFetch 0; SFetch 1]
   | _ => [SAdd 0 0; SAdd 1 1; SAdd 1 2; SFetch 1; SFlush 0 0; SFetch 0; SFetch 1]
   end,
   match c with
   | 0 => [CClaim 1; CWrite 1; CWrite 1; CClaim 0; CWrite 1; CWrite 1]
   | _ => [CClaim 1; CClaim 0; CWrite 0; CWrite 1; CWrite 0; CWrite 1]
   end).

Lemma ex_unbuf1 : contract_clustering_unbuffered 2 8 2 4 3 (fun x => x) ex_graph ex_clustering [3; 1; 0; 2] [2; 0; 3; 1] [1; 0; 2; 3]
    (repeat 9 4) false ex_evs1 (fun _ => ([], []))
  = Ok ([2; 2; 1; 0], ([0; 2; 4; 6], [1; 2; 2; 0; 1; 0], [4; 3; 3]%Z, [3; 4; 7; 3; 7; 4]%Z)).
Proof. vm_compute. reflexivity. Qed.
Lemma ex_unbuf2 : contract_clustering_unbuffered 2 8 2 4 2 (fun x => x) ex_graph ex_clustering [3; 1; 0; 2] [2; 0; 3; 1] [1; 0; 2; 3]
    (repeat 9 4) false ex_evs2 ex_sched2
  = Ok ([2; 2; 1; 0], ([0; 2; 4; 6], [1; 2; 2; 0; 0; 1], [4; 3; 3]%Z, [3; 4; 7; 3; 4; 7]%Z)).
Proof. vm_compute. reflexivity. Qed.
