(* C73: the sparse all-reduce. *)
From Verif Require Import Lib.Prelude Model.AllreduceModel Spec.AllreduceSpec Proofs.AllreduceProofs.

(** If the number of ranks is a power of two, every rank gets the sums over all ranks. *)
Theorem C73_sums m size bufs : length bufs = 2 ^ m -> (forall b, In b bufs -> size <= length b) ->
  exists after, doubling_allreduce (2 ^ m) size bufs = Some after /\ reduced (2 ^ m) size bufs after.
Proof. exact (doubling_correct m size bufs). Qed.
Print Assumptions C73_sums.
Example C73_sums_example : length r_bufs = 2 ^ 2 /\ (forall b, In b r_bufs -> 3 <= length b) /\
  doubling_allreduce 4 3 r_bufs = Some [[12; 2; 0; 9]; [12; 2; 0; 9]; [12; 2; 0; 9]; [12; 2; 0; 9]]%Z.
Proof. exact (conj eq_refl (conj r_lengths eq_refl)). Qed.

(** The condition that the code asserts is necessary: for any other number of ranks, some rank sends to a rank that does not exist. *)
Theorem C73_only_powers P size bufs after : 0 < P -> doubling_allreduce P size bufs = Some after -> exists m, P = 2 ^ m.
Proof. exact (only_powers P size bufs after). Qed.
Print Assumptions C73_only_powers.
Example C73_only_powers_example : doubling_allreduce 6 1 (repeat [1%Z] 6) = None /\ doubling_allreduce 8 1 (repeat [1%Z] 8) = Some (repeat [8%Z] 8).
Proof. exact (conj eq_refl eq_refl). Qed.
