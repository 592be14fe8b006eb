(* Property theorems for rank queries (C32). *)
From Verif Require Import Lib.Prelude Spec.BitVec Model.RankModel Proofs.RankProofs.
Local Open Scope Z_scope.

(** C32: a bit vector of [n] bits made by one of the constructors ([built]; the first one leaves the bits and the rank
    counters unspecified) and any sequence of changes of bits below [n] and updates of the rank structure: no access
    leaves the memory, every bit has the value last given to it ([f0]: the initial bits), and after a final update, which
    changes no bit, rank(pos) is the number of set bits at positions smaller than [pos]. [junk] is the result of the
    shifts by 64 that rank evaluates (and discards) at word boundaries. *)
Theorem C32_rank : forall (n : nat) (v0 : rbv) (ops : list rbop), built n v0 -> Forall (bvalid n) ops ->
  exists f0, (forall p, (p < n)%nat -> rb_is_set (Z.of_nat p) v0 = Some (f0 p)) /\
  exists v, rb_run ops v0 = Some v /\
    (forall p, (p < n)%nat -> rb_is_set (Z.of_nat p) v = Some (fold_left bstep ops f0 p)) /\
    exists v', rb_run (ops ++ [RUpdate]) v0 = Some v' /\
      (forall p, (p < n)%nat -> rb_is_set (Z.of_nat p) v' = Some (fold_left bstep ops f0 p)) /\
      forall junk pos, (pos < n)%nat \/ (pos = n /\ (n mod 498 <> 0)%nat) ->
        rb_rank junk (Z.of_nat pos) v' = Some (Z.of_nat (length (filter (fold_left bstep ops f0) (seq 0 pos)))).
Proof. exact rank_built. Qed.
Print Assumptions C32_rank.

(** The constructor that sets or unsets all bits does so. *)
Theorem C32_initial_bits : forall (n : nat) (x : bool) (s : list Z) (p : nat), (p < n)%nat ->
  Z.of_nat (length s) = rdiv_ceil (Z.of_nat n) 15936 ->
  rb_is_set (Z.of_nat p) (rb_init_all (Z.of_nat n) x s) = Some x.
Proof. exact init_all_set. Qed.
Print Assumptions C32_initial_bits.

(** Rank of the length, the number of all set bits, reads outside of the memory if the length is a multiple of 498. *)
Theorem C32_rank_of_length_refuted : exists (n : nat) (v0 v' : rbv), built n v0 /\
  rb_run [RUpdate] v0 = Some v' /\ forall junk, rb_rank junk (Z.of_nat n) v' = None.
Proof.
  exists 498%nat, (rb_init_all (Z.of_nat 498) false [0]).
  assert (B : built 498 (rb_init_all (Z.of_nat 498) false [0])) by (constructor; reflexivity).
  destruct (rank_built 498 _ [] B (Forall_nil _)) as (f0 & _ & v & E & _ & v' & E' & _).
  exists v'. split; [exact B|]. split; [exact E'|]. intros junk. apply rank_of_length_oob.
  - vm_compute in E'. inversion E'. reflexivity.
  - vm_compute in E'. inversion E'. reflexivity.
Qed.
Print Assumptions C32_rank_of_length_refuted.

Example C32_rank_ex :
  let v0 := rb_init_all 1000 false [7; 9] in
  let v0 := {| rb_len := 1000; rb_blocks := rb_blocks v0; rb_data := rb_data v0; rb_super := [77] |} in
  built 1000 v0 /\
  match rb_run ([RSet 0; RSet 49; RSet 50; RSet 497; RSet 498; RSetTo 560 true; RUnset 50; RSetTo 999 true] ++ [RUpdate]) v0 with
  | Some v => map (fun p => rb_rank 123 p v) [0; 1; 50; 51; 497; 498; 499; 561; 999; 1000] =
              map Some [0; 1; 2; 2; 2; 3; 4; 5; 5; 6]
  | None => False
  end.
Proof.
  split.
  - apply (built_all 1000 false [77]). reflexivity.
  - vm_compute. reflexivity.
Qed.
