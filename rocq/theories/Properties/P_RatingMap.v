(* C31: fast-reset arrays and sparse maps behave like maps and really clear. *)
From Verif Require Import Lib.Prelude Spec.RatingMap Model.RatingMapModel Proofs.RatingMapProofs Proofs.RatingMapExamples.

(** FastResetArray: after any history of additions of positive values and clears, iteration lists every key
    touched since the last clear once, in order of first use, with its accumulated value, and get() returns
    the accumulated value. *)
Theorem C31_fast_reset_array : forall n ops, keys_below n ops -> positive_values ops ->
  let a := fra_run ops (fra_make n) in
  fra_entries a = acc_run ops /\ (forall k, k < n -> fra_get a k = acc_get k (acc_run ops)) /\
  NoDup (map fst (acc_run ops)).
Proof. exact fra_correct. Qed.
Print Assumptions C31_fast_reset_array.

Example C31_fast_reset_array_ex :
  let ops := [RAdd 3 5; RAdd 1 2; RClear; RAdd 2 1; RAdd 3 4; RAdd 2 6]%Z in
  keys_below 4 ops /\ positive_values ops /\ fra_entries (fra_run ops (fra_make 4)) = [(2, 7%Z); (3, 4%Z)].
Proof.
  cbv zeta. split; [intros k v H; repeat (destruct H as [H|H]; [inversion H; subst; lia|]); destruct H|].
  split; [intros k v H; repeat (destruct H as [H|H]; [inversion H; subst; lia|]); destruct H|]. reflexivity.
Qed.

(** With a value of zero a key is listed twice. *)
Theorem C31_fast_reset_array_zero_refuted : exists n ops, keys_below n ops /\
  ~ NoDup (map fst (fra_entries (fra_run ops (fra_make n)))).
Proof. exact fra_zero_twice. Qed.
Print Assumptions C31_fast_reset_array_zero_refuted.

(** SparseMap on arrays with arbitrary initial contents: accumulating. *)
Theorem C31_sparse_map_accumulates : forall n sparse dense ops,
  length sparse = n -> length dense = n -> keys_below n ops ->
  let m := smap_rrun ops (smap_make sparse dense) in
  smap_entries m = acc_run ops /\ NoDup (map fst (acc_run ops)) /\
  (forall k, smap_contains m k = touched k (acc_run ops)) /\
  (forall k, touched k (acc_run ops) = true -> smap_get m k = acc_get k (acc_run ops)).
Proof. exact smap_acc_correct. Qed.
Print Assumptions C31_sparse_map_accumulates.

(** SparseMap: any history of insertions, assignments, removals and clears. *)
Theorem C31_sparse_map_is_a_map : forall n sparse dense ops,
  length sparse = n -> length dense = n -> sm_keys_below n ops ->
  let m := smap_run ops (smap_make sparse dense) in
  NoDup (map fst (smap_entries m)) /\
  (forall k v, In (k, v) (smap_entries m) <-> sm_spec_run ops k = Some v) /\
  (forall k, smap_contains m k = match sm_spec_run ops k with Some _ => true | None => false end) /\
  (forall k v, sm_spec_run ops k = Some v -> smap_get m k = v).
Proof. exact smap_correct. Qed.
Print Assumptions C31_sparse_map_is_a_map.

Example C31_sparse_map_ex :
  let garbage := [(3, 1%Z); (3, 1%Z); (1, 1%Z); (0, 1%Z)] in
  let ops := [SmAdd 1 5; SmSet 3 7; SmAdd 1 9; SmAdd 0 4; SmRemove 1; SmSet 3 8]%Z in
  sm_keys_below 4 ops /\
  smap_entries (smap_run ops (smap_make [2; 0; 1; 0] garbage)) = [(0, 4%Z); (3, 8%Z)] /\
  smap_entries (smap_rrun [RAdd 2 1; RClear; RAdd 1 0; RAdd 2 3; RAdd 1 2]%Z (smap_make [2; 0; 1; 0] garbage)) =
   [(1%nat, 2%Z); (2%nat, 3%Z)].
Proof.
  cbv zeta. split; [intros o H; repeat (destruct H as [<-|H]; [cbn; lia|]); destruct H|]. vm_compute. auto.
Qed.

(** FixedSizeSparseMap with [ms] slots and any hash function: no lookup or insertion runs forever and all
    answers are right as long as there are fewer than [ms] keys at a time. *)
Theorem C31_fixed_size_sparse_map : forall hash ms, 0 < ms -> forall ops, at_most_keys (ms - 1) ops ->
  exists m, fsm_run hash ms ops (Some (fsm_make ms)) = Some m /\
    fsm_entries m = acc_run ops /\ NoDup (map fst (acc_run ops)) /\
    (forall k, fsm_contains hash ms m k = Some (touched k (acc_run ops))) /\
    (forall k, touched k (acc_run ops) = true -> fsm_get hash ms m k = Some (acc_get k (acc_run ops))).
Proof. exact fsm_correct. Qed.
Print Assumptions C31_fixed_size_sparse_map.

Example C31_fixed_size_sparse_map_ex :
  let ops := [RAdd 9 5; RAdd 1 2; RClear; RAdd 5 1; RAdd 13 4; RAdd 5 6; RAdd 1 0]%Z in
  at_most_keys 3 ops /\
  option_map fsm_entries (fsm_run (fun k => k) 4 ops (Some (fsm_make 4))) = Some [(5, 7%Z); (13, 4%Z); (1, 0%Z)].
Proof.
  cbv zeta. split; [|reflexivity]. intros j.
  do 7 (destruct j as [|j]; [vm_compute; lia|]). destruct j; vm_compute; lia.
Qed.

(** With all slots taken a lookup of another key does not end. *)
Theorem C31_fixed_size_full_refuted : exists hash ms ops m, at_most_keys ms ops /\
  fsm_run hash ms ops (Some (fsm_make ms)) = Some m /\ fsm_contains hash ms m 7 = None.
Proof. exact fsm_full_loops. Qed.
Print Assumptions C31_fixed_size_full_refuted.

(** RatingMap: whichever implementation is selected, the caller sees the accumulated entries if there are at
    most [bound] different keys, all below [max_size]. *)
Theorem C31_rating_map : forall hash max_size bound ops,
  at_most_keys bound ops -> keys_below max_size ops -> positive_values ops ->
  rmap_execute hash max_size bound ops = Some (acc_run ops).
Proof. exact rmap_correct. Qed.
Print Assumptions C31_rating_map.

Example C31_rating_map_ex :
  rmap_execute (fun k => k) 1000 50 [RAdd 9 5; RAdd 1 2; RAdd 9 1]%Z = Some [(9, 6%Z); (1, 2%Z)] /\
  rmap_execute (fun k => k) 1000 5 [RAdd 9 5; RAdd 137 2; RAdd 9 1]%Z = Some [(9, 6%Z); (137, 2%Z)].
Proof. vm_compute. auto. Qed.
