(* C30: a Marker answers exactly what was marked since the last reset. *)
From Verif Require Import Lib.Prelude Spec.MarkSet Model.MarkerModel Proofs.MarkerProofs.
Local Open Scope Z_scope.

(** For [k] concurrent markers: every query after any history of calls is answered as by the abstract
    sets of marks. A Marker with 32-bit values works for every history, one with 64-bit values for fewer
    than 2^(32-k) resets. *)
Theorem C30_marker_answers_marks : forall w k n ops e m,
  w = 32 \/ w = 64 -> 1 <= k <= 31 -> valid_mops k ops n ->
  w = 32 \/ num_resets ops < 2 ^ (32 - k) -> Z.of_nat m < k ->
  mr_get k (mr_run w k ops (mr_make k n)) e m = mk_marked (marks_run ops (marks_init n)) e m.
Proof. exact (fun w k n ops e m Hw Hk => marker_correct w k Hw Hk n ops e m). Qed.
Print Assumptions C30_marker_answers_marks.

Example C30_marker_answers_marks_ex :
  let ops := [MSet false 0 0; MSet false 2 1; MReset; MSet false 1 0; MResize 4; MSet false 3 1] in
  valid_mops 2 ops 3 /\ num_resets ops = 1 /\ 1 < 2 ^ (32 - 2) /\
  mr_get 2 (mr_run 64 2 ops (mr_make 2 3)) 0 0 = false /\
  mr_get 2 (mr_run 64 2 ops (mr_make 2 3)) 1 0 = true /\
  mr_get 2 (mr_run 64 2 ops (mr_make 2 3)) 3 1 = true /\
  mr_get 2 (mr_run 64 2 ops (mr_make 2 3)) 3 0 = false.
Proof. cbv zeta. split; [cbn [valid_mops]; lia|]. vm_compute. auto 10. Qed.

(** If every mark is set with tracking, the reported first unmarked element is the least unmarked one (or
    the number of elements). *)
Theorem C30_first_unmarked_element : forall w k n ops m,
  w = 32 \/ w = 64 -> 1 <= k <= 31 -> valid_mops k ops n -> no_resize ops -> all_tracked ops ->
  w = 32 \/ num_resets ops < 2 ^ (32 - k) -> Z.of_nat m < k ->
  let first := mr_first_unmarked (mr_run w k ops (mr_make k n)) m in
  let marked := mk_marked (marks_run ops (marks_init n)) in
  (first <= n)%nat /\ (forall e, (e < first)%nat -> marked e m = true) /\
  ((first < n)%nat -> marked first m = false).
Proof. exact (fun w k n ops m Hw Hk => first_correct w k Hw Hk n ops m). Qed.
Print Assumptions C30_first_unmarked_element.

Example C30_first_unmarked_element_ex :
  let ops := [MSet true 0 0; MReset; MSet true 1 0; MSet true 0 0; MSet true 3 0] in
  valid_mops 1 ops 5 /\ no_resize ops /\ all_tracked ops /\ num_resets ops = 1 /\
  mr_first_unmarked (mr_run 64 1 ops (mr_make 1 5)) 0 = 2%nat.
Proof. cbv zeta. split; [cbn [valid_mops]; lia|]. split; [exact I|]. split; [cbn [all_tracked]; auto 10|]. vm_compute. auto. Qed.

(** With 64-bit values (the default) the mask is still only 32 bits wide: after 2^(32-k) resets a mark that
    was just set is not seen. *)
Theorem C30_marker_64_bit_refuted : forall k, 1 <= k <= 31 ->
  let ops := repeat MReset (Z.to_nat (2 ^ (32 - k))) ++ [MSet false 0 0] in
  mr_get k (mr_run 64 k ops (mr_make k 1)) 0 0 = false /\
  mk_marked (marks_run ops (marks_init 1)) 0%nat 0%nat = true.
Proof. exact marker_wraps_marks. Qed.
Print Assumptions C30_marker_64_bit_refuted.
