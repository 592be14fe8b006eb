(* C28: addressable priority queues (kaminpar-common/datastructures/binary_heap.h). *)
From Verif Require Import Lib.Prelude Spec.PrioQueue Model.HeapModel Proofs.ForestProofs Proofs.HeapExamples.
Local Open Scope Z_scope.

(** C28: for every family of max ([mx = true]) or min heaps with shared handles and every finite
    sequence of push, pop, change_priority, remove and clear calls that respects the assertions of
    the code, no call fails, the calls act on the abstract priority queues as specified
    (Spec/PrioQueue.v; pop removes an element with extremal key), and the observers agree with the
    abstract state: contains, key, the elements of every heap (each ID once), and peek returns an
    element with extremal key. Keys must differ from the extreme value of the key type. *)
Theorem C28_heaps_refine_priority_queues : forall mx w cap heaps ops,
  valid_hops mx w ops (forest_init cap heaps) ->
  exists f A, fo_run mx w ops (forest_init cap heaps) = Some f /\ pq_run mx ops pq_empty A /\ observes mx f A.
Proof. exact forest_refines. Qed.
Print Assumptions C28_heaps_refine_priority_queues.
Example C28_heaps_refine_priority_queues_ex :
  valid_hops true 32 ex_ops (forest_init 10 2) /\
  match fo_run true 32 ex_ops (forest_init 10 2) with
  | Some f => fo_peek f 0 = Some (5%nat, 40) /\ fo_peek f 1 = Some (7%nat, -3) /\ fo_contains f 2 = false /\
              fo_key f 0 4 = Some 12
  | None => False
  end.
Proof. exact ex_ops_ok. Qed.

(** C28: pop removes the element that peek announced, and nothing else. *)
Theorem C28_pop_removes_the_top : forall mx w cap heaps ops f h id key f',
  valid_hops mx w ops (forest_init cap heaps) ->
  fo_run mx w ops (forest_init cap heaps) = Some f -> fo_peek f h = Some (id, key) ->
  fo_pop mx f h = Some f' ->
  fo_contains f' id = false /\ (forall j, j <> id -> fo_contains f' j = fo_contains f j) /\
  (forall h' j, j <> id -> In j (map fst (fo_heap f h')) -> fo_key f' h' j = fo_key f h' j).
Proof. exact pop_removes_peek. Qed.
Print Assumptions C28_pop_removes_the_top.

(** C28, finding: without the condition on the keys, remove(id) removes a different element. *)
Theorem C28_remove_extreme_key_refuted : exists f f',
  fo_run true 32 [HPush 0 0 (2 ^ 31 - 1); HPush 0 1 5] (forest_init 2 1) = Some f /\
  fo_step true 32 f (HRemove 0 1) = Some f' /\ fo_contains f' 1 = true /\ fo_contains f' 0 = false.
Proof. exact remove_extreme. Qed.
Print Assumptions C28_remove_extreme_key_refuted.
