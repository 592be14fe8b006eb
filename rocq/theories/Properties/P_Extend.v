(* C09: extending a partition by recursive bipartitioning. *)
From Verif Require Import Lib.Prelude Spec.Induced Spec.Level Spec.ExtendSpec Model.SubgraphModel Model.ExtendModel
  Proofs.ExtendTop Proofs.ExtendCases.

(** C09. Extending a partition into 2^l blocks to [desired] blocks (a power of two or k) with preallocated
    memory succeeds without an out-of-bounds access and refines the partition, for every bipartitioner, every
    schedule ([choices]), every number of threads and every setting of the number of consecutive levels. *)
Theorem C09_extend_partition_refines : forall ub g k factor threads choices mem part l desired,
  lg_ok g -> length part = length g -> (forall b, In b part -> b < 2 ^ l) -> (N.of_nat k < 2 ^ 31)%N ->
  2 ^ l <= desired -> level_ok desired k -> (factor = 0 \/ exists j, 1 <= j /\ factor = 2 ^ j) ->
  (forall kp, choice_ok g kp (choices kp)) -> mem_fits g k mem ->
  exists mem' part', extend_partition ub g k factor threads choices mem part (2 ^ l) desired = Some (mem', part') /\
    mem_fits g k mem' /\ refines part part' desired.
Proof. exact extend_partition_ok. Qed.
Print Assumptions C09_extend_partition_refines.

(** C09. The same for the variant that extracts one block at a time into thread-local memory that grows on
    demand, for every assignment of blocks to threads. *)
Theorem C09_extend_lazy_refines : forall ub g k factor threads choices tid mems part l desired,
  lg_ok g -> length part = length g -> (forall b, In b part -> b < 2 ^ l) -> (N.of_nat k < 2 ^ 31)%N ->
  2 ^ l <= desired -> level_ok desired k -> (factor = 0 \/ exists j, 1 <= j /\ factor = 2 ^ j) ->
  (forall kp, choice_ok g kp (choices kp)) ->
  (forall b, tid b < length mems) -> (forall m, In m mems -> lazy_mem_ok (lg_is_nw g) (lg_is_ew g) m) ->
  exists mems' part', extend_lazy ub g k factor threads choices tid mems part (2 ^ l) desired = Some (mems', part') /\
    length mems' = length mems /\ (forall m, In m mems' -> lazy_mem_ok (lg_is_nw g) (lg_is_ew g) m) /\
    refines part part' desired.
Proof. exact extend_lazy_partition_ok. Qed.
Print Assumptions C09_extend_lazy_refines.

(** C09. The exact labels of one extension step: block b gets [num b] blocks, which is its final number of
    blocks if k blocks are desired and desired / 2^l otherwise; the labels are those of a plain recursive
    bipartitioning of the induced subgraph, shifted behind the blocks of the blocks before b. *)
Theorem C09_extend_step_labels : forall ub g k c mem part l desired, lg_ok g -> labelled g (2 ^ l) part -> (N.of_nat k < 2 ^ 31)%N ->
  2 ^ l <= desired -> level_ok desired k -> choice_ok g (2 ^ l) c -> mem_fits g k mem ->
  exists mem' num, extend_step ub g k c mem part (2 ^ l) desired =
      Some (mem', map (extended_label (c_bip c) g part (c_order c) (2 ^ l) num) (seq 0 (length g))) /\
    (forall b, b < 2 ^ l -> if desired =? k then final_k ub b (2 ^ l) k = Some (num b) else num b = desired / 2 ^ l) /\
    list_sum (map num (seq 0 (2 ^ l))) = desired /\ (forall b, b < 2 ^ l -> 1 <= num b) /\
    forall u, u < length g -> let b := nth u part 0 in
      list_sum (map num (seq 0 b)) <= extended_label (c_bip c) g part (c_order c) (2 ^ l) num u < list_sum (map num (seq 0 b)) + num b.
Proof. exact step_labels. Qed.
Print Assumptions C09_extend_step_labels.

Theorem C09_extend_lazy_step_labels : forall ub g k c tid mems part l desired, lg_ok g -> labelled g (2 ^ l) part -> (N.of_nat k < 2 ^ 31)%N ->
  2 ^ l <= desired -> level_ok desired k -> choice_ok g (2 ^ l) c -> (forall b, b < 2 ^ l -> tid b < length mems) ->
  (forall m, In m mems -> lazy_mem_ok (lg_is_nw g) (lg_is_ew g) m) ->
  exists mems' num, extend_lazy_step ub g k c tid mems part (2 ^ l) desired =
      Some (mems', map (extended_label (c_bip c) g part (c_order c) (2 ^ l) num) (seq 0 (length g))) /\
    (forall b, b < 2 ^ l -> if desired =? k then final_k ub b (2 ^ l) k = Some (num b) else num b = desired / 2 ^ l) /\
    list_sum (map num (seq 0 (2 ^ l))) = desired /\ (forall b, b < 2 ^ l -> 1 <= num b) /\
    forall u, u < length g -> let b := nth u part 0 in
      list_sum (map num (seq 0 b)) <= extended_label (c_bip c) g part (c_order c) (2 ^ l) num u < list_sum (map num (seq 0 b)) + num b.
Proof. exact lazy_step_labels. Qed.
Print Assumptions C09_extend_lazy_step_labels.

Example C09_ex : (forall g kp, choice_ok g kp (ex_choice (length g) kp)) /\
  option_map snd (extend_partition 0 (mkg (repeat (1, []) 8)) 5 2 4 (ex_choice 8) (Smem (repeat 7 13) [] [] []) [0; 0; 1; 1; 0; 0; 1; 1] 2 5) =
  Some [2; 1; 4; 3; 2; 0; 4; 3].
Proof. exact (conj ex_choice_ok ex_extend). Qed.
