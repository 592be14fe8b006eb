(* C07, C08: block arithmetic of deep multilevel partitioning. *)
From Verif Require Import Lib.Prelude Model.MathModel Model.PartUtilsModel Spec.BlockTree
  Proofs.PartUtilsProofs.
Local Open Scope N_scope.

(** C07: on every level 2^l <= k of the bipartitioning tree, compute_final_k returns the label of
    the tree node. [ub] is the result of the shift that is undefined in C++ when current_k = 1. *)
Theorem C07_final_k_is_tree_label : forall ub l k b,
  2 ^ N.of_nat l <= k -> k < 2 ^ 31 -> b < 2 ^ N.of_nat l ->
  compute_final_k ub b (2 ^ N.of_nat l) k = Some (nth (N.to_nat b) (tree_level l k) 0).
Proof. exact final_k_pow2. Qed.
Print Assumptions C07_final_k_is_tree_label.
Example C07_final_k_is_tree_label_ex :
  tree_level 2 7 = [2; 2; 2; 1] /\
  map (fun b => compute_final_k 0 b (2 ^ N.of_nat 2) 7) [0; 1; 2; 3] = map Some [2; 2; 2; 1].
Proof. vm_compute; auto. Qed.

(** C07: on the last level (current_k = k, any k) every block is final. *)
Theorem C07_final_k_last_level : forall ub k b, compute_final_k ub b k k = Some 1.
Proof. exact final_k_top. Qed.
Print Assumptions C07_final_k_last_level.

(** C07: the final block counts of one level add up to k. *)
Theorem C07_final_k_sum : forall ub l k,
  2 ^ N.of_nat l <= k -> k < 2 ^ 31 ->
  exists fs, map (fun b => compute_final_k ub (N.of_nat b) (2 ^ N.of_nat l) k) (seq 0 (2 ^ l)) = map Some fs
    /\ nsum fs = k.
Proof. exact final_k_sum. Qed.
Print Assumptions C07_final_k_sum.
Example C07_final_k_sum_ex :
  map (fun b => compute_final_k 0 (N.of_nat b) (2 ^ N.of_nat 3) 13) (seq 0 (2 ^ 3))
  = map Some [2; 2; 2; 1; 2; 1; 2; 1] /\ nsum [2; 2; 2; 1; 2; 1; 2; 1] = 13.
Proof. vm_compute; auto. Qed.

(** C07: they are positive and differ by at most one. *)
Theorem C07_final_k_balanced : forall ub l k b,
  2 ^ N.of_nat l <= k -> k < 2 ^ 31 -> b < 2 ^ N.of_nat l ->
  exists v, compute_final_k ub b (2 ^ N.of_nat l) k = Some v /\ 1 <= v /\
    k / 2 ^ N.of_nat l <= v <= k / 2 ^ N.of_nat l + 1.
Proof. exact final_k_balanced. Qed.
Print Assumptions C07_final_k_balanced.
Example C07_final_k_balanced_ex : compute_final_k 0 5 (2 ^ N.of_nat 3) 13 = Some 1 /\ 13 / 8 = 1.
Proof. vm_compute; auto. Qed.

(** C07: a block splits into its two children's final block counts. *)
Theorem C07_final_k_children : forall ub l k b,
  2 ^ (N.of_nat l + 1) <= k -> k < 2 ^ 31 -> b < 2 ^ N.of_nat l ->
  exists v, compute_final_k ub b (2 ^ N.of_nat l) k = Some v /\
    compute_final_k ub (2 * b) (2 ^ (N.of_nat l + 1)) k = Some (fst (split_integral v)) /\
    compute_final_k ub (2 * b + 1) (2 ^ (N.of_nat l + 1)) k = Some (snd (split_integral v)).
Proof. exact final_k_children. Qed.
Print Assumptions C07_final_k_children.
Example C07_final_k_children_ex :
  compute_final_k 0 1 4 21 = Some 5 /\ compute_final_k 0 2 8 21 = Some 3 /\ compute_final_k 0 3 8 21 = Some 2.
Proof. vm_compute; auto. Qed.

(** C08: the final block ranges of the blocks of one level are consecutive, non-empty, start at 0
    and end at k. *)
Theorem C08_sub_blocks_tile : forall ub l k,
  2 ^ N.of_nat l <= k -> k < 2 ^ 31 ->
  compute_first_sub_block 0 (2 ^ N.of_nat l) k = Some 0 /\
  (forall b, b < 2 ^ N.of_nat l ->
     exists lo hi fk, compute_first_sub_block b (2 ^ N.of_nat l) k = Some lo /\
       compute_first_invalid_sub_block ub b (2 ^ N.of_nat l) k = Some hi /\
       compute_final_k ub b (2 ^ N.of_nat l) k = Some fk /\
       hi = lo + fk /\ 1 <= fk /\
       (b + 1 < 2 ^ N.of_nat l -> compute_first_sub_block (b + 1) (2 ^ N.of_nat l) k = Some hi) /\
       (b + 1 = 2 ^ N.of_nat l -> hi = k)).
Proof. exact sub_blocks_tile. Qed.
Print Assumptions C08_sub_blocks_tile.
Example C08_sub_blocks_tile_ex :
  map (fun b => (compute_first_sub_block b 4 7, compute_first_invalid_sub_block 0 b 4 7)) [0; 1; 2; 3]
  = [(Some 0, Some 2); (Some 2, Some 4); (Some 4, Some 6); (Some 6, Some 7)].
Proof. vm_compute; auto. Qed.

(** C08: compute_first_sub_block is wrong for the last level when k is not a power of two (there the
    range of block b should be [b, b+1)). The partitioners only call it on power-of-two levels. *)
Theorem C08_first_sub_block_last_level_refuted :
  exists b k, b < k /\ compute_first_sub_block b k k <> Some b.
Proof. exact first_sub_block_toplevel_witness. Qed.
Print Assumptions C08_first_sub_block_last_level_refuted.
