(* C67: the number of blocks in the distributed deep multilevel scheme. *)
From Verif Require Import Lib.Prelude Model.DistDeepModel Spec.DistDeepSpec Proofs.DistDeepProofs.
Local Open Scope N_scope.

(** For an extension factor K = 2^a >= 2, any contraction limit C and any levels with at least C nodes: if k <= K or k is a power of two, the
    scheme returns, and it returns a partition into exactly k blocks; on the way every block is split into the same number of blocks, between
    2 and K. Partial: other numbers of blocks, and graphs with fewer nodes than the contraction limit. *)
Theorem C67_block_count_partial a k C input_n levels :
  1 <= a -> 0 < C -> 1 <= k -> k * 2 ^ a < 2 ^ 32 -> k <= 2 ^ a \/ power_of_two k -> C <= input_n <= 2 ^ 30 * C -> (forall n, In n levels -> C <= n <= 2 ^ 30 * C) ->
  (exists steps, deep_run (2 ^ a) k C input_n levels steps k /\ splits (2 ^ a) (first_step_k (2 ^ a) k) steps) /\
  forall steps last_k, deep_run (2 ^ a) k C input_n levels steps last_k -> last_k = k /\ splits (2 ^ a) (first_step_k (2 ^ a) k) steps.
Proof. exact (fun Ha HC H1 Hw Hk => deep_returns a k C input_n Ha HC Hw Hk levels H1). Qed.
Print Assumptions C67_block_count_partial.
Example C67_block_count_example : deep_run (2 ^ 7) 1024 2000 3000000 [500000; 3000000] [256; 1024] 1024 /\ deep_run (2 ^ 7) 100 2000 3000000 [500000; 3000000] [] 100.
Proof.
  split.
  - exists [256; 1024], 1024. split; [|split; reflexivity]. apply (uncoarsen_level _ _ _ _ 500000 [3000000] 128 [256] 256 [1024] 1024).
    + exists 256. split; [reflexivity|]. apply (extend_step 128 256 128 [] 256); [reflexivity|]. apply extend_done. discriminate.
    + apply (uncoarsen_level _ _ _ _ 3000000 [] 256 [1024] 1024 [] 1024); [|apply uncoarsen_done]. exists 1024. split; [reflexivity|]. apply (extend_step 128 1024 256 [] 1024); [reflexivity|]. apply extend_done. discriminate.
  - exists [], 100. split; [|split; reflexivity]. apply (uncoarsen_level _ _ _ _ 500000 [3000000] 100 [] 100 [] 100); [exists 100; split; [reflexivity|apply extend_done; discriminate]|].
    apply (uncoarsen_level _ _ _ _ 3000000 [] 100 [] 100 [] 100); [exists 100; split; [reflexivity|apply extend_done; discriminate]|apply uncoarsen_done].
Qed.

(** With K < k < 2 K (K = 128 by default: 129, ..., 255 blocks) the loop that splits the blocks never ends, whatever the graph and the levels are. *)
Theorem C67_number_of_blocks_refuted : forall K k C input_n levels, K < k < 2 * K -> K * K < 2 ^ 32 -> ~ exists steps last_k, deep_run K k C input_n levels steps last_k.
Proof. exact (fun K k C input_n levels Hk Hw '(ex_intro _ steps (ex_intro _ l H)) => never_returns K k C input_n Hk Hw levels steps l H). Qed.
Print Assumptions C67_number_of_blocks_refuted.

(** With more than K blocks and an input graph with fewer nodes than the contraction limit, ceil2(0) is computed, which is undefined. *)
Theorem C67_small_graph_refuted : forall K k C input_n levels, 1 <= K < k -> 0 < C -> input_n < C -> (forall n, In n levels -> n = input_n) ->
  desired_k k C input_n input_n = None /\ ~ exists steps last_k, deep_run K k C input_n levels steps last_k.
Proof. exact small_graph. Qed.
Print Assumptions C67_small_graph_refuted.
