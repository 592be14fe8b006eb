(* C74: the parallel round of the distributed node balancer. *)
From Verif Require Import Lib.Prelude Model.DistParallelModel Spec.DistParallelSpec Proofs.DistParallelProofs.
From Coq Require Import QArith.
Open Scope nat_scope.

(** Whatever is in the queues and whatever random numbers are drawn: the new block weights are those of the new partition. *)
Theorem C74_exact k bw mx tries accept qs ranks bw' blks' : 0 < k -> (forall r, In r ranks -> good_rank k r /\ length (pr_pq r) = k) ->
  parallel_round k bw mx tries accept qs ranks = Some (bw', blks') -> exact_weights k (map pr_w ranks) (map pr_blk ranks) bw -> exact_weights k (map pr_w ranks) blks' bw'.
Proof. exact (fun a b c => round_exact k bw mx tries accept qs ranks _ (fun r h => proj1 (b r h)) (fun r h => find_inv k bw mx r a (proj1 (b r h)) (proj2 (b r h))) bw' blks' c). Qed.
Print Assumptions C74_exact.

(** Every node has a block, and only nodes of overloaded blocks are moved. *)
Theorem C74_blocks k bw mx tries accept qs ranks bw' blks' : 0 < k -> (forall r, In r ranks -> good_rank k r /\ length (pr_pq r) = k) ->
  parallel_round k bw mx tries accept qs ranks = Some (bw', blks') ->
  length blks' = length ranks /\ forall i d, i < length ranks -> length (nth i blks' []) = length (pr_blk (nth i ranks d)) /\ (forall x, In x (nth i blks' []) -> x < k) /\
  forall u, nth u (nth i blks' []) 0 <> nth u (pr_blk (nth i ranks d)) 0 -> let b := nth u (pr_blk (nth i ranks d)) 0 in (nth b mx 0 < nth b bw 0)%Z.
Proof. exact (fun a b c => round_blocks k bw mx tries accept qs ranks _ (fun r h => proj1 (b r h)) (fun r h => find_inv k bw mx r a (proj1 (b r h)) (proj2 (b r h))) bw' blks' c). Qed.
Print Assumptions C74_blocks.

(** A node that is moved was in the queue of its block and picked; it is moved to its target unless the target was its own block. *)
Theorem C74_picked k bw mx tries accept qs ranks bw' blks' : 0 < k -> (forall r, In r ranks -> good_rank k r /\ length (pr_pq r) = k) -> parallel_round k bw mx tries accept qs ranks = Some (bw', blks') ->
  forall i d u, i < length ranks -> let r := nth i ranks d in let from := nth u (pr_blk r) 0 in let to := nth u (nth i blks' []) 0 in
  to <> from -> In u (nth from (pr_pq r) []) /\ nth u (pr_take r) false = true /\ (nth u (pr_target r) 0 <> from -> to = nth u (pr_target r) 0).
Proof. exact (moved_picked k bw mx tries accept qs ranks bw' blks'). Qed.
Print Assumptions C74_picked.

(** If imbalanced moves are not accepted, no block becomes overloaded. Missing: the default setting, false, see C74_default_refuted. *)
Theorem C74_no_new_overload_partial k bw mx tries qs ranks bw' blks' : 0 < k -> (forall r, In r ranks -> good_rank k r /\ length (pr_pq r) = k) ->
  parallel_round k bw mx tries false qs ranks = Some (bw', blks') -> forall b, b < k -> (nth b bw 0 <= nth b mx 0)%Z -> (nth b bw' 0 <= nth b mx 0)%Z.
Proof. exact (fun a b c => round_no_new_overload k bw mx tries false qs ranks _ (fun r h => find_inv k bw mx r a (proj1 (b r h)) (proj2 (b r h))) bw' blks' c eq_refl). Qed.
Print Assumptions C74_no_new_overload_partial.

(** Overloaded blocks do not become heavier. Missing: a random number that is exactly 0 is accepted with probability 0, too. *)
Theorem C74_shrinks_partial k bw mx tries accept qs ranks bw' blks' : 0 < k -> (forall r, In r ranks -> good_rank k r /\ length (pr_pq r) = k) ->
  parallel_round k bw mx tries accept qs ranks = Some (bw', blks') -> (forall a r m, (0 < qs a r m)%Q) -> forall b, b < k -> (nth b mx 0 < nth b bw 0)%Z -> (nth b bw' 0 <= nth b bw 0)%Z.
Proof. exact (fun a b c => round_shrinks k bw mx tries accept qs ranks _ (fun r h => proj1 (b r h)) (fun r h => find_inv k bw mx r a (proj1 (b r h)) (proj2 (b r h))) bw' blks' c). Qed.
Print Assumptions C74_shrinks_partial.
Example C74_example : (forall r, In r z_ranks -> good_rank 2 r /\ length (pr_pq r) = 2) /\ exact_weights 2 (map pr_w z_ranks) (map pr_blk z_ranks) [10; 4]%Z /\ (forall a r m, (0 < z_second a r m)%Q) /\
  parallel_round 2 [10; 4]%Z [7; 7]%Z 1 false z_second z_ranks = None /\ parallel_round 2 [10; 4]%Z [7; 7]%Z 2 false z_second z_ranks = Some ([8; 6]%Z, [[1; 0; 1]; [0; 0]]).
Proof. exact (conj z_good (conj z_exact (conj z_second_pos (conj eq_refl eq_refl)))). Qed.

(** With the default setting (one attempt, imbalanced moves are accepted), a block that was not overloaded may become overloaded. *)
Theorem C74_default_refuted : exists k bw mx qs ranks bw' blks' b, 0 < k /\ (forall r, In r ranks -> good_rank k r /\ length (pr_pq r) = k) /\ exact_weights k (map pr_w ranks) (map pr_blk ranks) bw /\
  (forall a r m, (0 < qs a r m /\ qs a r m < 1)%Q) /\ parallel_round k bw mx 0 true qs ranks = Some (bw', blks') /\ b < k /\ (nth b bw 0 <= nth b mx 0)%Z /\ (nth b mx 0 < nth b bw' 0)%Z.
Proof. exact default_overloads. Qed.
Print Assumptions C74_default_refuted.
