(* C75: the parallel round of the distributed cluster balancer. *)
From Verif Require Import Lib.Prelude Model.DistParallelModel Spec.DistParallelSpec Proofs.DistParallelProofs.
From Coq Require Import QArith.
Open Scope nat_scope.

(** Whatever clusters are picked and whatever random numbers are drawn: the new block weights are those of the new partition. *)
Theorem C75_exact_partial k bw mx tries accept qs ranks bw' blks' : 0 < k -> (forall r, In r ranks -> good_clusters k r) -> cluster_round k bw mx tries accept qs ranks = Done bw' blks' ->
  exact_weights k (map cr_w ranks) (map cr_blk ranks) bw -> exact_weights k (map cr_w ranks) blks' bw'.
Proof. exact (clusters_exact k bw mx tries accept qs ranks bw' blks'). Qed.
Print Assumptions C75_exact_partial.

(** Every cluster has a block, and only clusters of overloaded blocks are moved. *)
Theorem C75_blocks_partial k bw mx tries accept qs ranks bw' blks' : 0 < k -> (forall r, In r ranks -> good_clusters k r) -> cluster_round k bw mx tries accept qs ranks = Done bw' blks' ->
  length blks' = length ranks /\ forall i d, i < length ranks -> length (nth i blks' []) = length (cr_blk (nth i ranks d)) /\ (forall x, In x (nth i blks' []) -> x < k) /\
  forall u, nth u (nth i blks' []) 0 <> nth u (cr_blk (nth i ranks d)) 0 -> let b := nth u (cr_blk (nth i ranks d)) 0 in (nth b mx 0 < nth b bw 0)%Z.
Proof. exact (clusters_blocks k bw mx tries accept qs ranks bw' blks'). Qed.
Print Assumptions C75_blocks_partial.

(** A cluster that is moved was picked, its new block had room for it (and for it alone), and no block with room was better connected to it. *)
Theorem C75_best_partial k bw mx tries accept qs ranks bw' blks' : 0 < k -> (forall r, In r ranks -> good_clusters k r) -> cluster_round k bw mx tries accept qs ranks = Done bw' blks' ->
  forall i d u, i < length ranks -> let r := nth i ranks d in let from := nth u (cr_blk r) 0 in let to := nth u (nth i blks' []) 0 in let w := nth u (cr_w r) 0%Z in let conn := nth u (cr_conn r) [] in
  to <> from -> nth u (cr_take r) false = true /\ (nth to bw 0 + w <= nth to mx 0)%Z /\ forall b, b < k -> b <> from -> (nth b bw 0 + w <= nth b mx 0)%Z -> (nth b conn 0 <= nth to conn 0)%Z.
Proof. exact (clusters_best k bw mx tries accept qs ranks bw' blks'). Qed.
Print Assumptions C75_best_partial.

(** Overloaded blocks do not become heavier, for all random numbers. *)
Theorem C75_shrinks_partial k bw mx tries accept qs ranks bw' blks' : 0 < k -> (forall r, In r ranks -> good_clusters k r) -> cluster_round k bw mx tries accept qs ranks = Done bw' blks' ->
  forall b, b < k -> (nth b mx 0 < nth b bw 0)%Z -> (nth b bw' 0 <= nth b bw 0)%Z.
Proof. exact (clusters_shrink k bw mx tries accept qs ranks bw' blks'). Qed.
Print Assumptions C75_shrinks_partial.

(** If imbalanced moves are not accepted, no block becomes overloaded. Missing: the default setting, false, see C75_default_refuted. *)
Theorem C75_no_new_overload_partial k bw mx tries qs ranks bw' blks' : 0 < k -> (forall r, In r ranks -> good_clusters k r) -> cluster_round k bw mx tries false qs ranks = Done bw' blks' ->
  forall b, b < k -> (nth b bw 0 <= nth b mx 0)%Z -> (nth b bw' 0 <= nth b mx 0)%Z.
Proof. exact (fun a b c => clusters_no_new k bw mx tries false qs ranks bw' blks' a b c eq_refl). Qed.
Print Assumptions C75_no_new_overload_partial.

(** The round does not fail if some other block has room for every picked cluster. Missing: clusters without such a block, false, see C75_no_room_refuted. *)
Theorem C75_defined_partial k bw mx tries accept qs ranks :
  (forall r c, In r ranks -> c < length (cr_w r) -> nth c (cr_take r) false = true -> let from := nth c (cr_blk r) 0 in (nth from mx 0 < nth from bw 0)%Z ->
    (forall x, (0 <= nth x (nth c (cr_conn r) []) 0)%Z) /\ exists b, b < k /\ b <> from /\ (nth b bw 0 + nth c (cr_w r) 0 <= nth b mx 0)%Z) ->
  cluster_round k bw mx tries accept qs ranks <> Undefined.
Proof. exact (clusters_defined k bw mx tries accept qs ranks). Qed.
Print Assumptions C75_defined_partial.
Example C75_defined_example tries accept qs : cluster_round 3 [10; 4; 5]%Z [7; 7; 7]%Z tries accept qs c_ranks <> Undefined.
Proof. exact (C75_defined_partial _ _ _ _ _ _ _ c_room). Qed.
Example C75_example : (forall r, In r c_ranks -> good_clusters 3 r) /\ exact_weights 3 (map cr_w c_ranks) (map cr_blk c_ranks) [10; 4; 5]%Z /\
  cluster_round 3 [10; 4; 5]%Z [7; 7; 7]%Z 1 false z_second c_ranks = Stalled /\ cluster_round 3 [10; 4; 5]%Z [7; 7; 7]%Z 2 false z_second c_ranks = Done [8; 6; 5]%Z [[1; 0; 1]; [0; 0; 2]].
Proof. exact (conj c_good (conj c_exact (conj eq_refl eq_refl))). Qed.

(** With the default setting (one attempt, imbalanced moves are accepted), a block that was not overloaded may become overloaded. *)
Theorem C75_default_refuted : exists k bw mx qs ranks bw' blks' b, 0 < k /\ (forall r, In r ranks -> good_clusters k r) /\ exact_weights k (map cr_w ranks) (map cr_blk ranks) bw /\
  (forall a r m, (0 < qs a r m /\ qs a r m < 1)%Q) /\ cluster_round k bw mx 0 true qs ranks = Done bw' blks' /\ b < k /\ (nth b bw 0 <= nth b mx 0)%Z /\ (nth b mx 0 < nth b bw' 0)%Z.
Proof. exact clusters_default. Qed.
Print Assumptions C75_default_refuted.

(** If no other block has room for a picked cluster, an array is accessed at the invalid block, although the limits leave enough room in total. *)
Theorem C75_no_room_refuted : exists k bw mx ranks, 0 < k /\ (forall r, In r ranks -> good_clusters k r) /\ exact_weights k (map cr_w ranks) (map cr_blk ranks) bw /\ (zsum bw <= zsum mx)%Z /\
  forall tries accept qs, cluster_round k bw mx tries accept qs ranks = Undefined.
Proof. exact clusters_undefined. Qed.
Print Assumptions C75_no_room_refuted.
