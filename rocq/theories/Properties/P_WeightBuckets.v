(* C76: cut-off buckets of the distributed node balancer. *)
From Verif Require Import Lib.Prelude Model.WeightBucketsModel Spec.WeightBucketsSpec Proofs.WeightBucketsProofs.
From Coq Require Import QArith.
Open Scope nat_scope.

(** The cut-off of a block that is not overloaded is 0. The cut-off of an overloaded block is the smallest one such that moving all nodes below it, on all ranks,
    removes the overload, or the number of buckets if there is none smaller. *)
Theorem C76_cutoffs k nb bw mx ranks b : good_entries k nb ranks -> b < k -> let cut := nth b (cutoff_buckets k nb bw mx ranks) 0 in let left j := (nth b bw 0 - weight_below ranks b j)%Z in
  ((nth b bw 0 <= nth b mx 0)%Z -> cut = 0) /\ cut <= nb /\ (forall j, j < cut -> (nth b mx 0 < left j)%Z) /\ (cut < nb -> (left cut <= nth b mx 0)%Z).
Proof. exact (cutoff_spec k nb bw mx ranks b). Qed.
Print Assumptions C76_cutoffs.

(** If moving all nodes in the buckets removes the overload, moving those below the cut-off does. *)
Theorem C76_suffices k nb bw mx ranks b : good_entries k nb ranks -> b < k -> (nth b bw 0 - weight_below ranks b nb <= nth b mx 0)%Z ->
  (nth b bw 0 - weight_below ranks b (nth b (cutoff_buckets k nb bw mx ranks) 0%nat) <= nth b mx 0)%Z.
Proof. exact (cutoff_suffices k nb bw mx ranks b). Qed.
Print Assumptions C76_suffices.
Example C76_example : good_entries 3 4 w_ranks /\ cutoff_buckets 3 4 [10; 4; 9]%Z [7; 7; 7]%Z w_ranks = [3; 0; 3].
Proof. exact (conj w_good eq_refl). Qed.

(** The cluster balancer, which removes a fraction [f] of the overload: the same with the limit plus the rest of the overload. *)
Theorem C76_clusters k nb bw mx f ranks b lim : (0 < f)%Q -> (f <= 1)%Q -> good_entries k nb ranks -> b < k -> soft_limit_of bw mx f b lim ->
  let cut := nth b (cluster_cutoffs k nb bw mx f ranks) 0 in let left j := (nth b bw 0 - weight_below ranks b j)%Z in
  ((nth b bw 0 <= nth b mx 0)%Z -> cut = 0) /\ cut <= nb /\ (forall j, j < cut -> (lim < left j)%Z) /\ (cut < nb -> (left cut <= lim)%Z).
Proof. exact (cluster_cuts k nb bw mx f ranks b lim). Qed.
Print Assumptions C76_clusters.
Example C76_clusters_example : soft_limit_of [10; 4; 9]%Z [7; 7; 7]%Z (1 # 2) 0 8 /\ cluster_cutoffs 3 4 [10; 4; 9]%Z [7; 7; 7]%Z (1 # 2) w_ranks = [2; 0; 1] /\
  cluster_cutoffs 3 4 [10; 4; 9]%Z [7; 7; 7]%Z 1 w_ranks = [3; 0; 3].
Proof. exact w_soft. Qed.
