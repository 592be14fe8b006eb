(* What one run of a local search may do to a partition. *)
From Verif Require Import Lib.Prelude Spec.Graph Spec.Gain.

(** The partition [lab] becomes [lab'] (with stored block weights [bw']) and [gain] is reported: all labels are valid, the
    block weights are exact, the gain is the decrease of the edge cut and never negative, a node is only moved to a block
    that is within its limit, no block ends up above its limit unless it was already at least as heavy before, and
    nothing is moved without a gain. *)
Definition search_result (g : graph) (k : nat) (limit : nat -> Z) (lab lab' : list nat) (bw' : list Z) (gain : Z) : Prop :=
  let p := label_of lab in
  let p' := label_of lab' in
  labels_ok g k lab' /\ length bw' = k /\ exact_block_weights g lab' bw' /\
  (0 <= gain)%Z /\ (cut_weight g p - cut_weight g p' = gain)%Z /\
  (forall u, u < gn g -> p' u <> p u -> (block_weight g p' (p' u) <= limit (p' u))%Z) /\
  (forall b, b < k -> (block_weight g p' b <= limit b \/ block_weight g p' b <= block_weight g p b)%Z) /\
  (gain = 0%Z -> lab' = lab).

(** The states of the nodes before and after (0 = free, -2 = moved in the shared partition, other values = locked): the
    search releases everything it locked; only free nodes are moved, and they are marked as moved. *)
Definition tracker_result (n : nat) (lab lab' : list nat) (t t' : list Z) : Prop :=
  length t' = n /\ forall u, u < n ->
    (nth u t' 0%Z = nth u t 0%Z \/ (nth u t 0%Z = 0%Z /\ nth u t' 0%Z = (-2)%Z)) /\
    (label_of lab' u <> label_of lab u -> nth u t 0%Z = 0%Z /\ nth u t' 0%Z = (-2)%Z).
