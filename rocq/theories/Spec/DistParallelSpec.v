(* Block weights of a partition that is spread over ranks. *)
From Verif Require Import Lib.Prelude Model.DistParallelModel.

Definition rank_weight (w : list Z) (blk : list nat) (b : nat) : Z := zsum (map (fun e => if fst e =? b then snd e else 0%Z) (combine blk w)).
(** [bw] has for every block the total weight of its nodes on all ranks. *)
Definition exact_weights (k : nat) (ws : list (list Z)) (blks : list (list nat)) (bw : list Z) : Prop :=
  forall b, b < k -> nth b bw 0%Z = zsum (map (fun e => rank_weight (fst e) (snd e) b) (combine ws blks)).
(** Blocks and targets exist, weights are not negative, and the queue of every block has nodes of this block, each once. *)
Definition good_rank (k : nat) (r : prank) : Prop :=
  length (pr_blk r) = length (pr_w r) /\ (forall x, In x (pr_blk r) -> x < k) /\ (forall x, In x (pr_target r) -> x < k) /\ (forall x, In x (pr_w r) -> (0 <= x)%Z) /\
  NoDup (concat (pr_pq r)) /\ forall b u, In u (nth b (pr_pq r) []) -> u < length (pr_blk r) /\ nth u (pr_blk r) 0 = b.
(** Blocks exist and weights are not negative. *)
Definition good_clusters (k : nat) (r : crank) : Prop := length (cr_blk r) = length (cr_w r) /\ (forall x, In x (cr_blk r) -> x < k) /\ forall x, In x (cr_w r) -> (0 <= x)%Z.
