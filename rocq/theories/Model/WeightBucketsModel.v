(* Weight buckets of the distributed node balancer: kaminpar-dist/refinement/balancer/weight_buckets.h and reductions.h (the sum of the compact buckets on rank 0).
   An entry is a node in the queue: its block, its weight and the bucket of its gain (compute_bucket, any function: floating-point logarithms are not modelled).
   Weights are unbounded integers. All ranks know the same block weights and limits. *)
From Verif Require Import Lib.Prelude.
From Coq Require Import QArith Qround.
Open Scope nat_scope.

Record entry := Entry { en_block : nat; en_weight : Z; en_bucket : nat }.

Section Buckets.
Variables (k nb : nat) (bw mx : list Z).
(** weight_buckets.h:86, :111, :136. *)
Definition heavy (b : nat) : bool := (nth b mx 0 <? nth b bw 0)%Z.
(** weight_buckets.h:54-60, :72-74 clear, add and size. *)
Definition bucket_sizes (es : list entry) : list Z :=
  fold_left (fun l e => let i := en_block e * nb + en_bucket e in upd i (nth i l 0 + en_weight e)%Z l) es (repeat 0%Z (k * nb)).
(** weight_buckets.h:80-97 compactify: the rows of the overloaded blocks. *)
Definition compactify (sizes : list Z) : list Z := flat_map (fun b => if heavy b then firstn nb (skipn (b * nb) sizes) else []) (seq 0 k).
Definition num_heavy : nat := length (filter heavy (seq 0 k)).
(** reductions.h:180-207: the sum over all ranks. *)
Definition reduce (comps : list (list Z)) : list Z := map (fun i => zsum (map (fun l => nth i l 0%Z) comps)) (seq 0 (num_heavy * nb)).
(** weight_buckets.h:113-117. *)
Fixpoint cut_loop (row : list Z) (j : nat) (cw lim : Z) : nat :=
  match row with
  | [] => j
  | x :: t => if (lim <? cw)%Z then cut_loop t (S j) (cw - x)%Z lim else j
  end.
(** weight_buckets.h:105-122 on rank 0; [cb] counts the overloaded blocks. *)
Fixpoint compact_cutoffs (comp : list Z) (bs : list nat) (cb : nat) : list nat :=
  match bs with
  | [] => []
  | b :: t => if heavy b then cut_loop (firstn nb (skipn (cb * nb) comp)) 0 (nth b bw 0%Z) (nth b mx 0%Z) :: compact_cutoffs comp t (S cb) else compact_cutoffs comp t cb
  end.
(** weight_buckets.h:133-141 on all ranks. *)
Fixpoint spread (cuts : list nat) (bs : list nat) (cb : nat) : list nat :=
  match bs with
  | [] => []
  | b :: t => if heavy b then nth cb cuts 0 :: spread cuts t (S cb) else 0 :: spread cuts t cb
  end.
(** node_balancer.cc:523-525. *)
Definition cutoff_buckets (ranks : list (list entry)) : list nat :=
  let comp := reduce (map (fun es => compactify (bucket_sizes es)) ranks) in
  spread (compact_cutoffs comp (seq 0 k) 0) (seq 0 k) 0.

(** cluster_balancer.cc:412-416: in the cluster balancer weight is moved only down to a limit between the weight and the limit of the block; [f]: the fraction of the overload
    that is to be removed, 0 < f <= 1. Exact arithmetic instead of doubles; the conversion to an integer cuts off, and weights are not negative. *)
Definition soft_limit (f : Q) (b : nat) : Z := Qfloor (inject_Z (nth b mx 0%Z) + (1 - f) * inject_Z (nth b bw 0 - nth b mx 0)%Z)%Q.
End Buckets.
(** cluster_balancer.cc:391-397, :407-442, :477: the packed rows are those of blocks above [mx], the cut-offs are computed and the blocks are counted with the new limits. *)
Definition cluster_cutoffs (k nb : nat) (bw mx : list Z) (f : Q) (ranks : list (list entry)) : list nat :=
  let comp := reduce k nb bw mx (map (fun es => compactify k nb bw mx (bucket_sizes k nb es)) ranks) in
  let lims := map (soft_limit bw mx f) (seq 0 k) in
  spread bw lims (compact_cutoffs nb bw lims comp (seq 0 k) 0) (seq 0 k) 0.
