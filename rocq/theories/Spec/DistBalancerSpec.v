(* What the distributed balancer's round is judged by. *)
From Coq Require Import Sorting.Sorted.
From Verif Require Import Lib.Prelude Model.DistBalancerModel.
Local Open Scope Z_scope.

(** The candidate has a target block. *)
Definition real (c : cand) : Prop := c_from c <> c_to c.
(** The weight that the moves [cs] bring into block [b] and take from block [b]. *)
Definition into (cs : list cand) (b : nat) : Z :=
  zsum (map (fun c => if (c_to c =? b)%nat && negb (c_from c =? b)%nat then c_w c else 0) cs).
Definition outof (cs : list cand) (b : nat) : Z := zsum (map (fun c => if (c_from c =? b)%nat then c_w c else 0) cs).
(** All moves with a target can be performed together. *)
Definition compatible (bw mx : list Z) (cs : list cand) : Prop :=
  forall c, In c cs -> real c -> nth (c_to c) bw 0 + into cs (c_to c) <= nth (c_to c) mx 0.
Definition sorted_from (cs : list cand) : Prop := StronglySorted (fun a b => (c_from a <= c_from b)%nat) cs.
Definition blocks_ok (k : nat) (cs : list cand) : Prop := forall c, In c cs -> (c_from c < k /\ c_to c < k)%nat.
(** Each block loses at most its excess weight and one more node. *)
Definition out_bounded (bw mx : list Z) (maxw : Z) (cs : list cand) : Prop :=
  forall c, In c cs -> outof cs (c_from c) <= nth (c_from c) bw 0 - nth (c_from c) mx 0 - 1 + maxw.
(** The same node, block and weight; the target as before if there was one. *)
Definition same_move (a b : cand) : Prop := c_id a = c_id b /\ c_from a = c_from b /\ c_w a = c_w b /\ (real a -> c_to a = c_to b).
