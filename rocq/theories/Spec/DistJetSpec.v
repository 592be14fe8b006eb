(* What the distributed Jet refiner has to keep, and how partitions are compared. *)
From Verif Require Import Lib.Prelude Model.DistGraphModel Spec.Graph Spec.DistGraphSpec Spec.Gain.

(** Every rank has the right block for every node that it knows, its own or a ghost. *)
Definition agree (P : nat) (d : nat -> dcsr) (parts : nat -> list nat) (part : nat -> nat) : Prop :=
  forall r l g, r < P -> dlocal_to_global (d r) l = Some g -> nth_error (parts r) l = Some (part g).
(** ... and the exact weights of the k blocks. *)
Definition partitioned (P k : nat) (G : graph) (d : nat -> dcsr) (parts : nat -> list nat) (bws : nat -> list Z) (part : nat -> nat) : Prop :=
  (forall g, g < gn G -> part g < k) /\ agree P d parts part /\ forall r, r < P -> bws r = map (block_weight G part) (seq 0 k).
(** By how much the blocks exceed their limits, in total. *)
Definition overload (k : nat) (G : graph) (mx : list Z) (part : nat -> nat) : Z := zsum (map (fun b => Z.max 0 (block_weight G part b - nth b mx 0%Z)%Z) (seq 0 k)).
(** [p] is at least as good as [q]. *)
Definition at_least_as_good (k : nat) (G : graph) (mx : list Z) (p q : nat -> nat) : Prop :=
  (overload k G mx p <= overload k G mx q)%Z /\ (overload k G mx q = 0%Z -> (cut_weight G p <= cut_weight G q)%Z).

(** The move that is tried for node [u], given the partition [part] and the nodes that were moved in the previous iteration: its gain and
    target. A target is a best other block, and the move passes the test [warm]; nodes that rest and nodes whose best move does not pass
    stay in their block. *)
Definition candidate (G : graph) (warm : Z -> Z -> bool) (part : nat -> nat) (resting : nat -> Prop) (u : nat) (move : Z * nat) : Prop :=
  (move = (0%Z, part u) /\ (resting u \/ forall b, b <> part u -> (0 < block_conn G part u b)%Z ->
     (forall b', b' <> part u -> (block_conn G part u b' <= block_conn G part u b)%Z) ->
     warm (block_conn G part u b - block_conn G part u (part u))%Z (block_conn G part u (part u)) = false)) \/
  (~ resting u /\ snd move <> part u /\ fst move = (block_conn G part u (snd move) - block_conn G part u (part u))%Z /\
   (exists v w, In (v, w) (gadj G u) /\ part v = snd move) /\ (forall b, b <> part u -> (block_conn G part u b <= block_conn G part u (snd move))%Z) /\
   warm (fst move) (block_conn G part u (part u)) = true).
(** The two nodes are on the same rank. *)
Definition same_rank (dist : list nat) (u v : nat) : bool :=
  existsb (fun r => (nth r dist 0 <=? u) && (u <? nth (S r) dist 0) && ((nth r dist 0 <=? v) && (v <? nth (S r) dist 0))) (seq 0 (length dist - 1)).
(** The gain of that move if the neighbours with better moves have been moved; among equal moves those of neighbours on the same rank
    with a smaller number. *)
Definition moves_first (dist : list nat) (moves : nat -> Z * nat) (u v : nat) : bool :=
  (fst (moves u) <? fst (moves v))%Z || ((fst (moves v) =? fst (moves u))%Z && (same_rank dist u v && (v <? u))).
Definition projected_gain (G : graph) (dist : list nat) (part : nat -> nat) (moves : nat -> Z * nat) (u : nat) : Z :=
  zsum (map (fun e =>
    let b := if moves_first dist moves u (fst e) then snd (moves (fst e)) else part (fst e) in
    if b =? snd (moves u) then snd e else if b =? part u then (- snd e)%Z else 0%Z) (gadj G u)).
