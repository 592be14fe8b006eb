(* What move sets have to look like. *)
From Verif Require Import Lib.Prelude Model.DistGraphModel Model.HemModel Model.MoveSetModel.

(** Weight of the edges of a list (neighbour, weight) to the neighbours in [p]. *)
Definition weight_to (p : nat -> bool) (es : list (nat * Z)) : Z := zsum (map snd (filter (fun e => p (fst e)) es)).
(** A rank with own nodes 0 .. n - 1, ghosts n .. n + gn - 1 and rows [adj]: neighbours are known, weights positive, edges between own nodes exist in
    both directions, there are no self-loops. *)
Record rank_graph (n gn : nat) (adj : nat -> list (nat * Z)) : Prop := {
  rg_known : forall u v w, u < n -> In (v, w) (adj u) -> v < n + gn /\ (0 < w)%Z /\ v <> u;
  rg_both : forall u v, u < n -> v < n -> weight_to (Nat.eqb v) (adj u) = weight_to (Nat.eqb u) (adj v)
}.
(** [sets]: the nodes of every set, [of_]: the set of every own node; [conn c b]: the weight of the edges that leave set c to nodes of block b. *)
Record consistent (n k : nat) (adj : nat -> list (nat * Z)) (block : nat -> nat) (sets : list (list nat)) (of_ : nat -> option nat) (conn : nat -> nat -> Z) : Prop := {
  co_nonempty : forall l, In l sets -> l <> [];
  co_nodup : forall l, In l sets -> NoDup l;
  co_of : forall c u, c < length sets -> (In u (nth c sets []) <-> u < n /\ of_ u = Some c);
  co_range : forall u c, u < n -> of_ u = Some c -> c < length sets;
  co_block : forall l u v, In l sets -> In u l -> In v l -> block u = block v;
  co_conn : forall c b, c < length sets -> b < k ->
    conn c b = zsum (map (fun u => weight_to (fun v => negb (existsb (Nat.eqb v) (nth c sets [])) && (block v =? b)) (adj u)) (nth c sets []))
}.
(** The blocks after the nodes of [l] moved to block [to]. *)
Definition moved (l : list nat) (to : nat) (block : nat -> nat) : nat -> nat := fun v => if existsb (Nat.eqb v) l then to else block v.
(** Weight of the edges of the nodes of [l] that lead to another block. *)
Definition cut_of (adj : nat -> list (nat * Z)) (block : nat -> nat) (l : list nat) : Z :=
  zsum (map (fun u => weight_to (fun v => negb (block v =? block u)) (adj u)) l).

(** ** For the model *)
(** Every node known to the rank has a block below k. *)
Definition valid_blocks (d : dcsr) (k : nat) (blk : list nat) : Prop := length blk = dn d + dghost_n d /\ forall v, v < dn d + dghost_n d -> nth v blk 0 < k.
Definition set_list (s : sets) : list (list nat) := map (nodes_of s) (seq 0 (num_sets s)).
Definition exact_sets (d : dcsr) (k : nat) (s : sets) (blk : list nat) : Prop :=
  consistent (dn d) k (row d) (fun u => nth u blk 0) (set_list s) (fun u => nth u (ms_of s) None) (conn k s).
(** Memory of the sizes that ClustersMemoryContext::resize gives it (clusters.h:39-52). *)
Definition memory (d : dcsr) (junk : list (option nat) * list nat * list nat) : Prop :=
  length (fst (fst junk)) = dn d /\ length (snd (fst junk)) = dn d /\ length (snd junk) = dn d + 1.
(** The clusters of the nodes of overloaded blocks are own nodes. *)
Definition own_clusters (d : dcsr) (over : nat -> bool) (blk cl : list nat) : Prop := forall u, u < dn d -> over (nth u blk 0) = true -> nth u cl 0 < dn d.
Definition within_blocks (d : dcsr) (blk cl : list nat) : Prop := forall u v, u < dn d -> v < dn d -> nth u cl 0 = nth v cl 0 -> nth u blk 0 = nth v blk 0.
(** Sets as built by one of the strategies. *)
Inductive built (d : dcsr) (k : nat) (over : nat -> bool) (blk : list nat) (s : sets) : Prop :=
| built_singletons : constructed d (singletons d k over blk) s -> built d k over blk s
| built_local cl junk b : own_clusters d over blk cl -> within_blocks d blk cl -> memory d junk -> local_sets d k over blk cl junk = Some b -> constructed d b s -> built d k over blk s.
(** Moves of existing sets and of ghosts to existing blocks. *)
Definition allowed_move (d : dcsr) (k : nat) (s : sets) (m : move) : Prop :=
  match m with OwnSet c to => c < num_sets s /\ to < k | Ghost g to => dn d <= g < dn d + dghost_n d /\ to < k end.
(** The blocks after a move. *)
Definition block_after (sets : list (list nat)) (block : nat -> nat) (m : move) : nat -> nat :=
  match m with OwnSet c to => moved (nth c sets []) to block | Ghost g to => moved [g] to block end.
