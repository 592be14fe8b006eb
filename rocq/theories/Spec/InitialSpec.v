(* Specification vocabulary for bipartitions and their refinement. *)
From Verif Require Import Lib.Prelude Spec.Graph.

(** Edge weights are not negative; no node is its own neighbour. *)
Definition nonneg_edges (g : graph) : Prop := forall u v w, u < gn g -> In (v, w) (gadj g u) -> (0 <= w)%Z.
Definition loop_free (g : graph) : Prop := forall u w, u < gn g -> ~ In (u, w) (gadj g u).

(** Every node is in block 0 or 1 and the two block weights are the weights of the blocks. *)
Definition bipartition (g : graph) (label : list nat) (weight : list Z) : Prop :=
  length weight = 2 /\ exact_block_weights g label weight.

(** By how much the two blocks exceed their limits, in total. *)
Definition overload (limit : nat -> Z) (g : graph) (label : list nat) : Z :=
  let w := block_weight g (fun u => nth u label 0) in
  Z.add (Z.max 0 (w 0 - limit 0)) (Z.max 0 (w 1 - limit 1)).

(** The weight of the edges between the blocks. *)
Definition cut_of (g : graph) (label : list nat) : Z := cut_weight g (fun u => nth u label 0).

(** The orders in which a round may visit the nodes: an arrangement of the chunk numbers, and for each of them an
    arrangement of the 64 offsets within a chunk. *)
Definition legal_order (n : nat) (chunks : list nat) (perms : list (list nat)) : Prop :=
  Permutation chunks (seq 0 (n / 64 + 1)) /\ length perms = length chunks /\
  forall p, In p perms -> Permutation p (seq 0 64).

(** The nodes after [u] on a walk along edges that ends in [v]. *)
Fixpoint walk (g : graph) (u : nat) (p : list nat) (v : nat) : Prop :=
  match p with
  | [] => u = v
  | x :: r => (exists w, In (x, w) (gadj g u)) /\ walk g x r v
  end.
