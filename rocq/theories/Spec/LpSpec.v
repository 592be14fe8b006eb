(* Specification of clusterings. *)
From Verif Require Import Lib.Prelude Spec.Induced Model.LpClusterModel.

(** One cluster per node; clusters are named by nodes. *)
Definition clustering (g : lgraph) (cl : list nat) : Prop :=
  length cl = length g /\ forall c, In c cl -> c < length g.

(** Nodes of one cluster belong to one community. *)
Definition within_communities (comm cl : list nat) : Prop :=
  forall u v, u < length cl -> v < length cl -> nth u cl 0 = nth v cl 0 -> nth u comm 0 = nth v comm 0.

(** The weight of the nodes of cluster [c]. *)
Definition weight_of (g : lgraph) (cl : list nat) (c : nat) : Z := zsum (map (lg_weight g) (members cl c)).

(** Every cluster of at least two nodes respects the limit. *)
Definition limited (g : lgraph) (maxw : Z) (cl : list nat) : Prop :=
  forall u v, u < length cl -> v < length cl -> u <> v -> nth u cl 0 = nth v cl 0 -> (weight_of g cl (nth u cl 0%nat) <= maxw)%Z.

(** The stored weights are the weights of the clusters. *)
Definition exact_weights (g : lgraph) (s : lps) : Prop :=
  length (l_w s) = length g /\ forall c, c < length g -> nth c (l_w s) 0%Z = weight_of g (l_cl s) c.

(** Every edge is stored in both directions. *)
Definition symmetric (g : lgraph) : Prop :=
  forall u v x, u < length g -> In (v, x) (lg_adj g u) -> exists y, In (u, y) (lg_adj g v).

(** Distribution of nodes to workers: every node is handled once. *)
Definition schedule (g : lgraph) (evs : list (nat * nat)) : Prop := Permutation (map snd evs) (seq 0 (length g)).

(** Executions in which every visit sees the current clusters and weights. *)
Inductive seq_run (g : lgraph) (maxw : Z) (comm : list nat) (uni : bool) : lps -> Prop :=
| seq_start : seq_run g maxw comm uni (lp_init g)
| seq_visit s u k :
    seq_run g maxw comm uni s -> u < length g ->
    observed g [l_cl s] u (kind_entries k) ->
    seq_run g maxw comm uni (visit g maxw comm uni u k (fun c => nth c (l_w s) 0%Z) (fun c => nth c (l_w s) 0%Z) s).

(** [b] is the best choice among the rated clusters [es]: the highest rating of all acceptable ones, or the own cluster
    [init] if none is acceptable. *)
Definition best_choice (acc : nat -> bool) (init : nat) (es : list entry) (b : nat) : Prop :=
  (exists r x, In (b, r, x) es /\ acc b = true /\ forall c r' y, In (c, r', y) es -> acc c = true -> (r' <= r)%Z) \/
  (b = init /\ forall c r' y, In (c, r', y) es -> acc c = false).

(** The cluster named [u] consists of node u only. *)
Definition alone (g : lgraph) (cl : list nat) (u : nat) : Prop :=
  forall v, v < length g -> (nth v cl 0 = u <-> v = u).
