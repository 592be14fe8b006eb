(* Specification of node orders. *)
From Verif Require Import Lib.Prelude Model.LpOrderModel.

(** A bucket index of a graph with n nodes: the buckets 0, ..., nb - 1 are consecutive intervals that cover all nodes. *)
Definition buckets_ok (n : nat) (bk : list nat) (nb : nat) : Prop :=
  nth 0 bk 0 = 0 /\ nth nb bk 0 = n /\ forall b, b < nb -> nth b bk 0 <= nth (S b) bk 0.

(** A distribution of work: every task goes to one of the workers, and the result of every worker is collected once. *)
Definition distribution_ok (tasks : nat) (d : list nat * list nat) : Prop :=
  length (fst d) = tasks /\ NoDup (snd d) /\ forall t, In t (fst d) -> In t (snd d).

(** The random choices and the schedule of an iteration are legal. *)
Definition iteration_ok (psize : nat) (it : iteration) : Prop :=
  (forall b m, distribution_ok m (it_dist it b m)) /\ (forall b cs, Permutation (it_shuffle it b cs) cs) /\
  (forall i c, Permutation (fst (it_perms it i c)) (seq 0 psize) /\ Permutation (snd (it_perms it i c)) (seq 0 (num_sub_chunks psize c))).

(** No node is visited twice; the visited nodes are active nodes of [lo, hi) of smaller degree than the bound. *)
Definition visits_at_most_once (degs : list nat) (max_degree lo hi : nat) (active : nat -> bool) (vs : list nat) : Prop :=
  NoDup vs /\ (forall u, In u vs -> lo <= u < hi /\ nth u degs 0 < max_degree /\ active u = true).
(** All active nodes of [lo, hi) are visited whose degree is positive and smaller than the bound. *)
Definition visits_all (degs : list nat) (max_degree lo hi : nat) (active : nat -> bool) (vs : list nat) : Prop :=
  forall u, lo <= u < hi -> 0 < nth u degs 0 < max_degree -> active u = true -> In u vs.

(** Nodes of smaller buckets come before nodes of larger ones. *)
Definition smaller_buckets_first (bk : list nat) (nb : nat) (vs : list nat) : Prop :=
  ForallOrdPairs (fun u v => forall b, b <= nb -> nth b bk 0 <= u -> nth b bk 0 <= v) vs.

(** The number of nodes in the buckets that are looked at: as many buckets as the binary logarithm of the degree bound. *)
Definition visited_end (bk : list nat) (nb max_degree : nat) : nat := nth (Nat.min (Nat.log2 max_degree) nb) bk 0.

(** A degree-sorted graph: bucket 0 holds the isolated nodes, bucket b + 1 the nodes of degree 2^b to 2^(b+1) - 1. *)
Definition degree_buckets_ok (degs bk : list nat) (nb : nat) : Prop :=
  buckets_ok (length degs) bk nb /\
  forall u, u < length degs -> let b := match nth u degs 0 with 0 => 0 | d => S (Nat.log2 d) end in
    b < nb /\ nth b bk 0 <= u < nth (S b) bk 0.

(** What an iteration does to the nodes of [lo, hi): every execution, i.e. every interleaving of its tasks, visits no node
    twice, and all eligible nodes if it is not stopped; started in order, the tasks go from smaller to larger buckets. *)
Definition iteration_visits (degs bk : list nat) (nb max_degree lo hi : nat) (it : iteration) (vs : list nat) : Prop :=
  (forall ws, Permutation ws vs ->
     visits_at_most_once degs max_degree lo hi (it_active it) ws /\
     (it_passed it = None -> visits_all degs max_degree lo hi (it_active it) ws)) /\
  smaller_buckets_first bk nb vs.
