(* Conditions on the inputs of graph compression. *)
From Coq Require Import Sorted.
From Verif Require Import Lib.Prelude Model.CompressModel.
Local Open Scope Z_scope.

(** The supported type widths: 32 or 64 bit. *)
Definition conf_ok (c : cconf) : Prop :=
  (c_wn c = 32 \/ c_wn c = 64) /\ (c_wi c = 32 \/ c_wi c = 64) /\ (c_we c = 32 \/ c_we c = 64).

(** A neighbour: its ID is below kInvalidNodeID, the edge weight is nonnegative and fits. *)
Definition nbr_ok (c : cconf) (x : nbr) : Prop :=
  0 <= fst x < 2 ^ c_wn c - 1 /\ 0 <= snd x < 2 ^ (c_we c - 1).

(** The weight that the reader of an edge sees: 1 for unweighted graphs. *)
Definition eff (c : cconf) (x : nbr) : nbr := (fst x, if c_ew c then snd x else 1).

(** A graph is the list of its neighbourhoods; multiple edges are allowed. *)
Definition graph_ok (c : cconf) (nbs : list (list nbr)) : Prop :=
  Z.of_nat (length nbs) < 2 ^ c_wn c /\
  Forall (fun nb => Forall (nbr_ok c) nb /\ Z.of_nat (length nb) < 2 ^ c_wn c) nbs.

(** A simple neighbourhood in a graph with [n] nodes: no multiple edges, sorted. *)
Definition simple_nb (c : cconf) (n : Z) (nb : list nbr) : Prop :=
  StronglySorted (fun x y : nbr => fst x < fst y) nb /\
  Forall (fun x : nbr => 0 <= fst x < n /\ 0 <= snd x < 2 ^ (c_we c - 1)) nb.

(** Number of (directed) edges and their total weight. *)
Definition num_edges_of (nbs : list (list nbr)) : Z := zsum (map (fun nb => Z.of_nat (length nb)) nbs).
Definition wsum (l : list nbr) : Z := zsum (map snd l).
Definition total_weight (nbs : list (list nbr)) : Z := zsum (map wsum nbs).
