(* Specification vocabulary for moves of nodes between blocks and for gains. *)
From Verif Require Import Lib.Prelude Spec.Graph.

(** The partition after moving [u] to block [b]. *)
Definition relabel (p : nat -> nat) (u b : nat) : nat -> nat := fun v => if v =? u then b else p v.

(** Total weight of the edges from [u] into block [b]. *)
Definition block_conn (g : graph) (p : nat -> nat) (u b : nat) : Z :=
  zsum (map snd (filter (fun e => p (fst e) =? b) (gadj g u))).
Definition weighted_degree (g : graph) (u : nat) : Z := zsum (map snd (gadj g u)).

(** A simple graph: no parallel edges, no self-loops. *)
Definition simple_graph (g : graph) : Prop :=
  forall u, u < gn g -> NoDup (map fst (gadj g u)) /\ ~ In u (map fst (gadj g u)).
Definition positive_edges (g : graph) : Prop :=
  forall u v w, u < gn g -> In (v, w) (gadj g u) -> (0 < w)%Z.

(** A k-way partition given as an array of labels. *)
Definition label_of (lab : list nat) : nat -> nat := fun u => nth u lab 0.
Definition labels_ok (g : graph) (k : nat) (lab : list nat) : Prop :=
  length lab = gn g /\ forall u, u < gn g -> label_of lab u < k.

(** What an enumeration of move targets should list for a node whose connection to block [b] is [c b]: every other
    block (or only those it is connected to, if [all = false]) with its connection, less the connection to the own block
    if gains are [exact]. *)
Definition targets (k : nat) (all exact : bool) (c : nat -> Z) (from : nat) : list (nat * Z) :=
  map (fun b => (b, c b - (if exact then c from else 0))%Z)
      (filter (fun b => negb (b =? from) && (all || (0 <? c b)%Z)) (seq 0 k)).

(** Events of a concurrent execution: worker [t] starts to move node [u] to block [b]; worker [t] performs its next
    update of the shared cache. *)
Inductive gev := EMove (t u b : nat) | ETick (t : nat).

(** Exactness of what a cache reports for node [u] under partition [p]: the connection to every block, the gain of every
    move of [u] (the decrease of the edge cut; also relative to a block other than its own), the enumerated move targets (in any order) and whether [u] has a
    neighbour in another block. *)
Definition reports (g : graph) (k : nat) (p : nat -> nat) (u : nat) (rconn : nat -> option Z) (rgain : nat -> nat -> option Z)
  (rgains : bool -> bool -> nat -> option (list (nat * Z))) (rborder : nat -> option bool) : Prop :=
  (forall b, b < k -> rconn b = Some (block_conn g p u b)) /\
  (forall b, b < k -> rgain (p u) b = Some (cut_weight g p - cut_weight g (relabel p u b))%Z) /\
  (forall a b, a < k -> b < k -> rgain a b = Some (block_conn g p u b - block_conn g p u a)%Z) /\
  (forall all exact from, from < k -> exists l, rgains all exact from = Some l /\
      Permutation l (targets k all exact (block_conn g p u) from)) /\
  (positive_edges g -> exists r, rborder (p u) = Some r /\ (r = true <-> exists v w, In (v, w) (gadj g u) /\ p v <> p u)).
