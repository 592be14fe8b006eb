(* What the parts of a distributed graph have to look like. *)
From Verif Require Import Lib.Prelude Spec.Graph.

(** The nodes 0, ..., N - 1 are split among [P] ranks: rank r owns dist[r], ..., dist[r + 1] - 1 (possibly none). *)
Definition distribution (P N : nat) (dist : list nat) : Prop :=
  length dist = P + 1 /\ nth 0 dist 0 = 0 /\ nth P dist 0 = N /\ forall r, r < P -> nth r dist 0 <= nth (S r) dist 0.
Definition owns (dist : list nat) (r g : nat) : Prop := nth r dist 0 <= g < nth (S r) dist 0.

(** The arrays that one rank passes describe its part of [G]. *)
Definition rank_arrays (G : graph) (dist : list nat) (r : nat) (xadj adj : list nat) (vw aw : list Z) : Prop :=
  let from := nth r dist 0 in let n := nth (S r) dist 0 - from in
  length xadj = n + 1 /\ nth 0 xadj 0 = 0 /\ (forall i, i < n -> nth i xadj 0 <= nth (S i) xadj 0) /\ nth n xadj 0 = length adj /\
  (vw = [] \/ length vw = n) /\ (aw = [] \/ length aw = length adj) /\
  forall u, u < n -> gadj G (from + u) = gadj (user_graph xadj adj vw aw) u /\ gvw G (from + u) = gvw (user_graph xadj adj vw aw) u.

(** All weights fit into signed integers of [bits] bits. *)
Definition weights_fit (bits : Z) (G : graph) : Prop :=
  (0 < bits)%Z /\ forall u, u < gn G -> (- 2 ^ (bits - 1) <= gvw G u < 2 ^ (bits - 1))%Z /\
    forall v w, In (v, w) (gadj G u) -> (- 2 ^ (bits - 1) <= w < 2 ^ (bits - 1))%Z.

(** Neighbourhood is symmetric. *)
Definition symmetric_adjacency (G : graph) : Prop :=
  forall u v w, u < gn G -> In (v, w) (gadj G u) -> exists w', In (u, w') (gadj G v).

(** [g] is a node of another rank with a neighbour on rank [r]. *)
Definition ghost_of (G : graph) (dist : list nat) (r g : nat) : Prop :=
  ~ owns dist r g /\ exists v w, owns dist r v /\ In (g, w) (gadj G v).

(** The local graph of rank [r], seen through its interface: [n] own nodes, [k] ghosts, translations between local and global
    identifiers, owner of a ghost, which global nodes are present, neighbours of the own nodes with edge weights. *)
Definition local_view (G : graph) (dist : list nat) (r : nat) (n k : nat) (l2g g2l owner : nat -> option nat)
    (present : nat -> option bool) (row : nat -> option (list (nat * Z))) : Prop :=
  n = nth (S r) dist 0 - nth r dist 0 /\
  (forall u, u < n -> l2g u = Some (nth r dist 0 + u)) /\
  (forall u, n <= u < n + k -> exists g q, l2g u = Some g /\ ghost_of G dist r g /\ owner u = Some q /\ owns dist q g) /\
  (forall u, n + k <= u -> l2g u = None) /\
  (forall u g, l2g u = Some g <-> g2l g = Some u) /\
  (forall g, ghost_of G dist r g -> exists u, n <= u < n + k /\ g2l g = Some u) /\
  (forall g, present g = Some true <-> owns dist r g \/ ghost_of G dist r g) /\
  (forall u, u < n -> exists nbs, row u = Some nbs /\
     map (fun e => (l2g (fst e), snd e)) nbs = map (fun e => (Some (fst e), snd e)) (gadj G (nth r dist 0 + u))).
