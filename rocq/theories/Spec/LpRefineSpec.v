(* Specification of refinement by single moves. *)
From Verif Require Import Lib.Prelude Spec.Graph Spec.Gain Model.LpRefineModel.
Local Open Scope Z_scope.

(** A visit sees the current blocks of all neighbours: the blocks of the neighbours, rated with the connection to them. *)
Definition exact_view (g : graph) (l : list nat) (u : nat) (v : rview) : Prop :=
  (forall e, In e (view_entries v) -> e_rating e = block_conn g (label_of l) u (e_block e) /\ exists w x, In (w, x) (gadj g u) /\ nth w l 0%nat = e_block e) /\
  (forall w x, In (w, x) (gadj g u) -> exists e, In e (view_entries v) /\ e_block e = nth w l 0%nat).

(** A graph without negative edge weights and self-loops. *)
Definition refinable (g : graph) : Prop :=
  closed_graph g /\ undirected g /\ (forall u, (u < gn g)%nat -> ~ In u (map fst (gadj g u))) /\
  forall u v w, (u < gn g)%nat -> In (v, w) (gadj g u) -> 0 <= w.

(** Edges are listed at both endpoints. *)
Definition symmetric_lists (g : graph) : Prop :=
  forall u v, (u < gn g)%nat -> In v (map fst (gadj g u)) -> In u (map fst (gadj g v)).

(** The visits of a single thread name nodes of the graph; the enumeration of the rating map is some order of its entries. *)
Definition choices_ok (g : graph) (cs : list choice) : Prop :=
  Forall (fun c => (ch_node c < gn g)%nat /\ forall l, Permutation (ch_perm c l) l) cs.
