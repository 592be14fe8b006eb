(* Vocabulary for the statements about subgraph extraction, partition extension and uncoarsening. *)
From Verif Require Import Lib.Prelude Spec.Induced Spec.Level Model.SubgraphModel Model.ExtendModel Model.DeepModel.

(** The four arrays of the memory have room for [nn] node entries from position p on and for [mm] edge
    entries from position q on; weight arrays only matter for weighted graphs. *)
Definition fits (nwf ewf : bool) (p nn q mm : nat) (mem : smem) : Prop :=
  p + nn <= length (sm_nodes mem) /\ q + mm <= length (sm_edges mem) /\
  (nwf = true -> p + nn <= length (sm_nw mem)) /\ (ewf = true -> q + mm <= length (sm_ew mem)).

(** Memory for a graph that is split into k blocks (SubgraphMemory with n + k and m entries). *)
Definition mem_fits (g : lgraph) (k : nat) (mem : smem) : Prop :=
  length g + k <= length (sm_nodes mem) /\ lg_m g <= length (sm_edges mem) /\
  (lg_is_nw g = true -> length g + k <= length (sm_nw mem)) /\ (lg_is_ew g = true -> lg_m g <= length (sm_ew mem)).

(** The two memories have arrays of equal sizes. *)
Definition same_sizes (a b : smem) : Prop :=
  length (sm_nodes a) = length (sm_nodes b) /\ length (sm_edges a) = length (sm_edges b) /\
  length (sm_nw a) = length (sm_nw b) /\ length (sm_ew a) = length (sm_ew b).
(** Memory is unchanged outside the node region [p, p+nn) and the edge region [q, q+mm). *)
Definition frame (p nn q mm : nat) (a b : smem) : Prop :=
  same_sizes a b /\
  (forall j, j < p \/ p + nn <= j -> nth_error (sm_nodes b) j = nth_error (sm_nodes a) j /\ nth_error (sm_nw b) j = nth_error (sm_nw a) j) /\
  (forall j, j < q \/ q + mm <= j -> nth_error (sm_edges b) j = nth_error (sm_edges a) j /\ nth_error (sm_ew b) j = nth_error (sm_ew a) j).

(** Thread-local memory of the lazy extraction: the weight arrays are as large as the node and edge arrays
    as far as the flags ask for. *)
Definition lazy_mem_ok (nwf ewf : bool) (mem : smem) : Prop :=
  (nwf = true -> length (sm_nodes mem) <= length (sm_nw mem)) /\ (ewf = true -> length (sm_edges mem) <= length (sm_ew mem)).

(** Environments that make legal choices. *)
Definition choice_ok (g : lgraph) (kp : nat) (c : choice) : Prop :=
  bipartitioner (c_bip c) /\ Permutation (c_order c) (seq 0 (length g)) /\
  Permutation (c_build c) (seq 0 kp) /\ Permutation (c_rec c) (seq 0 kp).

(** One label below kp per node. *)
Definition labelled (g : lgraph) (kp : nat) (part : list nat) : Prop :=
  length part = length g /\ forall x, In x part -> x < kp.

(** The levels after [g], from coarse to fine: legal graphs, one entry of the
    mapping per node pointing to a node of the coarser graph, consecutive graphs related by [next]. *)
Fixpoint levels_ok (c : nat) (next : lgraph -> lgraph -> Prop) (g : lgraph) (lvs : list level) : Prop :=
  match lvs with
  | [] => True
  | lv :: rest => lg_ok (lv_g lv) /\ (N.of_nat (length (lv_g lv) / c) <= 2 ^ 31)%N /\ length (lv_map lv) = length (lv_g lv) /\
      (forall x, In x (lv_map lv) -> x < length g) /\ next g (lv_g lv) /\ levels_ok c next (lv_g lv) rest
  end.

Definition finest (g : lgraph) (lvs : list level) : lgraph := last (map lv_g lvs) g.

(** A finer graph is edge-weighted (node-weighted) only if the coarser one is. *)
Definition weights_carry (g g' : lgraph) : Prop :=
  (lg_is_nw g' = true -> lg_is_nw g = true) /\ (lg_is_ew g' = true -> lg_is_ew g = true).

