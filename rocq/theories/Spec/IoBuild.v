(* Which builds are considered and which graphs fit into their types. *)
From Verif Require Import Lib.Prelude Spec.Graph Spec.TextFormat Model.IoTextModel.
Local Open Scope Z_scope.

(** The graph fits into the types of the build (NodeID, EdgeID unsigned, weights signed); the header check of the parser
    multiplies 64-bit numbers, hence at most 2^32 nodes. *)
Definition fits_build (c : ioconf) (g : graph) : Prop :=
  Z.of_nat (gn g) <= 2 ^ 32 /\ Z.of_nat (gn g) < 2 ^ io_wn c /\ num_arcs g < 2 ^ io_wi c /\
  total_weight g < 2 ^ (io_ww c - 1) /\ arc_weight g < 2 ^ (io_ww c - 1).
(** 32- or 64-bit types, the weights not wider than the IDs (see C36_wide_weights_refuted). *)
Definition build_ok (c : ioconf) : Prop :=
  (io_wn c = 32 \/ io_wn c = 64) /\ (io_wi c = 32 \/ io_wi c = 64) /\ (io_ww c = 32 \/ io_ww c = 64) /\
  io_ww c <= io_wn c /\ io_ww c <= io_wi c /\ 0 < io_page c.
