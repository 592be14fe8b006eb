(* kaminpar-dist/partitioning/deep_multilevel.cc: how many blocks the partition has. Graphs are represented by their global number of
   nodes; coarsening, initial partitioning and refinement do not change the number of blocks. BlockID has 32 bits, GlobalNodeID 64. *)
From Verif Require Import Lib.Prelude Model.MathModel.
Local Open Scope N_scope.

Section Deep.
Variables K k : N.    (* partition.K: extension factor; partition.k: number of blocks asked for *)
Variable C : N.       (* coarsening.contraction_limit *)
Variable input_n : N. (* number of nodes of the input graph *)

(** :59 first_step_k. *)
Definition first_step_k : N := N.min k K.
(** :60-62 desired_num_nodes: graphs with more nodes are coarsened (:68). *)
Definition desired_num_nodes (threads : N) : N := threads * C * first_step_k.
(** :196-203 desired_k for a graph with [n] nodes. ceil2 is undefined for 0 ([None]). *)
Definition desired_k (n : N) : option N :=
  match ceil2 64 (n / C) with
  | None => None
  | Some x => Some (if input_n =? n then k else N.min k (x mod 2 ^ 32))
  end.
(** :204-208 next_k and k_per_block; subgraph_extractor.cc:634, :712 new_k (k_multiplier = k_per_block). The
    assertion in :207 is not enabled by default. *)
Definition next_blocks (desired cur : N) : N := cur * (N.min desired (cur * K mod 2 ^ 32) / cur).
(** :204-276 the loop of extend_partition: it returns with [last] blocks after the numbers of blocks [steps]. *)
Inductive extend_loop (desired : N) : N -> list N -> N -> Prop :=
| extend_done cur : desired <= cur -> extend_loop desired cur [] cur
| extend_step cur steps last : cur < desired -> extend_loop desired (next_blocks desired cur) steps last ->
    extend_loop desired cur (next_blocks desired cur :: steps) last.
Definition extend (n cur : N) (steps : list N) (last : N) : Prop := exists d, desired_k n = Some d /\ extend_loop d cur steps last.
(** :284-336 uncoarsening: the partition is extended on the graph of every level. *)
Inductive uncoarsen : list N -> N -> list N -> N -> Prop :=
| uncoarsen_done cur : uncoarsen [] cur [] cur
| uncoarsen_level n levels cur steps cur' steps' last : extend n cur steps cur' -> uncoarsen levels cur' steps' last -> uncoarsen (n :: levels) cur (steps ++ steps') last.
(** :127, :284-364 the whole run: from the initial partition to the result; :338-364 if there are still too few blocks at the end, the
    partition of the input graph is extended once more. *)
Definition deep_run (levels steps : list N) (last : N) : Prop :=
  exists steps1 cur, uncoarsen levels first_step_k steps1 cur /\
    if cur =? k then steps = steps1 /\ last = cur else exists steps2, extend input_n cur steps2 last /\ steps = steps1 ++ steps2.
End Deep.
