(* Specification of recursive bipartitioning over a complete binary tree. *)
From Verif Require Import Lib.Prelude Spec.Induced Spec.ExtendSpec Model.DeepModel Model.RbModel.

(** Label of node [u] after d + 1 levels of bipartitions. [split g b kp] is the bipartition of block b on the
    level with kp blocks, whose induced subgraph is g; [order g b kp] numbers the nodes of the two subgraphs. The
    first bipartition decides the most significant bit. *)
Fixpoint tree_label (split order : lgraph -> nat -> nat -> list nat) (d : nat) (g : lgraph) (b kp u : nat) : nat :=
  let s := nth u (split g b kp) 0 in
  match d with
  | O => s
  | S d' => let us := listing (split g b kp) (order g b kp) s in
            s * 2 ^ d + tree_label split order d' (induced us g) (2 * b + s) (2 * kp) (index_of u us)
  end.

(** The subgraphs that are bipartitioned: [sub_of split order k g0 g b kp] says that block b of the level with kp
    blocks is the subgraph g. *)
Inductive sub_of (split order : lgraph -> nat -> nat -> list nat) (k : nat) (g0 : lgraph) : lgraph -> nat -> nat -> Prop :=
| sub_root : sub_of split order k g0 g0 0 1
| sub_side g b kp s : sub_of split order k g0 g b kp -> 2 * kp < k -> s < 2 ->
    sub_of split order k g0 (induced (listing (split g b kp) (order g b kp) s) g) (2 * b + s) (2 * kp).

(** Weight of block [b]. *)
Definition label_weight (g : lgraph) (part : list nat) (b : nat) : Z :=
  zsum (map (fun u => if nth u part (S b) =? b then lg_weight g u else 0%Z) (seq 0 (length g))).

(** [lvs] leads from the coarsest graph [gc] to finer graphs: every node of a level is mapped to a node of the coarser
    graph. *)
Fixpoint hierarchy (gc : lgraph) (lvs : list level) : Prop :=
  match lvs with
  | [] => True
  | lv :: rest => length (lv_map lv) = length (lv_g lv) /\ (forall x, In x (lv_map lv) -> x < length gc) /\ hierarchy (lv_g lv) rest
  end.

(** Legal environments: hierarchies of the graph that is bipartitioned, bipartitions and refinements with labels 0 and
    1, fetch-adds and subgraphs in any order; memory has arbitrary contents. *)
Definition rb_env_ok (e : rb_env) : Prop :=
  (forall g b kp, hierarchy (fst (e_levels e g b kp)) (snd (e_levels e g b kp)) /\ finest (fst (e_levels e g b kp)) (snd (e_levels e g b kp)) = g) /\
  (forall g b kp, labelled g 2 (e_pool e g b kp)) /\
  (forall b kp l g p, labelled g 2 p -> labelled g 2 (e_refine e b kp l g p)) /\
  (forall g b kp, Permutation (e_order e g b kp) (seq 0 (length g))) /\
  (forall g b kp, Permutation (e_build e g b kp) [0; 1]).

(** The labels of the bipartition of block b of kp with the induced subgraph g. *)
Definition split_of (e : rb_env) (g : lgraph) (b kp : nat) : list nat :=
  match rb_bipartition e g b kp with Some p => p | None => [] end.
