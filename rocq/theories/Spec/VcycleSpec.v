(* Specification of restricted v-cycles. *)
From Verif Require Import Lib.Prelude Spec.Induced Spec.Level Spec.ExtendSpec Model.SubgraphModel Model.DeepModel Model.VcycleModel.

(** Total weight of the edges between different blocks (every edge is counted from both sides). *)
Definition lg_cut (g : lgraph) (part : list nat) : Z :=
  zsum (map (fun u => zsum (map (fun e => if nth u part 0 =? nth (fst e) part 0 then 0%Z else snd e) (lg_adj g u))) (seq 0 (length g))).

(** The coarsening steps lead from the graph with the communities [comm] to [gc]: mappings are onto the coarse nodes, all
    nodes store, and nodes that are merged belong to the same community. *)
Fixpoint steps_ok (gc : lgraph) (comm : list nat) (steps : list cstep) : Prop :=
  match steps with
  | [] => length comm = length gc
  | st :: rest =>
      length comm = length (c_g st) /\ length (c_map st) = length (c_g st) /\
      c_nc st = match rest with [] => length gc | st' :: _ => length (c_g st') end /\
      (forall x, In x (c_map st) -> x < c_nc st) /\ (forall x, x < c_nc st -> In x (c_map st)) /\
      Permutation (c_stores st) (seq 0 (length (c_g st))) /\
      (forall u v, u < length (c_g st) -> v < length (c_g st) -> nth u (c_map st) 0 = nth v (c_map st) 0 -> nth u comm 0 = nth v comm 0) /\
      steps_ok gc (project_down st comm) rest
  end.

(** The refinement on every level is an execution of the restricted label propagation. *)
Definition restricted (steps : list cstep) (gc : lgraph) (comm : list nat) (inner : nat -> nat -> lgraph -> nat -> list nat -> list nat) : Prop :=
  forall lvl ph kp part, lvl <= length steps ->
    let g := nth lvl (map c_g steps) gc in
    labelled g kp part -> exists h, restricted_run g (nth lvl (comm_levels comm steps) []) part h (inner lvl ph g kp part).

(** Further cycles on the input graph [g], the first of them with [ck] communities: block counts are admissible (the
    communities of a cycle are a power of two or as many as its blocks), and every coarsening, refinement and memory is as
    in a single cycle, whatever the communities are. *)
Fixpoint cycles_ok (c : nat) (g : lgraph) (cycles : list (cycle (list smem))) (ck : nat) : Prop :=
  match cycles with
  | [] => True
  | cy :: rest =>
      2 <= cy_k cy /\ (N.of_nat (cy_k cy) < 2 ^ 31)%N /\ level_ok ck (cy_k cy) /\
      (exists ub factor threads last_lvl nthreads choices tid,
         cy_ext cy = ext_lazy ub (cy_k cy) factor threads last_lvl nthreads choices tid /\ (factor = 0 \/ exists j, 1 <= j /\ factor = 2 ^ j) /\
         (forall lvl g kp, choice_ok g kp (choices lvl g kp)) /\ (forall b, tid b < nthreads) /\
         (forall comm, length (cy_mem cy comm) = nthreads)) /\
      (forall comm, labelled g ck comm ->
         (forall m, In m (cy_mem cy comm) -> lazy_mem_ok (lg_is_nw (cy_gc cy comm)) (lg_is_ew (cy_gc cy comm)) m) /\
         lg_ok (cy_gc cy comm) /\ levels_ok c weights_carry (cy_gc cy comm) (rev (map level_of (cy_steps cy comm))) /\
         nth 0 (map c_g (cy_steps cy comm)) (cy_gc cy comm) = g /\
         steps_ok (cy_gc cy comm) comm (cy_steps cy comm) /\ restricted (cy_steps cy comm) (cy_gc cy comm) comm (cy_inner cy comm)) /\
      cycles_ok c g rest (cy_k cy)
  end.
