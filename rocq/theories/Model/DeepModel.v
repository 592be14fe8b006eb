(* Model of the uncoarsening of the deep multilevel partitioner
   (kaminpar-shm/partitioning/deep/deep_multilevel.cc). The refinement algorithms and the bipartitioner
   are arbitrary functions; initial partitioning modes other than COMMUNITIES. *)
From Verif Require Import Lib.Prelude Spec.Induced Model.MathModel Model.PartUtilsModel Model.SubgraphModel Model.ExtendModel.

(** One level of the hierarchy: the finer graph and the mapping of its nodes to the coarser nodes. *)
Record level := Level { lv_g : lgraph; lv_map : list nat }.

(** partition_utils.cc:92-100. *)
Definition k_for_n (n c k : nat) : option nat :=
  option_map N.to_nat (compute_k_for_n (N.of_nat n) (N.of_nat c) (N.of_nat k)).

(** coarsener->uncoarsen: project the partition to the finer graph ([None]: out of bounds). *)
Definition project (part map : list nat) : option (list nat) := all_some (List.map (nth_error part) map).

Section Deep.
Context {M : Type}.
(** extend_partition (deep_multilevel.cc:352-412): level of the graph, graph, memory, partition, current
    and desired number of blocks. *)
Variable ext : nat -> lgraph -> M -> list nat -> nat -> nat -> option (M * list nat).
(** The refinement at a level (phase 0: after projection, 1: after extension, 2 and 3: toplevel). *)
Variable refine : nat -> nat -> lgraph -> nat -> list nat -> list nat.
Variables (c k : nat) (refine_after : bool).

(** State: graph, memory, partition, number of blocks, flag [refined]. [lvl] is the coarsener level after
    the uncoarsening step. The last component records the block counts. *)
Definition dstate : Type := lgraph * M * list nat * nat * bool * list nat.

(** deep_multilevel.cc:269-291 one iteration of the uncoarsening loop. *)
Definition uncoarsen_step (lvl : nat) (lv : level) (st : dstate) : option dstate :=
  let '(_, mem, part, kp, _, tr) := st in
  match project part (lv_map lv) with
  | None => None
  | Some part1 =>
    let g := lv_g lv in
    let part2 := refine lvl 0 g kp part1 in
    match k_for_n (length g) c k with
    | None => None
    | Some desired =>
      if kp <? desired then
        match ext lvl g mem part2 kp desired with
        | None => None
        | Some (mem', part3) =>
          Some (g, mem', if refine_after then refine lvl 1 g desired part3 else part3, desired, refine_after, desired :: tr)
        end
      else Some (g, mem, part2, kp, true, tr)
    end
  end.

(** :267-291 the loop; [lvs] lists the levels from the coarsest to the finest. *)
Fixpoint uncoarsen_loop (lvs : list level) (st : dstate) : option dstate :=
  match lvs with
  | [] => Some st
  | lv :: rest =>
    match uncoarsen_step (length rest) lv st with
    | None => None
    | Some st' => uncoarsen_loop rest st'
    end
  end.

(** :265-314 uncoarsen. *)
Definition uncoarsen (lvs : list level) (g0 : lgraph) (mem0 : M) (part0 : list nat) (kp0 : nat) : option dstate :=
  match uncoarsen_loop lvs (g0, mem0, part0, kp0, false, [kp0]) with
  | None => None
  | Some (g, mem, part, kp, refined, tr) =>
    let part1 := if refined then part else refine 0 2 g kp part in
    if kp <? k then
      match ext 0 g mem part1 kp k with
      | None => None
      | Some (mem', part2) => Some (g, mem', refine 0 3 g k part2, k, true, k :: tr)
      end
    else Some (g, mem, part1, kp, true, tr)
  end.
End Deep.

(** ** Block counts of parallel initial partitioning *)

(** partition_utils.cc:102-123 compute_num_copies. ceil(log2(1.0 * n / C)) is modelled by the smallest e
    with n <= C * 2^e ([None]: C = 0, or shift by 31 or more). *)
Definition num_copies (c n : nat) (converged : bool) (threads : nat) : option nat :=
  if converged || (n <=? 2 * c) then Some threads
  else if c =? 0 then None
  else
    let e := N.log2_up ((N.of_nat n + N.of_nat c - 1) / N.of_nat c) in
    if (31 <=? e)%N then None
    else
      let f := 2 ^ N.to_nat e in
      if threads <? f then Some 1 else Some (threads / f).

(** async_initial_partitioning.cc:32-79: the number of blocks of the result of partition_recursive with
    [t] threads on a graph whose coarsenings have the sizes [ns] (size of the graph itself first; each
    further level with the flag whether the coarsening converged). *)
Definition async_threads (c n : nat) (converged : bool) (t : nat) : option nat :=
  match num_copies c n converged t with
  | None => None
  | Some 0 => None
  | Some copies => Some (t / copies)
  end.
Fixpoint async_k (fuel c k : nat) (sizes : nat -> nat) (conv : nat -> bool) (depth t : nat) : option nat :=
  match fuel with
  | O => None
  | S f =>
    if t =? 1 then Some 2
    else
      match async_threads c (sizes (S depth)) (conv (S depth)) t with
      | None => None
      | Some t' =>
        match async_k f c k sizes conv (S depth) t', k_for_n (sizes depth) c k with
        | Some kc, Some kn =>
          let kp := Nat.min k (Nat.max kn t) in
          Some (if kc <? kp then kp else kc)
        | _, _ => None
        end
      end
  end.

(** ** The preallocated subgraph memory (use_lazy_subgraph_memory = false) *)

(** deep_multilevel.cc:69-158 coarsen: [sizes] lists (n, m) of the input graph and of all coarse graphs.
    Result: n, m, n for weights, m for weights, _last_initial_partitioning_level. *)
Fixpoint plan_search (c k : nat) (nw ew : bool) (lvl : nat) (prev : nat * nat) (rest : list (nat * nat))
  : option (nat * nat * nat * nat * nat) :=
  match rest with
  | [] => Some (fst prev, snd prev, fst prev, snd prev, 0)
  | cur :: rest' =>
    match k_for_n (fst cur) c k with
    | None => None
    | Some kc =>
      if kc <? k then
        Some (fst prev, snd prev,
              (if (lvl =? 1) && negb nw then fst cur else fst prev),
              (if (lvl =? 1) && negb ew then snd cur else snd prev), lvl - 1)
      else
        match rest' with
        | [] => Some (fst prev, snd prev, fst prev, snd prev, 0)
        | _ => plan_search c k nw ew (S lvl) cur rest'
        end
    end
  end.

(** subgraph_extractor.h:73-84 weighted_resize. *)
Definition weighted_resize (n k m nw mw : nat) : smem :=
  Smem (repeat 0 (n + k)) (repeat 0 m) (repeat 0%Z (if nw =? 0 then 0 else nw + k)) (repeat 0%Z mw).
Definition free_smem : smem := Smem [] [] [] [].

(** deep_multilevel.cc:388-407: extension with the preallocated memory, which is freed after an extension
    on level [last]. *)
Definition ext_prealloc (ub : N) (k factor threads last : nat) (choices : nat -> lgraph -> nat -> choice)
    (lvl : nat) (g : lgraph) (mem : smem) (part : list nat) (kp desired : nat) : option (smem * list nat) :=
  match extend_partition ub g k factor threads (choices lvl g) mem part kp desired with
  | None => None
  | Some (mem', part') => Some (if lvl =? last then free_smem else mem', part')
  end.

(** :378-387 lazy extraction; all thread-local memories are cleared after an extension on level [last]. *)
Definition ext_lazy (ub : N) (k factor threads last nthreads : nat) (choices : nat -> lgraph -> nat -> choice) (tid : nat -> nat)
    (lvl : nat) (g : lgraph) (mems : list smem) (part : list nat) (kp desired : nat) : option (list smem * list nat) :=
  match extend_lazy ub g k factor threads (choices lvl g) tid mems part kp desired with
  | None => None
  | Some (mems', part') => Some (if lvl =? last then repeat free_smem nthreads else mems', part')
  end.
