(* Model of the partition extension of kaminpar-shm/partitioning/helper.cc. The sequential
   bipartitioner is an arbitrary function [bip] of the graph it is given, the absolute block and the
   current number of blocks (InitialBipartitionerWorkerPool::bipartition). *)
From Verif Require Import Lib.Prelude Spec.Induced Model.MathModel Model.PartUtilsModel Model.CsrModel Model.SubgraphModel.

Definition split_nat (v : nat) : nat * nat :=
  let (a, b) := split_integral (N.of_nat v) in (N.to_nat a, N.to_nat b).
Definition next_k (current_k k : nat) : nat := N.to_nat (compute_next_k (N.of_nat current_k) (N.of_nat k)).

(** helper.cc:168-173 copy loop: every entry equal to [cur] gets r0 or r1, depending on the side of
    the next node ([None]: the bipartition has too few nodes). *)
Fixpoint copy_labels (part : list nat) (cur r0 r1 : nat) (side : list nat) : option (list nat) :=
  match part with
  | [] => Some []
  | x :: t =>
    if x =? cur then
      match side with
      | [] => None
      | s :: side' => option_map (cons (if s =? 0 then r0 else r1)) (copy_labels t cur r0 r1 side')
      end
    else option_map (cons x) (copy_labels t cur r0 r1 side)
  end.

(** helper.cc:155-163 abs_b. *)
Definition abs_children (abs current_k k : nat) : option (nat * nat) :=
  if k <=? 2 * current_k then
    match compute_first_sub_block (N.of_nat abs) (N.of_nat current_k) (N.of_nat k) with
    | None => None
    | Some a => Some (N.to_nat a, N.to_nat a + 1)
    end
  else Some (2 * abs, 2 * abs + 1).

(** helper.cc:135-210 extend_partition_recursive. The graph is the view [v] of the subgraph memory; it
    is read at the beginning and not used after the extraction that overwrites it. [gar], [garz]:
    stale contents of the temporary arrays. *)
Fixpoint ext_rec (fuel : nat) (ub : N) (bip : lgraph -> nat -> nat -> list nat) (k gar : nat) (garz : Z)
    (mem : smem) (v : view) (part : list nat) (rel abs num current_k npos epos : nat) : option (smem * list nat) :=
  match fuel with
  | O => None
  | S f =>
    match read_view mem v with
    | None => None
    | Some g =>
      let side := bip g abs current_k in
      let (k0, k1) := split_nat num in
      match copy_labels part rel rel (rel + k0) side, abs_children abs current_k k, final_k ub abs current_k k with
      | Some part1, Some (a0, a1), Some fk =>
        let (f0, f1) := split_nat fk in
        if 2 <? num then
          match extract_sequential g side f0 f1 npos epos gar garz mem with
          | None => None
          | Some (mem1, (v0, v1)) =>
            match (if k0 <=? 1 then Some (mem1, part1)
                   else ext_rec f ub bip k gar garz mem1 v0 part1 rel a0 k0 (next_k current_k k) (v_ns v0) (v_es v0)) with
            | None => None
            | Some (mem2, part2) =>
              if k1 <=? 1 then Some (mem2, part2)
              else ext_rec f ub bip k gar garz mem2 v1 part2 (rel + k0) a1 k1 (next_k current_k k) (v_ns v1) (v_es v1)
            end
          end
        else Some (mem, part1)
      | _, _, _ => None
      end
    end
  end.

(** helper.cc:392-397: number of sub-blocks of block [b]. *)
Definition sub_k (ub : N) (b kp desired k : nat) : option nat :=
  match final_k ub b kp k with
  | None => None
  | Some f => Some (if desired =? k then f else desired / kp)
  end.

(** helper.cc:385-423 body of the loop over the blocks. State: memory, subgraph partitions. *)
Definition extend_block (ub : N) (bip : lgraph -> nat -> nat -> list nat) (kp desired k gar : nat) (garz : Z)
    (views : list view) (nst est : list nat)
    (st : option (smem * list (list nat))) (b : nat) : option (smem * list (list nat)) :=
  match st with
  | None => None
  | Some (mem, subs) =>
    match sub_k ub b kp desired k, nth_error views b, nth_error subs b with
    | Some num, Some v, Some sp =>
      if 1 <? num then
        match ext_rec num ub bip k gar garz mem v sp 0 b num kp (nth b nst 0) (nth b est 0) with
        | None => None
        | Some (mem', sp') => Some (mem', upd b sp' subs)
        end
      else Some (mem, subs)
    | _, _, _ => None
    end
  end.

(** subgraph_extractor.cc:506-515 offsets k0. *)
Definition block_offsets (ub : N) (kp desired k : nat) : option (list nat) :=
  match all_some (map (fun b => final_k ub b kp k) (seq 0 kp)) with
  | None => None
  | Some fks => Some (prefix_sum (0 :: (if desired =? k then fks else repeat (desired / kp) kp)))
  end.

(** subgraph_extractor.cc:491-532 copy_subgraph_partitions: every node reads and writes its own entry. *)
Definition copy_subgraph_partitions (part mapping offs : list nat) (subs : list (list nat)) : option (list nat) :=
  all_some (map (fun u =>
    match nth_error part u, nth_error mapping u with
    | Some b, Some s =>
      match nth_error offs b, nth_error subs b with
      | Some o, Some sp => option_map (Nat.add o) (nth_error sp s)
      | _, _ => None
      end
    | _, _ => None
    end) (seq 0 (length part))).

(** What the environment decides in one extension: the bipartitioner, the order of the fetch-adds of
    the extraction, the orders in which blocks are constructed and bipartitioned. *)
Record choice := Choice {
  c_bip : lgraph -> nat -> nat -> list nat; c_order : list nat; c_build : list nat; c_rec : list nat;
  c_gar : nat; c_garz : Z }.

(** helper.cc:368-437 extend_partition without the initial loop. *)
Definition extend_step (ub : N) (g : lgraph) (k : nat) (c : choice) (mem : smem) (part : list nat) (kp desired : nat)
  : option (smem * list nat) :=
  match extract_subgraphs ub g part kp k (c_order c) (c_build c) mem with
  | None => None
  | Some (mem1, mapping, views, nst, est) =>
    match fold_left (extend_block ub (c_bip c) kp desired k (c_gar c) (c_garz c) views nst est) (c_rec c)
                    (Some (mem1, map (fun v => repeat 0 (v_n v)) views)),
          block_offsets ub kp desired k with
    | Some (mem2, subs), Some offs =>
      option_map (pair mem2) (copy_subgraph_partitions part mapping offs subs)
    | _, _ => None
    end
  end.

(** helper.cc:350-366 (and 221-244) the initial loop: while there are more threads than blocks, extend by
    [factor] = 2^min_consecutive_seq_bipartitioning_levels only (no loop if the option is 0, modelled
    by factor = 0). The recursive call does not enter the loop again because its target is factor * k.
    [step kp target] extends from kp to target blocks. factor * k is assumed not to overflow 32 bits. *)
Fixpoint extend_loop {M} (step : nat -> nat -> M -> list nat -> option (M * list nat)) (fuel factor threads desired : nat)
    (mem : M) (part : list nat) (kp : nat) : option (M * list nat * nat) :=
  if negb (factor =? 0) && (factor * kp <? desired) && (kp <? threads) then
    match fuel with
    | O => None
    | S f =>
      match step kp (factor * kp) mem part with
      | None => None
      | Some (mem', part') => extend_loop step f factor threads desired mem' part' (factor * kp)
      end
    end
  else Some (mem, part, kp).

Definition extend_with {M} (step : nat -> nat -> M -> list nat -> option (M * list nat)) (factor threads : nat)
    (mem : M) (part : list nat) (kp desired : nat) : option (M * list nat) :=
  match extend_loop step desired factor threads desired mem part kp with
  | None => None
  | Some (mem', part', kp') => step kp' desired mem' part'
  end.

(** helper.cc:341-437 extend_partition: memory and new partition (with [desired] blocks); [choices kp] are
    the choices made when extending from kp blocks. *)
Definition extend_partition (ub : N) (g : lgraph) (k factor threads : nat) (choices : nat -> choice) :=
  extend_with (fun kp d mem part => extend_step ub g k (choices kp) mem part kp d) factor threads.

(** ** Lazy extraction (helper.cc:212-339) *)

(** :285-305 growing the thread-local memory for a block with [nn] node and [mm] edge entries. New
    arrays have unspecified contents. *)
Definition lazy_ensure (nwf ewf : bool) (nn mm : nat) (mem : smem) : smem :=
  let gn := length (sm_nodes mem) <? nn in
  let ge := length (sm_edges mem) <? mm in
  Smem (if gn then repeat 0 nn else sm_nodes mem) (if ge then repeat 0 mm else sm_edges mem)
       (if gn && nwf then repeat 0%Z nn else sm_nw mem) (if ge && ewf then repeat 0%Z mm else sm_ew mem).

(** :275-329 body of the loop over the blocks for block [b]; [mem] is the memory of the executing
    thread. *)
Definition lazy_block (ub : N) (g : lgraph) (part : list nat) (bip : lgraph -> nat -> nat -> list nat) (kp desired k gar : nat) (garz : Z)
    (mapping offs block_nodes ecnt : list nat) (b : nat) (sp : list nat) (mem : smem) : option (smem * list nat) :=
  match final_k ub b kp k, sub_k ub b kp desired k with
  | Some fk, Some num =>
    if num <=? 1 then Some (mem, sp)
    else
      let nb := nth (S b) offs 0 - nth b offs 0 in
      let mem1 := lazy_ensure (lg_is_nw g) (lg_is_ew g) (nb + fk) (nth b ecnt 0) mem in
      match extract_subgraph g part b (firstn nb (skipn (nth b offs 0) block_nodes)) mapping mem1 with
      | None => None
      | Some (mem2, v) => ext_rec num ub bip k gar garz mem2 v sp 0 b num kp 0 0
      end
  | _, _ => None
  end.

(** The loop over the blocks: block [b] is processed by thread [tid b], which uses its own memory. *)
Definition lazy_step (ub : N) (g : lgraph) (part : list nat) (bip : lgraph -> nat -> nat -> list nat) (kp desired k gar : nat) (garz : Z)
    (mapping offs block_nodes ecnt : list nat) (tid : nat -> nat)
    (st : option (list smem * list (list nat))) (b : nat) : option (list smem * list (list nat)) :=
  match st with
  | None => None
  | Some (mems, subs) =>
    match nth_error mems (tid b), nth_error subs b with
    | Some mem, Some sp =>
      match lazy_block ub g part bip kp desired k gar garz mapping offs block_nodes ecnt b sp mem with
      | None => None
      | Some (mem', sp') => Some (upd (tid b) mem' mems, upd b sp' subs)
      end
    | _, _ => None
    end
  end.

Definition extend_lazy_step (ub : N) (g : lgraph) (k : nat) (c : choice) (tid : nat -> nat) (mems : list smem)
    (part : list nat) (kp desired : nat) : option (list smem * list nat) :=
  match lazy_preprocess g part kp (c_order c) [] with
  | None => None
  | Some (mapping, offs, block_nodes, ecnt) =>
    match fold_left (lazy_step ub g part (c_bip c) kp desired k (c_gar c) (c_garz c) mapping offs block_nodes ecnt tid) (c_rec c)
                    (Some (mems, map (fun b => repeat 0 (nth (S b) offs 0 - nth b offs 0)) (seq 0 kp))),
          block_offsets ub kp desired k with
    | Some (mems', subs), Some k0 => option_map (pair mems') (copy_subgraph_partitions part mapping k0 subs)
    | _, _ => None
    end
  end.

(** helper.cc:212-339 extend_partition_lazy_extraction. *)
Definition extend_lazy (ub : N) (g : lgraph) (k factor threads : nat) (choices : nat -> choice) (tid : nat -> nat) :=
  extend_with (fun kp d mems part => extend_lazy_step ub g k (choices kp) tid mems part kp d) factor threads.
