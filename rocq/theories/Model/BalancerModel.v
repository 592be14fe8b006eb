(* Model of the greedy balancer, kaminpar-shm/refinement/balancer/greedy_balancer.cc. The tasks (one per block) are executed
   by any number of threads; every access to a shared block weight or label is one step, the threads interleave arbitrarily.
   Simplifications: gains are not computed -- which node of a queue is the maximum or minimum (C28), the target block
   selected by compute_gain and whether the gain is still the expected one are chosen by the schedule (any choice is
   allowed, so every real run is covered); the gain cache (:371-373) is not updated (C17); weights are unbounded integers;
   the reduction of overload is kept per block instead of per thread (only its sum is used, :220). *)
From Verif Require Import Lib.Prelude Spec.Graph Model.BlockWeightModel.
Local Open Scope Z_scope.

Section Balancer.
Variable g : graph.
Variable k : nat.
Variables (lim perf : nat -> Z).      (* max_block_weight(b), perfectly_balanced_block_weight(b) *)

(** Where a thread is: [TFeas] filling the list of feasible target blocks (:406-416), [TLoop] at the loop condition (:154),
    [TGain] after popping [u] (:162-163), [TRand] in the loop of move_to_random_block (:384), [TMove] inside
    PartitionedGraph::move ([Some i]: called for the [i]-th feasible block), [TAdd] before add_to_pq (:202, :206),
    [TAdj] visiting the neighbours of the moved node (:195-200), [TAddN] before add_to_pq for one of them. *)
Inductive ph :=
| TIdle
| TFeas (from : nat) (over : Z) (b : nat)
| TLoop (from : nat) (over : Z)
| TGain (from : nat) (over : Z) (u : nat)
| TRand (from : nat) (over : Z) (u : nat)
| TMove (from : nat) (over : Z) (u : nat) (p : pc) (rnd : option nat)
| TAdd (from : nat) (over : Z) (u : nat)
| TAdj (from : nat) (over : Z) (vs : list nat)
| TAddN (from : nat) (over : Z) (v : nat) (vs : list nat).
Record thr := mkT { t_ph : ph; t_feas : list nat }.
Record bal := mkB { b_mem : mem; b_mark : list bool; b_pq : list (list nat); b_pqw : list Z; b_delta : list Z;
                    b_started : list bool; b_thr : list thr }.

Definition wt (m : mem) (b : nat) : Z := nth b (m_weight m) 0.
(** greedy_balancer.cc:418-426 block_overload; metrics.h:76-84 total_overload. *)
Definition overload (m : mem) (b : nat) : Z := Z.max 0 (wt m b - lim b).
Definition total_overload (m : mem) : Z := zsum (map (overload m) (seq 0 k)).

Definition set_thr (t : nat) (th : thr) (s : bal) : bal :=
  mkB (b_mem s) (b_mark s) (b_pq s) (b_pqw s) (b_delta s) (b_started s) (upd t th (b_thr s)).
Definition go (t : nat) (th : thr) (p : ph) (s : bal) : bal := set_thr t (mkT p (t_feas th)) s.
Definition set_pq (q : list (list nat)) (qw : list Z) (s : bal) : bal :=
  mkB (b_mem s) (b_mark s) q qw (b_delta s) (b_started s) (b_thr s).
Definition in_list (u : nat) (l : list nat) : bool := existsb (Nat.eqb u) l.

(** :234-257 add_to_pq. [gt]: the node with the smallest key, if the key of [u] is larger. [None]: the forest already
    contains the node (precondition of push, binary_heap.h). *)
Definition add_to_pq (b u : nat) (gt : option nat) (s : bal) : option bal :=
  if in_list u (concat (b_pq s)) then None
  else
    let q := nth b (b_pq s) [] in
    let gt := match gt with Some v => if in_list v q then Some v else None | None => None end in
    let ov := overload (b_mem s) b in
    if (nth b (b_pqw s) 0 <? ov) || (length q =? 0)%nat || (match gt with Some _ => true | None => false end) then
      let q1 := q ++ [u] in
      let w1 := nth b (b_pqw s) 0 + gvw g u in
      match gt with
      | Some v => if ov <=? w1 - gvw g v then Some (set_pq (upd b (remove Nat.eq_dec v q1) (b_pq s)) (upd b (w1 - gvw g v) (b_pqw s)) s)
                  else Some (set_pq (upd b q1 (b_pq s)) (upd b w1 (b_pqw s)) s)
      | None => Some (set_pq (upd b q1 (b_pq s)) (upd b w1 (b_pqw s)) s)
      end
    else Some s.

(** :259-328 init_pq. The weights of the thread-local queues stay 0 (pq_weight is never increased), so every node of an
    overloaded block is inserted and marked; [order] lists the nodes of all local queues in the order in which they are
    merged, block by block, with the choices of add_to_pq. *)
Fixpoint merge_pqs (order : list (nat * option nat)) (s : bal) : option bal :=
  match order with
  | [] => Some s
  | (u, gt) :: t => match add_to_pq (nth u (m_label (b_mem s)) 0%nat) u gt s with None => None | Some s' => merge_pqs t s' end
  end.
Definition init_bal (T : nat) (m : mem) (order : list (nat * option nat)) : option bal :=
  merge_pqs order
    (mkB m (map (fun u => 0 <? overload m (nth u (m_label m) 0%nat)) (seq 0 (gn g))) (repeat [] k) (repeat 0 k) (repeat 0 k)
       (repeat false k) (repeat (mkT TIdle []) T)).
(** The nodes [order] has to consist of. *)
Definition overloaded_nodes (m : mem) : list nat :=
  filter (fun u => 0 <? overload m (nth u (m_label m) 0%nat)) (seq 0 (gn g)).

(** std::swap(blocks[i], blocks.back()); blocks.pop_back() (:398-399). *)
Definition swap_pop (i : nat) (l : list nat) : list nat := removelast (upd i (last l 0%nat) l).

(** Actions: start the task of a block; the next step; pop [u]; the result of compute_gain; the index drawn at :387; the
    choice of add_to_pq. Actions that are not possible have no effect. *)
Inductive bact := BTask (from : nat) | BStep | BPop (u : nat) | BGain (to : nat) (fresh : bool) | BRand (i : nat) | BPush (gt : option nat).

Definition b_step (e : nat * bact) (s : bal) : option bal :=
  let '(t, a) := e in
  match nth_error (b_thr s) t with
  | None => Some s
  | Some th =>
      match t_ph th, a with
      | TIdle, BTask from =>                                     (* :143-147 *)
          if (from <? k)%nat && negb (nth from (b_started s) true) then
            let over := overload (b_mem s) from in
            let p := if (0 <? over) && (length (t_feas th) =? 0)%nat then TFeas from over 0 else TLoop from over in
            Some (mkB (b_mem s) (b_mark s) (b_pq s) (b_pqw s) (b_delta s) (upd from true (b_started s)) (upd t (mkT p (t_feas th)) (b_thr s)))
          else Some s
      | TFeas from over b, BStep =>                              (* :411-415 *)
          if (b <? k)%nat then
            Some (set_thr t (mkT (TFeas from over (S b)) (if wt (b_mem s) b <? perf b then t_feas th ++ [b] else t_feas th)) s)
          else Some (go t th (TLoop from over) s)
      | TLoop from over, BStep =>                                (* :154, end of the task *)
          if (0 <? over) && negb (length (nth from (b_pq s) []) =? 0)%nat then Some s else Some (go t th TIdle s)
      | TLoop from over, BPop u =>                               (* :160-164 *)
          if (0 <? over) && in_list u (nth from (b_pq s) []) then
            Some (go t th (TGain from over u)
                    (set_pq (upd from (remove Nat.eq_dec u (nth from (b_pq s) [])) (b_pq s))
                            (upd from (nth from (b_pqw s) 0 - gvw g u) (b_pqw s)) s))
          else Some s
      | TGain from over u, BGain to fresh =>                     (* :167-180, :205 *)
          if fresh then
            if (to =? from)%nat then Some (go t th (TRand from over u) s)
            else if (to <? k)%nat then Some (go t th (TMove from over u (MLoad u from to (lim to)) None) s)
            else Some s
          else Some (go t th (TAdd from over u) s)
      | TRand from over u, BRand i =>                            (* :380-404 *)
          match t_feas th with
          | [] => Some (go t th (TAdd from over u) s)
          | _ :: _ =>
              match nth_error (t_feas th) i with
              | None => Some s
              | Some b => Some (go t th (TMove from over u (MLoad u (nth u (m_label (b_mem s)) 0%nat) b (lim b)) (Some i)) s)
              end
          end
      | TMove from over u p rnd, BStep =>                        (* partitioned_graph.h:123-137, :179-197 *)
          match thread_step (gvw g) p (b_mem s) with
          | None => None
          | Some (p', m') =>
              let s' := mkB m' (b_mark s) (b_pq s) (b_pqw s) (b_delta s) (b_started s) (b_thr s) in
              match p', p with
              | Idle, WStore _ _ _ =>                            (* moved: :189-195 *)
                  let d := Z.min over (gvw g u) in
                  Some (go t th (TAdj from (over - d) (map fst (gadj g u)))
                          (mkB m' (b_mark s) (b_pq s) (b_pqw s) (upd from (nth from (b_delta s) 0 + d) (b_delta s)) (b_started s) (b_thr s)))
              | Idle, _ =>                                       (* not moved: :182-186, :202; :394-399 *)
                  match rnd with
                  | None => Some (go t th (TAdd from over u) s')
                  | Some i => Some (set_thr t (mkT (TRand from over u) (swap_pop i (t_feas th))) s')
                  end
              | _, _ => Some (go t th (TMove from over u p' rnd) s')
              end
          end
      | TAdd from over u, BPush gt =>                             (* :202, :206 *)
          match add_to_pq from u gt s with None => None | Some s' => Some (go t th (TLoop from over) s') end
      | TAdj from over vs, BStep =>                              (* :195-196 *)
          match vs with
          | [] => Some (go t th (TLoop from over) s)
          | v :: vs' =>
              if negb (nth v (b_mark s) false) && (nth v (m_label (b_mem s)) 0%nat =? from)%nat then Some (go t th (TAddN from over v vs') s)
              else Some (go t th (TAdj from over vs') s)
          end
      | TAddN from over v vs, BPush gt =>                         (* :197-198 *)
          match add_to_pq from v gt s with
          | None => None
          | Some s' => Some (go t th (TAdj from over vs)
                               (mkB (b_mem s') (upd v true (b_mark s')) (b_pq s') (b_pqw s') (b_delta s') (b_started s') (b_thr s')))
          end
      | _, _ => Some s
      end
  end.
Fixpoint b_run (es : list (nat * bact)) (s : bal) : option bal :=
  match es with
  | [] => Some s
  | e :: t => match b_step e s with None => None | Some s' => b_run t s' end
  end.
(** All tasks have been executed. *)
Definition b_finished (s : bal) : bool :=
  forallb (fun b => b) (b_started s) && forallb (fun th => match t_ph th with TIdle => true | _ => false end) (b_thr s).
(** :105-131, :462-490 refine: the value returned for initial memory [m0] when the tasks end in state [s]. *)
Definition b_returns (m0 : mem) (s : bal) : bool := total_overload m0 - zsum (b_delta s) =? 0.
End Balancer.
