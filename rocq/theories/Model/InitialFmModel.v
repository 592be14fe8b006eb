(* Model of kaminpar-shm/initial_partitioning/initial_fm_refiner.cc: the sequential 2-way FM refinement of initial
   bipartitions. Weights are mathematical integers.

   Simplifications: a BinaryMinHeap is the array of its keys (None = not contained); which of several minimal elements is
   at its top is an oracle (C28: the top is a minimum). The stopping policies, the random bits and the comparison of
   abort (floating point) are oracles. [None] is a violated precondition of a queue, or that a loop did not end within
   its fuel. *)
From Verif Require Import Lib.Prelude Spec.Graph.

(** What may happen in one iteration of the loop of round: the stopping policy ends the loop, the result of
    random_bool(), which of the minimal elements is at the top of the queue. *)
Record choice := mkChoice { ch_stop : bool; ch_coin : bool; ch_tie : nat }.

(** binary_heap.h: keys of the elements of a queue. *)
Definition heap := list (option Z).
Definition top_key (q : heap) : option Z :=
  fold_right (fun o m => match o, m with
                         | None, _ => m
                         | Some x, None => Some x
                         | Some x, Some y => Some (Z.min x y)
                         end) None q.
Definition is_empty (q : heap) : bool := match top_key q with None => true | Some _ => false end.
Definition is_top (q : heap) (u : nat) : bool :=
  match nth u q None, top_key q with Some x, Some m => Z.eqb x m | _, _ => false end.
(** peek_id, peek_key: some element with the minimal key. *)
Definition peek (tie : nat) (q : heap) : option (nat * Z) :=
  match filter (is_top q) (seq 0 (length q)), top_key q with
  | t :: ts, Some m => Some (nth (tie mod length (t :: ts)) (t :: ts) 0, m)
  | _, _ => None
  end.
(** push: the element must not be contained yet and within the capacity. *)
Definition push (u : nat) (x : Z) (q : heap) : option heap :=
  match nth_error q u with Some None => Some (upd u (Some x) q) | _ => None end.
(** pop, remove. *)
Definition remove (u : nat) (q : heap) : heap := upd u None q.

Section InitialFm.
Variable g : graph.
Variables limit perfect : nat -> Z.   (* _p_ctx.max_block_weight, perfectly_balanced_block_weight *)

(** :406-415 init_weighted_degrees. *)
Definition init_weighted_degrees : list Z := map (fun u => zsum (map snd (gadj g u))) (seq 0 (gn g)).

(** metrics.h:75-84 total_overload, for two blocks. *)
Definition total_overload (bw : list Z) : Z :=
  zsum (map (fun b => Z.max 0 (nth b bw 0%Z - limit b)) (seq 0 2)).

(** partitioned_graph.h:152-165 set_block, of a node that has a block. *)
Definition set_block (u to : nat) (lab : list nat) (bw : list Z) : list nat * list Z :=
  let from := nth u lab 0 in
  let w := gvw g u in
  let bw1 := upd from (nth from bw 0 - w)%Z bw in
  (upd u to lab, upd to (nth to bw1 0 + w)%Z bw1).

(** :394-404 compute_gain_from_scratch. *)
Definition gain_from_scratch (wd : list Z) (lab : list nat) (u : nat) : Z :=
  let ext := zsum (map (fun e => if nth (fst e) lab 0 =? nth u lab 0 then 0%Z else snd e) (gadj g u)) in
  let int := (nth u wd 0 - ext)%Z in
  (int - ext)%Z.

(** :383-391 insert_node. *)
Definition insert_node (wd : list Z) (lab : list nat) (u : nat) (qs : list heap) : option (list heap) :=
  let gain := gain_from_scratch wd lab u in
  let b := nth u lab 0 in
  if (nth u wd 0 =? gain)%Z then Some qs
  else match push u gain (nth b qs []) with Some q => Some (upd b q qs) | None => None end.

(** :349-378 init_pq: the order in which the nodes are visited, chunk by chunk ([chunks] is the shuffled array of chunk
    numbers, [perms] the random permutation used for each of them), and the insertions. *)
Definition kChunkSize : nat := 64.
Definition visit_order (chunks : list nat) (perms : list (list nat)) : list nat :=
  concat (map (fun cp => filter (fun u => u <? gn g) (map (fun i => fst cp * kChunkSize + i) (snd cp)))
              (combine chunks perms)).
Fixpoint insert_all (wd : list Z) (lab : list nat) (ord : list nat) (qs : list heap) : option (list heap) :=
  match ord with
  | [] => Some qs
  | u :: r => match insert_node wd lab u qs with Some qs' => insert_all wd lab r qs' | None => None end
  end.
Definition empty_queues : list heap := [repeat None (gn g); repeat None (gn g)].
Definition init_pq (wd : list Z) (lab : list nat) (chunks : list nat) (perms : list (list nat)) : option (list heap) :=
  insert_all wd lab (visit_order chunks perms) empty_queues.

(** :80-91 MaxWeightSelectionPolicy; :94-112 MaxGainSelectionPolicy ([None] = maximum of the type); :114-131
    MaxOverloadSelectionPolicy. *)
Definition max_weight_policy (bw : list Z) (coin : bool) : nat :=
  let w0 := (nth 0 bw 0 - perfect 0)%Z in
  let w1 := (nth 1 bw 0 - perfect 1)%Z in
  if (w0 <? w1)%Z || ((w0 =? w1)%Z && coin) then 1 else 0.
Definition max_gain_policy (bw : list Z) (qs : list heap) (coin : bool) : nat :=
  match top_key (nth 0 qs []), top_key (nth 1 qs []) with
  | Some l0, Some l1 => if (l0 =? l1)%Z then max_weight_policy bw coin else if (l1 <? l0)%Z then 1 else 0
  | Some _, None => 0
  | None, Some _ => 1
  | None, None => max_weight_policy bw coin
  end.
Definition max_overload_policy (bw : list Z) (qs : list heap) (coin : bool) : nat :=
  let o0 := Z.max 0 (nth 0 bw 0 - limit 0)%Z in
  let o1 := Z.max 0 (nth 1 bw 0 - limit 1)%Z in
  if (o0 =? 0)%Z && (o1 =? 0)%Z then max_gain_policy bw qs coin
  else if (o0 <? o1)%Z || ((o1 =? o0)%Z && coin) then 1 else 0.

(** The state of round: partition, block weights, queues, _marker, _moves, current_delta, current_overload,
    accepted_delta, accepted_overload. *)
Record rstate := mkR { r_lab : list nat; r_bw : list Z; r_qs : list heap; r_mark : list bool; r_moves : list nat;
                       r_cur : Z; r_curo : Z; r_acc : Z; r_acco : Z }.

(** :288-312: the update for one neighbour [v] of a node that was moved to [to]. *)
Definition update_neighbor (wd : list Z) (lab : list nat) (mark : list bool) (to : nat) (qs : list heap)
  (e : nat * Z) : option (list heap) :=
  let (v, w) := e in
  if nth v mark false then Some qs
  else
    let vb := nth v lab 0 in
    let q := nth vb qs [] in
    let loss_delta := (2 * w * (if Nat.eqb to vb then 1 else -1))%Z in
    match nth v q None with
    | Some key =>
        let new_loss := (key + loss_delta)%Z in
        if (new_loss <? nth v wd 0)%Z then Some (upd vb (upd v (Some new_loss) q) qs)
        else Some (upd vb (remove v q) qs)
    | None => match push v (nth v wd 0 + loss_delta)%Z q with
              | Some q' => Some (upd vb q' qs)
              | None => None
              end
    end.
Fixpoint update_neighbors (wd : list Z) (lab : list nat) (mark : list bool) (to : nat) (qs : list heap)
  (l : list (nat * Z)) : option (list heap) :=
  match l with
  | [] => Some qs
  | e :: r => match update_neighbor wd lab mark to qs e with
              | Some qs' => update_neighbors wd lab mark to qs' r
              | None => None
              end
  end.

(** :262-323: one iteration of the loop: select a queue (:261-264), move its top (:267-284), update the neighbours
    (:287-312), BalancedMinCutAcceptancePolicy (:135-147, :315-323). *)
Definition fm_step (wd : list Z) (c : choice) (s : rstate) : option rstate :=
  let active := max_overload_policy (r_bw s) (r_qs s) (ch_coin c) in
  let active := if is_empty (nth active (r_qs s) []) then 1 - active else active in
  match peek (ch_tie c) (nth active (r_qs s) []) with
  | None => None
  | Some (u, delta) =>
      let from := active in
      let to := 1 - from in
      let mark := upd u true (r_mark s) in
      let qs := upd active (remove u (nth active (r_qs s) [])) (r_qs s) in
      let (lab, bw) := set_block u to (r_lab s) (r_bw s) in
      let cur := (r_cur s + delta)%Z in
      let moves := r_moves s ++ [u] in
      let curo := total_overload bw in
      match update_neighbors wd lab mark to qs (gadj g u) with
      | None => None
      | Some qs' =>
          if (curo <=? r_acco s)%Z && (cur <? r_acc s)%Z
          then Some (mkR lab bw qs' mark [] cur curo cur curo)
          else Some (mkR lab bw qs' mark moves cur curo (r_acc s) (r_acco s))
      end
  end.

(** :258: the loop; [orc i] are the choices of iteration [i]. *)
Fixpoint fm_loop (fuel : nat) (wd : list Z) (orc : nat -> choice) (i : nat) (s : rstate) : option rstate :=
  if (is_empty (nth 0 (r_qs s) []) && is_empty (nth 1 (r_qs s) [])) || ch_stop (orc i) then Some s
  else match fuel with
       | 0 => None
       | S f => match fm_step wd (orc i) s with Some s' => fm_loop f wd orc (S i) s' | None => None end
       end.

(** :325-328: rollback. *)
Fixpoint rollback (moves : list nat) (lab : list nat) (bw : list Z) : list nat * list Z :=
  match moves with
  | [] => (lab, bw)
  | u :: r => let (lab', bw') := set_block u (1 - nth u lab 0) lab bw in rollback r lab' bw'
  end.

(** What one round depends on besides the bipartition: the visiting order of init_pq and the choices of the loop. *)
Record rchoice := mkRC { rc_chunks : list nat; rc_perms : list (list nat); rc_orc : nat -> choice }.

(** :221-343 round. *)
Definition fm_round (wd : list Z) (rc : rchoice) (lab : list nat) (bw : list Z) : option (list nat * list Z * Z) :=
  match init_pq wd lab (rc_chunks rc) (rc_perms rc) with
  | None => None
  | Some qs =>
      let o := total_overload bw in
      match fm_loop (gn g) wd (rc_orc rc) 0 (mkR lab bw qs (repeat false (gn g)) [] 0 o 0 o) with
      | None => None
      | Some s => let (lab', bw') := rollback (r_moves s) (r_lab s) (r_bw s) in Some (lab', bw', r_acc s)
      end
  end.

(** metrics.h:41-58 edge_cut_seq: every cut edge is found from both sides, the result is halved. *)
Definition edge_cut_seq (lab : list nat) : Z :=
  Z.div (zsum (map (fun u => zsum (map (fun e => if nth u lab 0 =? nth (fst e) lab 0 then 0%Z else snd e) (gadj g u)))
                   (seq 0 (gn g)))) 2.

(** :199-208: the further rounds; [it] is the number of iterations left, [abt i] the result of abort. *)
Fixpoint more_rounds (wd : list Z) (rcs : nat -> rchoice) (abt : nat -> bool) (left it : nat) (lab : list nat) (bw : list Z)
  (cur : Z) : option (list nat * list Z * Z) :=
  match left with
  | 0 => Some (lab, bw, cur)
  | S l =>
      if (0 <? cur)%Z && negb (abt it)
      then match fm_round wd (rcs it) lab bw with
           | None => None
           | Some (lab', bw', d) => more_rounds wd rcs abt l (S it) lab' bw' (cur + d)%Z
           end
      else Some (lab, bw, cur)
  end.

(** :177-211 refine, with num_iterations = [iters]; the weighted degrees are set up by init. *)
Definition fm_refine (iters : nat) (rcs : nat -> rchoice) (abt : nat -> bool) (lab : list nat) (bw : list Z)
  : option (list nat * list Z * bool) :=
  let wd := init_weighted_degrees in
  if iters =? 1
  then match fm_round wd (rcs 0) lab bw with Some (lab', bw', _) => Some (lab', bw', false) | None => None end
  else
    let initial := edge_cut_seq lab in
    if (initial =? 0)%Z then Some (lab, bw, false)
    else match fm_round wd (rcs 0) lab bw with
         | None => None
         | Some (lab1, bw1, d) =>
             match more_rounds wd rcs abt (iters - 1) 1 lab1 bw1 (initial + d)%Z with
             | None => None
             | Some (lab', bw', cur) => Some (lab', bw', (cur <? initial)%Z)
             end
         end.
End InitialFm.
