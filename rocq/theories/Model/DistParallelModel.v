(* The parallel round of the distributed node balancer: kaminpar-dist/refinement/balancer/node_balancer.cc:474-720.
   All ranks; block weights and limits are known to all of them (the same arrays), the all-reduces are sums. Weights are unbounded integers; probabilities are exact.
   The buckets decide which nodes of the priority queues are taken: any choice. Target blocks: any choice (they come from an earlier computation
   of gains). The messages that tell the other ranks about moved nodes (:683-708) and the update of the queues are not modelled. *)
From Verif Require Import Lib.Prelude.
From Coq Require Import QArith.
Open Scope nat_scope.

(** What a rank has: the weights and blocks of its nodes; the nodes in its queue of every block, in the order in which they are stored; target blocks;
    the result of :567 for every node. *)
Record prank := Prank { pr_w : list Z; pr_blk : list nat; pr_pq : list (list nat); pr_target : list nat; pr_take : list bool }.
(** :568-574, with local instead of global node numbers. *)
Record pcand := Pcand { pc_node : nat; pc_from : nat; pc_to : nat; pc_w : Z }.

Section Round.
Variables (k : nat) (bw mx : list Z).
(** :414-432. *)
Definition p_overload (b : nat) : Z := Z.max 0 (nth b bw 0 - nth b mx 0)%Z.
Definition p_underload (b : nat) : Z := Z.max 0 (nth b mx 0 - nth b bw 0)%Z.
Definition add_at (b : nat) (w : Z) (l : list Z) : list Z := upd b (nth b l 0 + w)%Z l.
(** :709-720 assign_feasible_target_block: the next block that has room, or [from] itself. *)
Fixpoint feasible (fuel from to : nat) (w : Z) (dto : list Z) : nat :=
  let to' := if S to =? k then 0 else S to in
  if negb (from =? to') && (p_underload to' <? w + nth to' dto 0)%Z
  then match fuel with 0 => to' | S f => feasible f from to' w dto end else to'.
(** :535-597, the nodes in the queue of block [from]: weights to the blocks, weight taken from [from], candidates. *)
Fixpoint find_block (r : prank) (from : nat) (els : list nat) (dto : list Z) (dfrom : Z) (out : list pcand) : list Z * list pcand :=
  match els with
  | [] => (dto, out)
  | u :: t =>
    if (p_overload from <=? dfrom)%Z then (dto, out)
    else if nth u (pr_take r) false then
      let w := nth u (pr_w r) 0%Z in
      let t0 := nth u (pr_target r) 0 in
      let to := if from =? t0 then feasible k from t0 w dto else t0 in
      find_block r from t (add_at to w dto) (dfrom + w)%Z (out ++ [Pcand u from to w])
    else find_block r from t dto dfrom out
  end.
(** :534. *)
Definition find_candidates (r : prank) : list Z * list pcand :=
  fold_left (fun s b => find_block r b (nth b (pr_pq r) []) (fst s) 0%Z (snd s)) (seq 0 k) (repeat 0%Z k, []).
Definition sum_lists (ls : list (list Z)) : list Z := map (fun b => zsum (map (fun l => nth b l 0%Z) ls)) (seq 0 k).

(** random.h:50-52 with the probability of :630-631 ([x / 0] is infinite, [0 / 0] is not a number): the random number [q] is at most underload / total. *)
Definition accepts (total : list Z) (c : pcand) (q : Q) : bool :=
  let t := nth (pc_to c) total 0%Z in
  if (t =? 0)%Z then (0 <? p_underload (pc_to c))%Z else Qle_bool (q * inject_Z t) (inject_Z (p_underload (pc_to c))).
Definition swap_at (i j : nat) (l : list pcand) : list pcand := match nth_error l i, nth_error l j with Some x, Some y => upd i y (upd j x l) | _, _ => l end.
(** :628-640: rejected candidates are swapped to the end; [q]: the random numbers. The candidates, how many are rejected, the changes of the block weights. *)
Fixpoint dice (fuel : nat) (total : list Z) (q : nat -> Q) (cs : list pcand) (i rej : nat) (delta : list Z) : list pcand * nat * list Z :=
  match fuel with
  | 0 => (cs, rej, delta)
  | S f =>
    if i <? length cs - rej then
      match nth_error cs i with
      | None => (cs, rej, delta)
      | Some c =>
        if accepts total c (q 0) then dice f total (fun n => q (S n)) cs (S i) rej (add_at (pc_from c) (- pc_w c)%Z (add_at (pc_to c) (pc_w c) delta))
        else dice f total (fun n => q (S n)) (swap_at i (length cs - S rej) cs) i (S rej) delta
      end
    else (cs, rej, delta)
  end.
(** :652-659. *)
Definition balanced (delta : list Z) : bool := forallb (fun b => negb ((p_overload b =? 0)%Z && (p_underload b <? nth b delta 0)%Z)) (seq 0 k).
(** :621-660: the attempts; the random numbers of every attempt and rank. Returns the accepted candidates of every rank, the changes, and whether they are balanced. *)
Definition attempt (total : list Z) (q : nat -> nat -> Q) (css : list (list pcand)) : list (list pcand * nat * list Z) :=
  map (fun r => let cs := nth r css [] in dice (length cs) total (q r) cs 0 0 (repeat 0%Z k)) (seq 0 (length css)).
Fixpoint attempts (n : nat) (total : list Z) (qs : nat -> nat -> nat -> Q) (css : list (list pcand)) : list (list pcand) * list Z * bool :=
  let res := attempt total (qs 0) css in
  let delta := sum_lists (map snd res) in
  let stop := (map (fun x => firstn (length (fst (fst x)) - snd (fst x)) (fst (fst x))) res, delta, balanced delta) in
  match n with
  | S n' => if balanced delta then stop else attempts n' total (fun a => qs (S a)) (map (fun x => fst (fst x)) res)
  | 0 => stop
  end.
(** :372-410 perform_move on the rank that has the node. *)
Definition perform (blk : list nat) (cs : list pcand) : list nat := fold_left (fun b c => if pc_from c =? pc_to c then b else upd (pc_node c) (pc_to c) b) cs blk.
(** The rest of the round, after the candidates are found: [Some] the new block weights and the new blocks of all ranks, or [None] if it has stalled
    and nothing is changed. [tries]: par_num_dicing_attempts, [accept]: par_accept_imbalanced_moves. *)
Definition apply_round (found : list (list Z * list pcand)) (tries : nat) (accept : bool) (qs : nat -> nat -> nat -> Q) (ranks : list prank) : option (list Z * list (list nat)) :=
  let total := sum_lists (map fst found) in
  let '(acc, delta, ok) := attempts (Nat.max 1 tries - 1) total qs (map snd found) in
  if ok || accept then Some (map (fun b => (nth b bw 0 + nth b delta 0)%Z) (seq 0 k), map (fun x => perform (pr_blk (fst x)) (snd x)) (combine ranks acc)) else None.
Definition parallel_round (tries : nat) (accept : bool) (qs : nat -> nat -> nat -> Q) (ranks : list prank) := apply_round (map find_candidates ranks) tries accept qs ranks.

(** ** cluster_balancer.cc:462-568: the same for clusters of nodes instead of nodes.
    What a rank has: weights, blocks and connections (to every block) of its clusters; not moved before and in a bucket below the cut-off (any choice). *)
Record crank := Crank { cr_w : list Z; cr_blk : list nat; cr_conn : list (list Z); cr_take : list bool }.
(** clusters.h:180-199 find_max_conn: the best block with room, the first of them. [None]: kInvalidBlockID; the assertion at :196 is of level normal, the default level is light (CMakeLists.txt:88).
    The best connection so far is [-1] instead of the smallest integer, connections are not negative. *)
Definition max_conn (conn : list Z) (from : nat) (w : Z) : option nat :=
  snd (fold_left (fun s b => if negb (b =? from) && (fst s <? nth b conn 0)%Z && (nth b bw 0 + w <=? nth b mx 0)%Z then (nth b conn 0%Z, Some b) else s) (seq 0 k) ((-1)%Z, None)).
Definition target_of (r : crank) (c : nat) : option nat := max_conn (nth c (cr_conn r) []) (nth c (cr_blk r) 0) (nth c (cr_w r) 0%Z).
(** The clusters with their targets; the target [0] of a cluster without one is not used, see [cluster_round]. *)
Definition with_targets (r : crank) : prank :=
  Prank (cr_w r) (cr_blk r) [] (map (fun c => match target_of r c with Some b => b | None => 0 end) (seq 0 (length (cr_w r)))) (cr_take r).
(** :467-500. The weight is counted for the target before the reassignment at :489-493 (the node balancer counts it for the target after it). *)
Definition is_picked (r : prank) (c : nat) : bool := let from := nth c (pr_blk r) 0 in (0 <? p_overload from)%Z && nth c (pr_take r) false.
Definition cluster_step (r : prank) (s : list Z * list pcand) (c : nat) : list Z * list pcand :=
  if is_picked r c then
    let from := nth c (pr_blk r) 0 in
    let w := nth c (pr_w r) 0%Z in
    let t0 := nth c (pr_target r) 0 in
    let to := if t0 =? from then feasible k from t0 w (fst s) else t0 in
    (add_at t0 w (fst s), snd s ++ [Pcand c from to w])
  else s.
Definition find_clusters (r : prank) : list Z * list pcand := fold_left (cluster_step r) (seq 0 (length (pr_w r))) (repeat 0%Z k, []).
(** [Undefined]: the array of :495 is accessed at kInvalidBlockID. *)
Inductive outcome := Undefined | Stalled | Done (bw' : list Z) (blks' : list (list nat)).
Definition no_target (r : crank) : bool :=
  existsb (fun c => is_picked (with_targets r) c && match target_of r c with Some _ => false | None => true end) (seq 0 (length (cr_w r))).
Definition cluster_round (tries : nat) (accept : bool) (qs : nat -> nat -> nat -> Q) (ranks : list crank) : outcome :=
  if existsb no_target ranks then Undefined else
  match apply_round (map find_clusters (map with_targets ranks)) tries accept qs (map with_targets ranks) with
  | Some (bw', blks') => Done bw' blks'
  | None => Stalled
  end.
End Round.
