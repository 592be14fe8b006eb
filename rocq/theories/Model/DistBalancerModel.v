(* The sequential round of the distributed node balancer: kaminpar-dist/refinement/balancer/reductions.h and node_balancer.cc.
   Every rank proposes nodes of overloaded blocks; a binary reduction tree merges the proposals; the root applies the survivors and
   broadcasts them. Weights are unbounded integers. Rejected proposals are marked by a flag instead of an invalid node. *)
From Verif Require Import Lib.Prelude Model.MpiModel.
From Coq Require Import QArith.
Open Scope nat_scope.

(** node_balancer.cc:38-44 Candidate. The gain is only used by the sorting routine, see [srt]. *)
Record cand := Cand { c_id : nat; c_from : nat; c_to : nat; c_w : Z; c_gain : Q }.

(** ** reductions.h:40-149: the merge of two proposals *)
Section Combine.
Variables bw mx : list Z.      (* block weights, maximum block weights *)
Variable per_block : nat.      (* max_nodes_per_block *)
Variable srt : list cand -> list cand.  (* std::sort by decreasing gain, :83-85 *)

(** :95-96, 137-138: the candidate does not overload its target. *)
Definition fits (delta : list Z) (c : cand) : option bool :=
  match nth_error bw (c_to c), nth_error delta (c_to c), nth_error mx (c_to c) with
  | Some b, Some d, Some m => Some (b + d + c_w c <=? m)%Z
  | _, _, _ => None
  end.
Definition bump (delta : list Z) (c : cand) : list Z := upd (c_to c) (nth (c_to c) delta 0 + c_w c)%Z delta.
(** :92-112. The prefix looked at (flag: accepted), the rest, the new deltas. *)
Fixpoint pick (overload : Z) (todo : list cand) (delta : list Z) (total : Z) (acc rej : nat) (done : list (bool * cand)) :
    option (list (bool * cand) * list cand * list Z * nat * nat) :=
  match todo with
  | [] => Some (done, [], delta, acc, rej)
  | c :: t =>
      match fits delta c with
      | None => None
      | Some ok =>
          if negb (c_from c =? c_to c) && negb ok then pick overload t delta total acc (S rej) (done ++ [(false, c)])
          else
            let delta' := bump delta c in
            let total' := (total + c_w c)%Z in
            if (overload <=? total')%Z || (per_block <=? S acc) then Some (done ++ [(true, c)], t, delta', S acc, rej)
            else pick overload t delta' total' (S acc) rej (done ++ [(true, c)])
      end
  end.
(** std::swap of two elements. *)
Definition swap {X} (i j : nat) (a : list X) : option (list X) :=
  match nth_error a i, nth_error a j with Some x, Some y => Some (upd j x (upd i y a)) | _, _ => None end.
(** :116-121: the loop for one [i]; with no rejected candidate left the index would be wrong. *)
Fixpoint fill (i acc rej : nat) (a : list (bool * cand)) : option (nat * list (bool * cand)) :=
  match nth_error a i with
  | None => None
  | Some (true, _) => Some (rej, a)
  | Some (false, _) =>
      match rej with
      | 0 => None
      | S r => match swap i (acc + rej - 1) a with Some a' => fill i acc r a' | None => None end
      end
  end.
(** :115-122. *)
Fixpoint compact (is : list nat) (acc rej : nat) (a : list (bool * cand)) : option (list (bool * cand)) :=
  match is with
  | [] => Some a
  | i :: t => match fill i acc rej a with Some (rej', a') => compact t acc rej' a' | None => None end
  end.
(** :64-71: the candidates at the front with this source block. *)
Fixpoint span (from : nat) (l : list cand) : list cand * list cand :=
  match l with
  | [] => ([], [])
  | c :: t => if c_from c =? from then let '(a, b) := span from t in (c :: a, b) else ([], l)
  end.
(** :73-126: one block. *)
Definition merge_block (from : nat) (l : list cand) (delta : list Z) : option (list cand * list Z) :=
  match nth_error bw from, nth_error mx from with
  | Some b, Some m =>
      match pick (b - m)%Z (srt l) delta 0%Z 0 0 [] with
      | Some (done, rest, delta', acc, rej) =>
          match compact (seq 0 acc) acc rej (done ++ map (pair true) rest) with
          | Some a => Some (firstn acc (map snd a), delta')
          | None => None
          end
      | None => None
      end
  | _, _ => None
  end.
(** :131-145. *)
Fixpoint add_remaining (l : list cand) (delta : list Z) (winners : list cand) : option (list Z * list cand) :=
  match l with
  | [] => Some (delta, winners)
  | c :: t =>
      match fits delta c with
      | None => None
      | Some ok =>
          if (c_from c =? c_to c) || ok
          then add_remaining t (if c_from c =? c_to c then delta else bump delta c) (winners ++ [c])
          else add_remaining t delta winners
      end
  end.
(** :60-151. *)
Fixpoint merge (fuel : nat) (lhs rhs : list cand) (delta : list Z) (winners : list cand) : option (list cand) :=
  match lhs, rhs with
  | a :: _, b :: _ =>
      match fuel with
      | 0 => None
      | S f =>
          let from := Nat.min (c_from a) (c_from b) in
          let '(l1, l2) := span from lhs in
          let '(r1, r2) := span from rhs in
          match merge_block from (l1 ++ r1) delta with
          | Some (ws, delta') => merge f l2 r2 delta' (winners ++ ws)
          | None => None
          end
      end
  | _, _ =>
      match add_remaining lhs delta winners with
      | Some (delta', winners') => option_map snd (add_remaining rhs delta' winners')
      | None => None
      end
  end.
Definition combine_cands (k : nat) (lhs rhs : list cand) : option (list cand) :=
  merge (length lhs + length rhs) lhs rhs (repeat 0%Z k) [].
(** The combiner on results that may have failed. *)
Definition combine_opt (k : nat) (lhs rhs : option (list cand)) : option (list cand) :=
  match lhs, rhs with Some l, Some r => combine_cands k l r | _, _ => None end.
End Combine.

(** reductions.h:37-153: what rank [r] of [P] does with its proposals. *)
Definition reduce_candidates (sy : nat -> nat -> bool) bw mx per_block srt k (P r : nat) (buf : list cand) :
    proc (option (list cand)) (option (option (list cand))) :=
  reduce_prog sy (combine_opt bw mx per_block srt k) (Some []) None P r (Some buf).

(** ** node_balancer.cc:262-288: the moves on the root *)
(** :362-408 perform_move, the block weights only. *)
Definition move_weight (bw : list Z) (c : cand) : option (list Z) :=
  if c_from c =? c_to c then Some bw
  else match nth_error bw (c_from c) with
       | Some x => let bw1 := upd (c_from c) (x - c_w c)%Z bw in
                   match nth_error bw1 (c_to c) with Some y => Some (upd (c_to c) (y + c_w c)%Z bw1) | None => None end
       | None => None
       end.
(** :356-360 perform_moves. *)
Fixpoint perform_moves (cs : list cand) (bw : list Z) : option (list Z) :=
  match cs with [] => Some bw | c :: t => match move_weight bw c with Some bw' => perform_moves t bw' | None => None end end.
(** :277-283: the next block with room. [fuel]: iterations of the loop. *)
Fixpoint next_block (fuel : nat) (mx bw : list Z) (k from : nat) (w : Z) (cur : nat) : option nat :=
  match fuel with
  | 0 => None
  | S f =>
      match nth_error bw cur, nth_error mx cur with
      | Some b, Some m => if (cur =? from) || (m <? b + w)%Z then next_block f mx bw k from w (if k <=? S cur then 0 else S cur) else Some cur
      | _, _ => None
      end
  end.
(** :271-288. *)
Fixpoint place (fuel : nat) (mx : list Z) (k : nat) (cs : list cand) (bw : list Z) (cur : nat) : option (list cand * list Z) :=
  match cs with
  | [] => Some ([], bw)
  | c :: t =>
      if c_from c =? c_to c then
        match next_block fuel mx bw k (c_from c) (c_w c) cur with
        | None => None
        | Some b =>
            let c' := Cand (c_id c) (c_from c) b (c_w c) (c_gain c) in
            match move_weight bw c' with
            | Some bw' => match place fuel mx k t bw' b with Some (t', bw'') => Some (c' :: t', bw'') | None => None end
            | None => None
            end
        end
      else match place fuel mx k t bw cur with Some (t', bw') => Some (c :: t', bw') | None => None end
  end.
(** :262-288: the candidates with their targets, the block weights of the root. Every iteration of a search loop leaves the
    weights as they are, so a search that does not end within [k] iterations does not end. *)
Definition root_moves (fuel : nat) (mx : list Z) (k : nat) (cs : list cand) (bw : list Z) : option (list cand * list Z) :=
  match perform_moves (filter (fun c => negb (c_from c =? c_to c)) cs) bw with
  | Some bw1 => place fuel mx k cs bw1 0
  | None => None
  end.

(** ** node_balancer.cc:190-235, 312-354, 446-470: the proposals of a rank in the first round, for one overloaded block *)
(** A node of the rank: weight and connection to every block. *)
Record lnode := LNode { l_id : nat; l_w : Z; l_conn : list Z }.
(** gain_calculator.h:76-123 compute_max_gainer (ties: the first block; block weights as before the round): target, connection. *)
Definition max_gainer (bw mx : list Z) (from : nat) (u : lnode) : nat * Z :=
  fold_left (fun (best : nat * Z) b =>
               let c := nth b (l_conn u) 0%Z in
               if negb (b =? from) && (nth b bw 0 + l_w u <=? nth b mx 0)%Z && (snd best <? c)%Z then (b, c) else best)
            (seq 0 (length bw)) (from, 0%Z).
(** gain_calculator.h:37-43 relative_gain, without rounding. *)
Definition rel_gain (int ext w : Z) : Q :=
  if (int <=? ext)%Z then inject_Z ((ext - int) * w) else (inject_Z (ext - int) / inject_Z w)%Q.
Definition gain_of bw mx from u : Q := rel_gain (nth from (l_conn u) 0%Z) (snd (max_gainer bw mx from u)) (l_w u).
(** The priority queue of a block: elements in any order. *)
Definition pq := list (Q * lnode).
Fixpoint remove_best (better : Q -> Q -> bool) (q : pq) : option ((Q * lnode) * pq) :=
  match q with
  | [] => None
  | e :: t => match remove_best better t with
              | None => Some (e, [])
              | Some (m, r) => if better (fst m) (fst e) then Some (m, e :: r) else Some (e, t)
              end
  end.
Definition Qlt_bool (a b : Q) : bool := negb (Qle_bool b a).
Definition pop_min := remove_best Qlt_bool.
Definition pop_max := remove_best (fun a b => Qlt_bool b a).
Definition pq_weight (q : pq) : Z := zsum (map (fun e => l_w (snd e)) q).
(** :446-470 try_pq_insertion. *)
Definition try_insert (overload : Z) (q : pq) (key : Q) (u : lnode) : pq :=
  if (pq_weight q <? overload)%Z || match pop_min q with None => true | Some (m, _) => Qlt_bool (fst m) key end then
    let q' := (key, u) :: q in
    match pop_min q' with
    | Some (m, r) => if Qlt_bool (fst m) key && (overload <=? pq_weight q' - l_w (snd m))%Z then r else q'
    | None => q'
    end
  else q.
(** :196-235 reinit; the thread-local queues hold all nodes of the block (their weights are never updated), in any order. *)
Definition build_pq bw mx from overload (nodes : list lnode) : pq :=
  fold_left (fun q u => try_insert overload q (gain_of bw mx from u) u) nodes [].
(** :312-344 pick_sequential_candidates for one block; the gains are those of the queue. *)
Fixpoint pick_from (bw mx : list Z) (from num : nat) (q : pq) : list cand :=
  match num with
  | 0 => []
  | S n => match pop_max q with
           | None => []
           | Some ((key, u), r) => Cand (l_id u) from (fst (max_gainer bw mx from u)) (l_w u) key :: pick_from bw mx from n r
           end
  end.
(** :312-354: all blocks; [nodes b]: the nodes of the rank in block [b]. *)
Definition propose (bw mx : list Z) (num : nat) (nodes : nat -> list lnode) : list cand :=
  flat_map (fun b => let o := (nth b bw 0 - nth b mx 0)%Z in
                     if (0 <? o)%Z then pick_from bw mx b num (build_pq bw mx b o (nodes b)) else []) (seq 0 (length bw)).
