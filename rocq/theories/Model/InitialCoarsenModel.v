(* Model of kaminpar-shm/initial_partitioning/initial_coarsener.{h,cc} (sequential label propagation that is interleaved
   with the contraction) and of the coarsening loop of initial_multilevel_bipartitioner.cc. Weights are mathematical
   integers, except for the bit-field of a cluster that holds its weight.

   Simplifications: the order in which the first label propagation visits nodes, random bits and the (floating point)
   convergence test are oracles; arrays that hold more than one graph needs are modelled by the part that is used, unless
   old contents are read ([_clustering], [_cluster_nodes]). [None] is an access outside of an array, a violated KASSERT, a
   modification of a vector while it is traversed, or that a loop did not end within its fuel. *)
From Verif Require Import Lib.Prelude Spec.Graph Spec.RatingMap Model.RatingMapModel Model.VarintModel.

(** initial_coarsener.h:53-58 Cluster. *)
Record cluster := mkCl { cl_locked : bool; cl_weight : Z; cl_leader : nat }.
Definition dcl : cluster := mkCl false 0 0.

Section Coarsener.
Variable bits : Z.    (* width of the bit-field: numeric_limits<NodeWeight>::digits - 1 *)
Variable limit : Z.   (* max_cluster_weight *)

(** initial_coarsener.h:92-103 (weighted) and .cc:431-440 (unweighted) reset_current_clustering: the first [n] entries. *)
Definition reset_clustering (n : nat) (weight : nat -> Z) (cl : list cluster) : list cluster :=
  map (fun u => mkCl false (wrap_s bits (weight u)) u) (seq 0 n) ++ skipn n cl.

(** _rating_map[_clustering[v].leader] += w. *)
Definition rate (cl : list cluster) (rm : fra) (v : nat) (w : Z) : option fra :=
  match nth_error cl v with
  | Some k => if cl_leader k <? length (fa_data rm) then Some (fra_modify rm (cl_leader k) (fun x => (x + w)%Z)) else None
  | None => None
  end.
Fixpoint rate_all (cl : list cluster) (rm : fra) (l : list (nat * Z)) : option fra :=
  match l with
  | [] => Some rm
  | (v, w) :: r => match rate cl rm v w with Some rm' => rate_all cl rm' r | None => None end
  end.

(** .cc:90-113 pick_cluster_from_rating_map. For an entry with value zero, operator[] would append to the vector that the
    loop traverses. *)
Fixpoint pick_loop (cl : list cluster) (uw : Z) (coin : nat -> bool) (i : nat) (used : list nat) (data : list Z)
  (best : nat) (best_gain : Z) : option (nat * list Z) :=
  match used with
  | [] => Some (best, data)
  | c :: r =>
      let gain := nth c data 0%Z in
      match nth_error cl c with
      | None => None
      | Some k =>
          if (gain =? 0)%Z then None
          else if ((best_gain <? gain)%Z || ((gain =? best_gain)%Z && coin i)) && (cl_weight k + uw <=? limit)%Z
               then pick_loop cl uw coin (S i) r (upd c 0%Z data) c gain
               else pick_loop cl uw coin (S i) r (upd c 0%Z data) best best_gain
      end
  end.
Definition pick_from_map (u : nat) (uw : Z) (coin : nat -> bool) (cl : list cluster) (rm : fra) : option (nat * fra) :=
  match pick_loop cl uw coin 0 (fa_used rm) (fa_data rm) u 0%Z with
  | Some (best, data) => Some (best, mkFra data [])
  | None => None
  end.

(** .cc:172-177 and :450-455: u joins the cluster of c. *)
Definition join (u c : nat) (uw : Z) (cl : list cluster) : list cluster :=
  let ku := nth u cl dcl in
  let cl1 := upd u (mkCl (cl_locked ku) (cl_weight ku) c) cl in
  let kc := nth c cl1 dcl in
  upd c (mkCl true (wrap_s bits (cl_weight kc + uw)) (cl_leader kc)) cl1.
(** _clustering, _current_num_moves, _rating_map. *)
Definition lpstate := (list cluster * nat * fra)%type.
Definition choose (u : nat) (uw : Z) (coin : nat -> bool) (s : lpstate) : option lpstate :=
  let '(cl, moves, rm) := s in
  match pick_from_map u uw coin cl rm with
  | Some (best, rm') => if best =? u then Some (cl, moves, rm') else Some (join u best uw cl, S moves, rm')
  | None => None
  end.
(** .cc:80-88 pick_cluster, :163-178 handle_node. *)
Definition handle_node (g : graph) (coin : nat -> nat -> bool) (u : nat) (s : lpstate) : option lpstate :=
  let '(cl, moves, rm) := s in
  match nth_error cl u with
  | None => None
  | Some k =>
      if cl_locked k then Some s
      else match rate_all cl rm (gadj g u) with
           | Some rm' => choose u (gvw g u) (coin u) (cl, moves, rm')
           | None => None
           end
  end.
Fixpoint handle_all (g : graph) (coin : nat -> nat -> bool) (ord : list nat) (s : lpstate) : option lpstate :=
  match ord with
  | [] => Some s
  | u :: r => match handle_node g coin u s with Some s' => handle_all g coin r s' | None => None end
  end.
(** .cc:115-161 perform_label_propagation. *)
Definition label_propagation (g : graph) (coin : nat -> nat -> bool) (ord : list nat) (cl : list cluster) (rm : fra) : option lpstate :=
  handle_all g coin ord (reset_clustering (gn g) (gvw g) cl, 0, rm).

(** .cc:252-269: coarse node IDs, coarse node weights and the numbers of members; the state is (_leader_node_mapping,
    c_node_weights, node_mapping, _cluster_sizes). *)
Definition mstate := (list nat * list Z * list nat * list nat)%type.
Definition map_node (c_n : nat) (cl : list cluster) (st : option mstate) (u : nat) : option mstate :=
  match st, nth_error cl u with
  | Some (lm, cw, mapping, sizes), Some k =>
      let leader := cl_leader k in
      match (if negb (leader <? length lm) then None
             else if nth leader lm 0 =? 0
                  then if length cw <? c_n
                       then Some (upd leader (S (length cw)) lm, cw ++ [cl_weight (nth leader cl dcl)])
                       else None
                  else Some (lm, cw)) with
      | Some (lm', cw') =>
          let c := nth leader lm' 0 - 1 in
          Some (lm', cw', mapping ++ [c], upd c (S (nth c sizes 0)) sizes)
      | None => None
      end
  | _, _ => None
  end.
Definition map_nodes (n c_n : nat) (cl : list cluster) : option mstate :=
  fold_left (map_node c_n cl) (seq 0 n) (Some (repeat 0 n, [], [], repeat 0 n)).
(** .cc:277-280: _cluster_sizes becomes the array of the first positions. *)
Fixpoint exchange_sum (counter : nat) (sizes : list nat) : list nat :=
  match sizes with [] => [] | x :: r => counter :: exchange_sum (counter + x) r end.
(** .cc:282-285: _cluster_nodes. *)
Definition put_node (mapping : list nat) (st : option (list nat * list nat)) (u : nat) : option (list nat * list nat) :=
  match st with
  | Some (first, nodes) =>
      let c := nth u mapping 0 in
      let pos := nth c first 0 in
      if pos <? length nodes then Some (upd c (S pos) first, upd pos u nodes) else None
  | None => None
  end.
Definition put_nodes (n : nat) (mapping sizes nodes : list nat) : option (list nat * list nat) :=
  fold_left (put_node mapping) (seq 0 n) (Some (exchange_sum 0 sizes, nodes)).

(** .cc:306-356: c_u, c_nodes, c_edges with c_edge_weights, _edge_weight_collector, _clustering, _current_num_moves,
    _rating_map, _interleaved_locked. *)
Record estate := mkE { e_cu : nat; e_nodes : list nat; e_edges : list (nat * Z); e_ec : fra; e_lp : lpstate; e_lock : bool }.
(** .cc:334-341 with :461-467 interleaved_visit_neighbor. *)
Definition visit_edge (mapping : list nat) (st : option estate) (e : nat * Z) : option estate :=
  match st with
  | None => None
  | Some s =>
      let (v, w) := e in
      let c_v := nth v mapping 0 in
      if c_v =? e_cu s then Some s
      else if c_v <? length (fa_data (e_ec s)) then
             let ec := fra_modify (e_ec s) c_v (fun x => (x + w)%Z) in
             if e_lock s then Some (mkE (e_cu s) (e_nodes s) (e_edges s) ec (e_lp s) (e_lock s))
             else let '(cl, moves, rm) := e_lp s in
                  match rate cl rm c_v w with
                  | Some rm' => Some (mkE (e_cu s) (e_nodes s) (e_edges s) ec (cl, moves, rm') (e_lock s))
                  | None => None
                  end
           else None
  end.
(** .cc:442-459 interleaved_handle_node. *)
Definition interleaved_handle (c_u : nat) (cw : Z) (coin : nat -> nat -> bool) (lp : lpstate) (lock : bool) : option (lpstate * bool) :=
  match (if lock then Some lp else choose c_u cw (coin c_u) lp) with
  | Some lp' => match nth_error (fst (fst lp')) (S c_u) with Some k => Some (lp', cl_locked k) | None => None end
  | None => None
  end.
(** .cc:322-330, :345-355: the end of a coarse node; [cap]: size of c_edges and c_edge_weights. *)
Definition finish_coarse (cap c_n : nat) (cw : list Z) (coin : nat -> nat -> bool) (s : estate) : option estate :=
  if e_cu s <? c_n then
    match interleaved_handle (e_cu s) (nth (e_cu s) cw 0%Z) coin (e_lp s) (e_lock s) with
    | Some (lp', lock') =>
        let edges := e_edges s ++ fra_entries (e_ec s) in
        if length edges <=? cap
        then Some (mkE (S (e_cu s)) (e_nodes s ++ [length edges]) edges (fra_clear (e_ec s)) lp' lock')
        else None
    | None => None
    end
  else None.
(** .cc:314-342: one node of _cluster_nodes. *)
Definition coarse_node (g : graph) (cap c_n : nat) (mapping : list nat) (cw : list Z) (coin : nat -> nat -> bool)
  (st : option estate) (u : nat) : option estate :=
  match st with
  | None => None
  | Some s =>
      let c := nth u mapping 0 in
      match (if c =? e_cu s then Some s else if c =? S (e_cu s) then finish_coarse cap c_n cw coin s else None) with
      | Some s' => fold_left (visit_edge mapping) (gadj g u) (Some s')
      | None => None
      end
  end.

(** The members that outlive a call of coarsen: _clustering, _current_num_moves, _rating_map, _edge_weight_collector,
    _cluster_nodes, _interleaved_locked, _precomputed_clustering. *)
Record coarsener := mkCo { co_lp : lpstate; co_ec : fra; co_nodes : list nat; co_lock : bool; co_pre : bool }.

Definition slice (nodes : list nat) (edges : list (nat * Z)) (c : nat) : list (nat * Z) :=
  firstn (nth (S c) nodes 0 - nth c nodes 0) (skipn (nth c nodes 0) edges).
(** .cc:180-429 contract_current_clustering. *)
Definition contract (g : graph) (coin : nat -> nat -> bool) (co : coarsener) : option (list nat * graph * coarsener) :=
  let '(cl, moves, rm) := co_lp co in
  let n := gn g in
  let c_n := n - moves in
  let m := list_sum (map (fun u => length (gadj g u)) (seq 0 n)) in
  match map_nodes n c_n cl with
  | None => None
  | Some (_, cw, mapping, sizes) =>
      match put_nodes n mapping sizes (co_nodes co) with
      | None => None
      | Some (_, nodes) =>
          let cl' := reset_clustering c_n (fun c => nth c cw 0%Z) cl in
          let s0 := mkE 0 [0] [] (co_ec co) (cl', 0, rm) (co_lock co) in
          match fold_left (coarse_node g m c_n mapping cw coin) (firstn n nodes) (Some s0) with
          | None => None
          | Some s1 =>
              match finish_coarse m c_n cw coin s1 with
              | None => None
              | Some s => if e_cu s =? c_n
                          then Some (mapping, mkGraph c_n (slice (e_nodes s) (e_edges s)) (fun c => nth c cw 0%Z),
                                     mkCo (e_lp s) (e_ec s) nodes (e_lock s) true)
                          else None
              end
          end
      end
  end.

(** What the environment decides: the order of the first label propagation, random bits (of the label propagation, of each
    contraction), the convergence test of :59-60 for given numbers of coarse and fine nodes. *)
Record cenv := mkCenv { ce_order : list nat; ce_coin0 : nat -> nat -> bool; ce_coin : nat -> nat -> nat -> bool;
                        ce_converged : nat -> nat -> bool }.
(** .cc:50-76 coarsen; the first component is None if the graph was not coarsened. *)
Definition coarsen (env : cenv) (lvl : nat) (g : graph) (co : coarsener) : option (option (list nat * graph) * coarsener) :=
  match (if co_pre co then Some co
         else match label_propagation g (ce_coin0 env) (ce_order env) (fst (fst (co_lp co))) (snd (co_lp co)) with
              | Some lp => Some (mkCo lp (co_ec co) (co_nodes co) (co_lock co) true)
              | None => None
              end) with
  | None => None
  | Some co1 =>
      if ce_converged env (gn g - snd (fst (co_lp co1))) (gn g) then Some (None, co1)
      else match contract g (ce_coin env lvl) co1 with
           | Some (mapping, h, co2) => Some (Some (mapping, h), co2)
           | None => None
           end
  end.
(** initial_coarsener.cc:25-48 init: arrays are enlarged if necessary ([fill]: the new entries). *)
Definition enlarge {A} (n : nat) (x : A) (l : list A) : list A := if length l <? n then l ++ repeat x (n - length l) else l.
Definition fra_enlarge (n : nat) (a : fra) : fra := mkFra (enlarge n 0%Z (fa_data a)) (fa_used a).
Definition init_coarsener (g : graph) (co : coarsener) : coarsener :=
  let '(cl, moves, rm) := co_lp co in
  mkCo (enlarge (S (gn g)) dcl cl, moves, fra_enlarge (gn g) rm) (fra_enlarge (gn g) (co_ec co)) (enlarge (gn g) 0 (co_nodes co))
       (co_lock co) false.
(** initial_multilevel_bipartitioner.cc:111-157 coarsen: the levels, from fine to coarse. *)
Fixpoint coarsen_loop (fuel : nat) (env : cenv) (contraction_limit lvl : nat) (g : graph) (co : coarsener)
  : option (list (list nat * graph) * coarsener) :=
  if gn g <=? contraction_limit then Some ([], co)
  else match fuel with
       | 0 => None
       | S f =>
           match coarsen env lvl g co with
           | None => None
           | Some (None, co') => Some ([], co')
           | Some (Some (mapping, h), co') =>
               match coarsen_loop f env contraction_limit (S lvl) h co' with
               | Some (levels, co'') => Some ((mapping, h) :: levels, co'')
               | None => None
               end
           end
       end.
End Coarsener.
