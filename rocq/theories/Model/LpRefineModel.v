(* Model of k-way label propagation refinement: kaminpar-shm/refinement/lp/lp_refiner.cc and the parts of
   kaminpar-shm/label_propagation.h that it instantiates (kUseTwoHopClustering = false, kUseActualGain = false), without
   communities (those are in VcycleModel.v). One visit of a node is one event; what it observes of other threads (blocks of
   neighbours, block weights) and all random choices are parameters of the event. The interleaving of the single steps of a
   move is modelled in BlockWeightModel.v, the order of the visits in LpOrderModel.v. Weights are unbounded integers. *)
From Verif Require Import Lib.Prelude Spec.Graph Model.LpClusterModel.
Local Open Scope Z_scope.

(** An entry of the rating map: block, rating, the block weight that is read for it (cluster_weight(cluster), :147/:240),
    and the coin of random_bool() (used by the non-uniform strategy only). *)
Record rentry := REntry { e_block : nat; e_rating : Z; e_weight : Z; e_coin : bool }.

Section Select.
Variables (limit : nat -> Z) (uw : Z) (init : nat) (iw : Z).

(** lp_refiner.cc:163-170 (and :183-187, :196-200, :232-234): weight condition; [iw]: initial_cluster_weight. *)
Definition allowed (e : rentry) : bool :=
  (e_weight e + uw <? limit (e_block e)) || (e_weight e - limit (e_block e) <? iw - limit init) || (e_block e =? init)%nat.

(** ClusterSelectionState (label_propagation.h:438-451): best_cluster, best_gain, best_cluster_weight and the tie breaking
    vector. *)
Record rsel := RSel { r_best : nat; r_gain : Z; r_weight : Z; r_ties : list nat }.

(** :144-206 loop body, uniform tie breaking (favoured clusters are not stored). *)
Definition uniform_step (st : rsel) (e : rentry) : rsel :=
  if r_gain st <? e_rating e then
    if allowed e then RSel (e_block e) (e_rating e) (e_weight e) [e_block e] else st
  else if e_rating e =? r_gain st then
    let best_over := r_weight st - limit (r_best st) in
    let over := e_weight e - limit (e_block e) in
    if over <? best_over then
      if allowed e then RSel (e_block e) (r_gain st) (e_weight e) [e_block e] else st
    else if over =? best_over then
      if allowed e then RSel (r_best st) (r_gain st) (r_weight st) (r_ties st ++ [e_block e]) else st
    else st
  else st.

(** :219-255 loop body, geometric tie breaking. *)
Definition geometric_step (st : rsel) (e : rentry) : rsel :=
  let best_over := r_weight st - limit (r_best st) in
  let over := e_weight e - limit (e_block e) in
  if ((r_gain st <? e_rating e) || ((e_rating e =? r_gain st) && ((over <? best_over) || ((over =? best_over) && e_coin e)))) && allowed e
  then RSel (e_block e) (e_rating e) (e_weight e) [] else st.

(** :130-260 select_best_cluster with the initial state of label_propagation.h:471-484: best block and gain. *)
Definition select_block (uni : bool) (entries : list rentry) (r : nat) : nat * Z :=
  let st0 := RSel init 0 iw [] in
  if uni then let st := fold_left uniform_step entries st0 in (break_tie (r_ties st) r (r_best st), r_gain st)
  else let st := fold_left geometric_step entries st0 in (r_best st, r_gain st).

(** label_propagation.h:460-541, :543-638 in one piece, or :640-815 split among workers (second phase). *)
Inductive rview :=
| InOnePiece (entries : list rentry) (r : nat)
| ByWorkers (parts : list (list rentry * nat)) (r : nat).
Definition view_entries (v : rview) : list rentry :=
  match v with InOnePiece es _ => es | ByWorkers parts _ => flat_map fst parts end.
Definition best_block (uni : bool) (v : rview) : nat :=
  match v with
  | InOnePiece es r => fst (select_block uni es r)
  | ByWorkers parts r => merge_locals uni init (map (fun p => let x := select_block uni (fst p) (snd p) in (snd x, fst x)) parts) r
  end.
End Select.

(** Blocks and block weights of the partitioned graph. *)
Record pstate := PState { p_label : list nat; p_weight : list Z }.

(** label_propagation.h:330-365 handle_node, :817-841 try_node_move with lp_refiner.cc:107-114 move_cluster_weight
    (partitioned_graph.h:179-197 move_block_weight: the weight limit is tested again, atomically). [iw] is the weight of the
    own block that the visit reads. *)
Definition lp_visit (g : graph) (limit : nat -> Z) (uni : bool) (u : nat) (iw : Z) (v : rview) (s : pstate) : pstate :=
  let init := nth u (p_label s) 0%nat in
  let best := best_block limit (gvw g u) init iw uni v in
  if negb (init =? best)%nat && (nth best (p_weight s) 0 + gvw g u <=? limit best)
  then PState (upd u best (p_label s)) (shift_weight init best (gvw g u) (p_weight s))
  else s.

(** All executions: nodes are visited in any order, any number of times; an entry names a block that some neighbour had at
    some point so far ([h]: earlier labels), with any rating and any weights. *)
Definition seen (g : graph) (h : list (list nat)) (u : nat) (es : list rentry) : Prop :=
  forall e, In e es -> exists v x l, In (v, x) (gadj g u) /\ In l h /\ nth v l 0%nat = e_block e.
Inductive lp_refine_run (g : graph) (limit : nat -> Z) (uni : bool) (s0 : pstate) : list (list nat) -> pstate -> Prop :=
| lpr_start : lp_refine_run g limit uni s0 [p_label s0] s0
| lpr_visit h s u iw v : lp_refine_run g limit uni s0 h s -> (u < gn g)%nat -> seen g h u (view_entries v) ->
    let s' := lp_visit g limit uni u iw v s in lp_refine_run g limit uni s0 (p_label s' :: h) s'.

(** label_propagation.h:486-505: the entries of a visit that nobody interferes with; [nbrs] are the neighbours that are
    looked at: all of them, or the first max_num_neighbors. One entry per distinct block, in order of appearance. *)
Fixpoint blocks_of (seen : list nat) (l : list nat) (nbrs : list (nat * Z)) : list nat :=
  match nbrs with
  | [] => rev seen
  | (v, _) :: rest => let b := nth v l 0%nat in blocks_of (if existsb (Nat.eqb b) seen then seen else b :: seen) l rest
  end.
Definition ratings (s : pstate) (coins : nat -> bool) (nbrs : list (nat * Z)) : list rentry :=
  map (fun b => REntry b (zsum (map snd (filter (fun e => (nth (fst e) (p_label s) 0 =? b)%nat) nbrs))) (nth b (p_weight s) 0) (coins b))
      (blocks_of [] (p_label s) nbrs).

(** A single-threaded run over the nodes [us] (with the random numbers of each visit); [maxn]: max_num_neighbors
    (None: no limit). The rating map may enumerate its entries in any order ([perm]). *)
Record choice := Choice { ch_node : nat; ch_coins : nat -> bool; ch_rand : nat; ch_perm : list rentry -> list rentry }.
Definition lp_sequential_visit (g : graph) (limit : nat -> Z) (uni : bool) (maxn : option nat) (s : pstate) (c : choice) : pstate :=
  let u := ch_node c in
  let nbrs := match maxn with Some m => firstn m (gadj g u) | None => gadj g u end in
  lp_visit g limit uni u (nth (nth u (p_label s) 0%nat) (p_weight s) 0) (InOnePiece (ch_perm c (ratings s (ch_coins c) nbrs)) (ch_rand c)) s.
Definition lp_sequential (g : graph) (limit : nat -> Z) (uni : bool) (maxn : option nat) (cs : list choice) (s : pstate) : pstate :=
  fold_left (lp_sequential_visit g limit uni maxn) cs s.

(** ** The active set *)

(** A single-threaded run with the active set (label_propagation.h:1886-1889, :1962-1965 inactive nodes are skipped;
    :507-508 a visit clears the own flag; :825-829, :848-870 a move sets the flags of the neighbours). *)
Record astate := AState { a_part : pstate; a_flags : list bool }.
Definition active_visit (g : graph) (limit : nat -> Z) (uni : bool) (maxn : option nat) (a : astate) (c : choice) : astate :=
  let u := ch_node c in
  if nth u (a_flags a) false then
    let s' := lp_sequential_visit g limit uni maxn (a_part a) c in
    let flags := upd u false (a_flags a) in
    AState s' (if (nth u (p_label s') 0 =? nth u (p_label (a_part a)) 0)%nat then flags
               else fold_left (fun l e => upd (fst e) true l) (gadj g u) flags)
  else a.
Definition active_run (g : graph) (limit : nat -> Z) (uni : bool) (maxn : option nat) (cs : list choice) (a : astate) : astate :=
  fold_left (active_visit g limit uni maxn) cs a.

(** The same with several threads: a visit of u first reads the blocks of the neighbours (:488-505), then clears the flag
    (:507-508), then may store a new block and set the flags of the neighbours. [am_seen u v]: the block of v that the last
    visit of u has read. *)
Inductive astep := Look (u : nat) | Clear (u : nat) | Store (u b : nat).
Record amem := AMem { am_label : list nat; am_flags : list bool; am_seen : nat -> nat -> nat }.
Definition do_astep (g : graph) (m : amem) (e : astep) : amem :=
  match e with
  | Look u => AMem (am_label m) (am_flags m) (fun u' v => if (u' =? u)%nat then nth v (am_label m) 0%nat else am_seen m u' v)
  | Clear u => AMem (am_label m) (upd u false (am_flags m)) (am_seen m)
  | Store u b => AMem (upd u b (am_label m)) (fold_left (fun l e => upd (fst e) true l) (gadj g u) (am_flags m)) (am_seen m)
  end.
(** The steps of one visit of u. *)
Definition visit_steps (u : nat) (move : option nat) : list astep :=
  Look u :: Clear u :: match move with Some b => [Store u b] | None => [] end.
(** Interleavings of two threads. *)
Inductive interleaved {A} : list A -> list A -> list A -> Prop :=
| il_nil : interleaved [] [] []
| il_left x a b c : interleaved a b c -> interleaved (x :: a) b (x :: c)
| il_right x a b c : interleaved a b c -> interleaved a (x :: b) (x :: c).
