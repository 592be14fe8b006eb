(* Model of the Jet refiner, kaminpar-shm/refinement/jet/jet_refiner.cc, with the greedy balancer of BalancerModel.v.
   Every parallel loop over the nodes is executed in an arbitrary order of the nodes (the set_block calls of one loop
   interleave as in BlockWeightModel.v). The gain cache is taken to be exact between the loops (C17, C58): gains are
   computed from the labels. The comparison with the gain temperature (:119, floating point) and the number of
   iterations of a round (:195-210, floating point) are arbitrary. Weights are unbounded integers; EdgeWeight's minimum
   (:104) is below all gains. *)
From Verif Require Import Lib.Prelude Spec.Graph Model.BlockWeightModel Model.BalancerModel.
Local Open Scope Z_scope.

Section Jet.
Variables (g : graph) (k : nat) (lim perf : nat -> Z).

(** gain_cache.conn, gain, is_border_node. *)
Definition jet_conn (l : list nat) (u b : nat) : Z := zsum (map snd (filter (fun e => (nth (fst e) l 0 =? b)%nat) (gadj g u))).
Definition jet_gain (l : list nat) (u from to : nat) : Z := jet_conn l u to - jet_conn l u from.
Definition jet_border (l : list nat) (u from : nat) : bool := negb (zsum (map snd (gadj g u)) =? jet_conn l u from).

(** metrics.h:23-40 edge_cut (see CsrModel.v for the parallel sum). *)
Definition jet_cut (l : list nat) : Z :=
  zsum (map (fun u => zsum (map (fun e => if (nth u l 0 =? nth (fst e) l 0)%nat then 0 else snd e) (gadj g u))) (seq 0 (gn g))) / 2.

(** :104-117 the best block of a node; None: no other block. *)
Definition best_target (l : list nat) (u from : nat) : option (Z * nat) :=
  fold_left (fun best to =>
    if (to =? from)%nat then best
    else let gain := jet_gain l u from to in
         match best with
         | Some (bg, _) => if bg <? gain then Some (gain, to) else best
         | None => Some (gain, to)
         end) (seq 0 k) None.

(** :95-125 find moves; [warm gain conn]: the comparison with the temperature. *)
Definition next_block (warm : Z -> Z -> bool) (l : list nat) (lock : list bool) (u : nat) : nat :=
  let from := nth u l 0%nat in
  if nth u lock false || negb (jet_border l u from) then from
  else match best_target l u from with
       | Some (bg, to) => if warm bg (jet_conn l u from) then to else from
       | None => from
       end.
Definition find_moves (warm : Z -> Z -> bool) (l : list nat) (lock : list bool) (ord : list nat) (next : list nat) : list nat :=
  fold_left (fun nx u => upd u (next_block warm l lock u) nx) ord next.

(** :140-157 gain of u if the neighbours with better moves have been moved. *)
Definition before (l next : list nat) (gain_u : Z) (u v : nat) : bool :=
  let from := nth v l 0%nat in
  let to := nth v next 0%nat in
  negb (from =? to)%nat && let gain_v := jet_gain l v from to in (gain_u <? gain_v) || ((gain_v =? gain_u) && (v <? u)%nat).
Definition expected_gain (l next : list nat) (u : nat) : Z :=
  let from := nth u l 0%nat in
  let to := nth u next 0%nat in
  let gain_u := jet_gain l u from to in
  fold_left (fun gain e =>
    let b := if before l next gain_u u (fst e) then nth (fst e) next 0%nat else nth (fst e) l 0%nat in
    if (to =? b)%nat then gain + snd e else if (from =? b)%nat then gain - snd e else gain) (gadj g u) 0.
(** :127-163 filter moves. *)
Definition keep_move (l next : list nat) (u : nat) : bool :=
  negb (nth u l 0 =? nth u next 0)%nat && (0 <? expected_gain l next u).
Definition filter_moves (l next : list nat) (ord : list nat) (lock : list bool) : list bool :=
  fold_left (fun lk u => upd u (keep_move l next u) lk) ord lock.

(** partitioned_graph.h:152-165 set_block. *)
Definition set_block (u to : nat) (m : mem) : mem :=
  let m1 := add_weight (nth u (m_label m) 0%nat) (- gvw g u) m in
  let m2 := add_weight to (gvw g u) m1 in
  mkMem (upd u to (m_label m2)) (m_weight m2).
(** :165-175 execute moves. *)
Definition execute_moves (next : list nat) (lock : list bool) (ord : list nat) (m : mem) : mem :=
  fold_left (fun m u => if nth u lock false then set_block u (nth u next 0%nat) m else m) ord m.

(** :177-179 the balancer returns with memory [m']. *)
Definition rebalanced (m m' : mem) : Prop :=
  exists T order es s0 s, Permutation (map fst order) (overloaded_nodes g lim m) /\
    init_bal g k lim T m order = Some s0 /\ b_run g k lim perf es s0 = Some s /\ b_finished s = true /\ m' = b_mem s.

Record jst := Jst { j_mem : mem; j_lock : list bool; j_next : list nat; j_best : list nat; j_best_cut : Z; j_last : bool }.
(** :60-74. *)
Definition jet_init (m : mem) : jst :=
  Jst m (repeat false (gn g)) (repeat 0%nat (gn g)) (m_label m) (jet_cut (m_label m)) true.

(** The partition that is handed to the balancer. *)
Definition moved (warm : Z -> Z -> bool) (o1 o2 o3 : list nat) (j : jst) : mem :=
  let l := m_label (j_mem j) in
  let next := find_moves warm l (j_lock j) o1 (j_next j) in
  let lock := filter_moves l next o2 (j_lock j) in
  execute_moves next lock o3 (j_mem j).
(** State after an iteration (:94-210) in which the balancer has returned with memory [m']. *)
Definition jet_step (warm : Z -> Z -> bool) (o1 o2 o3 : list nat) (m' : mem) (j : jst) : jst :=
  let l := m_label (j_mem j) in
  let next := find_moves warm l (j_lock j) o1 (j_next j) in
  let lock := filter_moves l next o2 (j_lock j) in
  let cut := jet_cut (m_label m') in
  Jst m' lock next (if cut <=? j_best_cut j then m_label m' else j_best j) (Z.min (j_best_cut j) cut) (cut <=? j_best_cut j).
(** One iteration: the orders of the three loops are any orders of the nodes. *)
Inductive jet_iteration (j : jst) : jst -> Prop :=
| jet_it warm o1 o2 o3 m' :
    Permutation o1 (seq 0 (gn g)) -> Permutation o2 (seq 0 (gn g)) -> Permutation o3 (seq 0 (gn g)) ->
    rebalanced (moved warm o1 o2 o3 j) m' ->
    jet_iteration j (jet_step warm o1 o2 o3 m' j).
(** The do-while loop of a round: at least one iteration; [h]: the partitions after the iterations. *)
Inductive jet_iterations (j : jst) : list (list nat) -> jst -> Prop :=
| its_first j' : jet_iteration j j' -> jet_iterations j [m_label (j_mem j')] j'
| its_next h j1 j2 : jet_iterations j h j1 -> jet_iteration j1 j2 -> jet_iterations j (m_label (j_mem j2) :: h) j2.
(** :212-221 rollback. *)
Definition rollback (ord : list nat) (j : jst) : jst :=
  if j_last j then j
  else Jst (fold_left (fun m u => set_block u (nth u (j_best j) 0%nat) m) ord (j_mem j)) (j_lock j) (j_next j) (j_best j) (j_best_cut j) (j_last j).
(** :86-222 the rounds; [h]: the partitions after all iterations so far. *)
Inductive jet_rounds (j0 : jst) : list (list nat) -> jst -> Prop :=
| rounds_0 : jet_rounds j0 [] j0
| rounds_S h j h' j' ord : jet_rounds j0 h j -> jet_iterations j h' j' -> Permutation ord (seq 0 (gn g)) ->
    jet_rounds j0 (h' ++ h) (rollback ord j').
(** :53-225 refine. *)
Definition jet_refine (m : mem) (h : list (list nat)) (m' : mem) : Prop := exists j, jet_rounds (jet_init m) h j /\ m' = j_mem j.
End Jet.
