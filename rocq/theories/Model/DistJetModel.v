(* kaminpar-dist/refinement/jet/jet_refiner.cc: the distributed Jet refiner, with refinement/snapshooter.cc and
   refinement/gain_calculator.h. The loops over the nodes of a rank write only the entry of the node (or add to the block weights), so
   their order does not matter. The balancer is a parameter. The test against the negative gain factor (floating point) is a parameter
   of the refiner; [passes] is what the code tests. Weights are unbounded, but cuts are stored in [bits] bits (EdgeWeight); the
   imbalance, a double, is exact (overloads below 2^53). A sum over all ranks (MPI_Allreduce) is the sum. [None]: an access out of
   bounds. *)
From Verif Require Import Lib.Prelude Model.GridModel Model.DistGraphModel Model.DistMetricsModel Model.DistLpModel Model.LimitsModel.
From Flocq Require Import IEEE754.BinarySingleNaN.

(** One rank: blocks of own nodes and ghosts, block weights, _gains_and_targets, _locked; the snapshot: partition, block weights, cut,
    imbalance, _last_is_best. (_block_weight_deltas is zero between the iterations, :237 and :403.) *)
Record jrank := JR { jr_part : list nat; jr_bw : list Z; jr_moves : list (Z * nat); jr_locked : list bool;
  jr_best : list nat; jr_best_bw : list Z; jr_best_cut : Z; jr_best_l1 : Z; jr_last : bool }.

Section Rank.
Variable d : dcsr.

(** ** gain_calculator.h:76-123 compute_max_gainer without weight check *)

(** :90-97: blocks of the neighbours and weights of the edges to them. *)
Definition block_edges (part : list nat) (nbs : list (nat * Z)) : option (list (nat * Z)) :=
  traverse (fun e => bind (nth_error part (fst e)) (fun b => Some (b, snd e))) nbs.
Definition rating (es : list (nat * Z)) (b : nat) : Z := zsum (map snd (filter (fun e => fst e =? b) es)).
(** :92-93: the entries of the rating map, in some order. *)
Definition ratings (from : nat) (es : list (nat * Z)) : list (nat * Z) :=
  map (fun b => (b, rating es b)) (nodup Nat.eq_dec (filter (fun b => negb (b =? from)) (map fst es))).
(** :99-104; every entry comes with a random bit. *)
Fixpoint max_gainer (entries : list ((nat * Z) * bool)) (target : nat) (conn : Z) : nat * Z :=
  match entries with
  | [] => (target, conn)
  | ((b, c), coin) :: t => if (conn <? c)%Z || ((c =? conn)%Z && coin) then max_gainer t b c else max_gainer t target conn
  end.

(** ** jet_refiner.cc *)

Variable warm : Z -> Z -> bool.                                   (* gain, weight of the edges into the own block: is the move not too bad? *)
Variable rnd : nat -> list (nat * Z) -> list ((nat * Z) * bool).  (* the order of the entries of the rating map of a node, random bits *)

(** :245-263 find_moves for one node. *)
Definition find_move (part : list nat) (locked : list bool) (u : nat) : option (Z * nat) :=
  bind (nth_error part u) (fun from => bind (nth_error locked u) (fun lk =>
  if lk then Some (0%Z, from)
  else bind (dadj d u) (fun nbs => bind (block_edges part nbs) (fun es =>
    let m := max_gainer (rnd u (ratings from es)) from 0%Z in
    let gain := (snd m - rating es from)%Z in
    if negb (fst m =? from) && warm gain (rating es from) then Some (gain, fst m) else Some (0%Z, from))))).
(** :241-265 find_moves, :329-331: the ghosts start without a move. *)
Definition ghost_no_move (part : list nat) (u : nat) : option (Z * nat) := bind (nth_error part u) (fun b => Some (0%Z, b)).
Definition propose (part : list nat) (locked : list bool) : option (list (Z * nat)) :=
  bind (traverse (find_move part locked) (seq 0 (dn d))) (fun own =>
  bind (traverse (ghost_no_move part) (seq (dn d) (dghost_n d))) (fun ghosts => Some (own ++ ghosts))).
(** :342: which nodes are sent. *)
Definition move_filter (part : list nat) (moves : list (Z * nat)) (_ u : nat) : bool :=
  match nth_error part u, nth_error moves u with Some b, Some m => negb (snd m =? b) | _, _ => false end.

(** :283-296: what one edge adds to the projected gain. *)
Definition projected (part : list nat) (moves : list (Z * nat)) (u : nat) (gain : Z) (from to : nat) (e : nat * Z) : option Z :=
  bind (nth_error moves (fst e)) (fun m => bind (nth_error part (fst e)) (fun bv =>
  let b := if (gain <? fst m)%Z || ((fst m =? gain)%Z && (fst e <? u)) then snd m else bv in
  Some (if b =? to then snd e else if b =? from then (- snd e)%Z else 0%Z))).
(** :267-304 filter_bad_moves for one node: is the move executed? *)
Definition keep_move (part : list nat) (moves : list (Z * nat)) (u : nat) : option bool :=
  bind (nth_error part u) (fun from => bind (nth_error moves u) (fun m =>
  if from =? snd m then Some false
  else bind (dadj d u) (fun nbs => bind (traverse (projected part moves u (fst m) from (snd m)) nbs) (fun l => Some (0 <=? zsum l)%Z)))).
Definition filter_moves (part : list nat) (moves : list (Z * nat)) : option (list bool) := traverse (keep_move part moves) (seq 0 (dn d)).

(** :306-323 move_locked_nodes: the partition and the changes of the block weights. *)
Fixpoint execute (moves : list (Z * nat)) (locked : list bool) (us : list nat) (part : list nat) (delta : list Z) : option (list nat * list Z) :=
  match us with
  | [] => Some (part, delta)
  | u :: t =>
      bind (nth_error locked u) (fun lk =>
      if lk then
        bind (nth_error part u) (fun from => bind (nth_error moves u) (fun m => bind (dnode_weight (dc_nw d) u) (fun w =>
        bind (add_delta from (- w)%Z delta) (fun d1 => bind (add_delta (snd m) w d1) (fun d2 => execute moves locked t (upd u (snd m) part) d2)))))
      else execute moves locked t part delta)
  end.
(** :371: which nodes are sent. *)
Definition lock_filter (locked : list bool) (_ u : nat) : bool := nth u locked false.
End Rank.

(** metrics.cc:91-99 imbalance_l1. *)
Definition imbalance_l1 (bw mx : list Z) : Z := zsum (map (fun p => if (snd p <? fst p)%Z then Z.max 0 (fst p - snd p) else 0%Z) (combine bw mx)).

(** snapshooter.cc:20-27 init and jet_refiner.cc:215-239 reset; [cut]: the cut of the partition, the same on all ranks. *)
Definition reset (bits : Z) (d : dcsr) (mx : list Z) (cut : Z) (part : list nat) (bw : list Z) : jrank :=
  JR part bw (map (fun b => (0%Z, b)) part) (repeat false (dn d)) part bw (narrow bits cut) (imbalance_l1 bw mx) true.
(** snapshooter.cc:54-71 update, after an iteration. *)
Definition snapshot (bits : Z) (mx : list Z) (cut : Z) (s : jrank) : jrank :=
  let c := narrow bits cut in
  let l1 := imbalance_l1 (jr_bw s) mx in
  if ((0 <? jr_best_l1 s) && (l1 <? jr_best_l1 s) || (l1 =? 0) && (c <=? jr_best_cut s))%Z
  then JR (jr_part s) (jr_bw s) (jr_moves s) (jr_locked s) (jr_part s) (jr_bw s) c l1 true
  else JR (jr_part s) (jr_bw s) (jr_moves s) (jr_locked s) (jr_best s) (jr_best_bw s) (jr_best_cut s) (jr_best_l1 s) false.
(** snapshooter.cc:29-44 rollback. *)
Definition rollback (s : jrank) : list nat * list Z := if jr_last s then (jr_part s, jr_bw s) else (jr_best s, jr_best_bw s).

Section System.
Variables (P k : nat) (d : nat -> dcsr) (bits : Z) (mx : list Z).
Variable balance : (nat -> list nat) -> (nat -> list Z) -> (nat -> list nat) -> (nat -> list Z) -> Prop. (* the balancer: partition and block weights of the ranks *)

(** :153-157: moves of one iteration: from the partition [part] and the locks [locked] of the ranks to [part'], [locked'] and the sums of
    the changes of the block weights; [moves']: _gains_and_targets. *)
Definition moved (warm : Z -> Z -> bool) (part : nat -> list nat) (locked : nat -> list bool) (part' : nat -> list nat) (locked' : nat -> list bool)
    (moves' : nat -> list (Z * nat)) (sums : list Z) : Prop :=
  exists rnd moves threads bufs msgs part1 delta threads2 bufs2 msgs2,
    (forall r, r < P -> (forall u l, Permutation (map fst (rnd r u l)) l) /\ propose (d r) warm (rnd r) (part r) (locked r) = Some (moves r) /\
       0 < threads r /\ buffers_outcome P (d r) (fun u => u) (move_filter (part r) (moves r)) (value_message (moves r) (0%Z, 0)) (threads r) 0 (dn (d r)) (bufs r)) /\
    (forall r, r < P -> Permutation (msgs r) (inbox P bufs r) /\ receive_values (d r) (moves r) (msgs r) = Some (moves' r) /\
       filter_moves (d r) (part r) (moves' r) = Some (locked' r) /\
       execute (d r) (moves' r) (locked' r) (seq 0 (dn (d r))) (part r) (repeat 0%Z k) = Some (part1 r, delta r) /\
       0 < threads2 r /\ buffers_outcome P (d r) (fun u => u) (lock_filter (locked' r)) (value_message (part1 r) 0) (threads2 r) 0 (dn (d r)) (bufs2 r)) /\
    (forall r, r < P -> Permutation (msgs2 r) (inbox P bufs2 r) /\ receive_values (d r) (part1 r) (msgs2 r) = Some (part' r)) /\
    sums = sum_deltas k (map delta (seq 0 P)).
(** :388-405 apply_block_weight_deltas. *)
Definition apply_deltas (sums bw : list Z) : list Z := map (fun b => (nth b bw 0 + nth b sums 0)%Z) (seq 0 k).
(** :153-180 one iteration. *)
Definition iteration (warm : Z -> Z -> bool) (s s' : nat -> jrank) : Prop :=
  exists part1 locked moves sums part2 bw2 cut,
    moved warm (fun r => jr_part (s r)) (fun r => jr_locked (s r)) part1 locked moves sums /\
    balance part1 (fun r => apply_deltas sums (jr_bw (s r))) part2 bw2 /\
    dist_edge_cut (map d (seq 0 P)) (map part2 (seq 0 P)) = Some cut /\
    forall r, r < P -> s' r = snapshot bits mx cut (JR (part2 r) (bw2 r) (moves r) (locked r) (jr_best (s r)) (jr_best_bw (s r)) (jr_best_cut (s r)) (jr_best_l1 (s r)) (jr_last (s r))).
(** :150-197 the iterations of a round: at least one; when the loop ends depends on cuts that all ranks know (floating point, not
    modelled). [seen]: the partitions after the iterations. *)
Inductive iterations (warm : Z -> Z -> bool) : (nat -> jrank) -> list (nat -> list nat) -> (nat -> jrank) -> Prop :=
| iter_last s s' : iteration warm s s' -> iterations warm s [fun r => jr_part (s' r)] s'
| iter_more s s1 seen s' : iteration warm s s1 -> iterations warm s1 seen s' -> iterations warm s ((fun r => jr_part (s1 r)) :: seen) s'.
(** :82-212 refine (after initialize): rounds, each with its test of moves. *)
Inductive jet : (nat -> list nat) -> (nat -> list Z) -> list (nat -> list nat) -> (nat -> list nat) -> (nat -> list Z) -> Prop :=
| jet_done part bw : jet part bw [] part bw
| jet_round warm part bw cut s s' seen part1 bw1 seen' part2 bw2 :
    dist_edge_cut (map d (seq 0 P)) (map part (seq 0 P)) = Some cut ->
    (forall r, r < P -> s r = reset bits (d r) mx cut (part r) (bw r)) ->
    iterations warm s seen s' ->
    (forall r, r < P -> rollback (s' r) = (part1 r, bw1 r)) ->
    jet part1 bw1 seen' part2 bw2 -> jet part bw (seen ++ seen') part2 bw2.
End System.

(** ** The negative gain factor *)

(** :122-135; rounds and [toplevel] from the configuration. *)
Definition gain_factor (dynamic toplevel : bool) (initial final fine coarse : double) (round rounds : Z) : double :=
  if dynamic then
    if (1 <=? rounds)%Z
    then d_add initial (d_mul (d_div (d_mul (d_of 1) (d_of round)) (d_sub (d_of rounds) (d_of 1))) (d_sub final initial))
    else d_div (d_add final initial) (d_of 2)
  else if toplevel then fine else coarse.
(** :255-259: gain > -floor(factor * int_degree). *)
Definition d_floor (x : double) : double := @Bnearbyint 53 1024 Hemax mode_DN x.
Definition passes (factor : double) (gain int_degree : Z) : bool := Bltb (Bopp (d_floor (d_mul factor (d_of int_degree)))) (d_of gain).
