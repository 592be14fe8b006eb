(* The pool of flat bipartitioners
   (kaminpar-shm/initial_partitioning/initial_pool_bipartitioner.{h,cc}) and the choice of the 2-way refiner
   (initial_refiner.cc).

   Not modelled: the floating point statistics; whether they call another run of a bipartitioner promising is an input
   of the model ([re_promising]), except that they never do so for one without a feasible result yet.  The imbalance,
   a double, is represented by an order-preserving integer rank [imb] of its value. *)
From Verif Require Import Lib.Prelude Spec.Graph Model.InitialFmModel Model.InitialFlatModel.

(** kaminpar.h InitialPoolPartitionerContext; [pl_fm] = None is refinement.disabled, Some i is 2-way FM with
    num_iterations = i; [pl_size] is the number of registered bipartitioners (.cc:60-79). *)
Record pool_config := mkPool {
  pl_size : nat; pl_repetitions : Z; pl_min : Z; pl_max : Z; pl_fixed : Z; pl_adaptive : bool; pl_fm : option nat }.

(** What one run depends on besides the graph: the algorithm with its random numbers, the choices of the refiner, and
    whether the statistics call it promising. *)
Record run_env := mkRun {
  re_alg : algorithm; re_rounds : nat -> rchoice; re_abort : nat -> bool; re_promising : bool }.

Section Pool.
Variable g : graph.
Variables limit perfect : nat -> Z.
Variable imb : list Z -> Z.
Variable emax : Z.                                  (* numeric_limits<EdgeWeight>::max() *)
Variable cfg : pool_config.

(** .h _best_feasible, _best_cut, _best_imbalance, _best_partition and _best_block_weights, the number of feasible
    results of every bipartitioner (RunningVariance::_count).  [po_log] is not in the code: the results of all runs so
    far. *)
Record pool := mkPo {
  po_feasible : bool; po_cut : Z; po_imb : Z; po_best : list nat * list Z; po_counts : list nat;
  po_log : list (list nat * list Z) }.

(** .cc:81-115 init and reset: what an earlier use left in the two arrays, [old], stays there. *)
Definition pool_init (old : list nat * list Z) : pool :=
  mkPo false emax 0 old (repeat 0 (pl_size cfg)) [].

(** metrics.h is_balanced for two blocks. *)
Definition is_feasible (bw : list Z) : bool :=
  forallb (fun b => (nth b bw 0 <=? limit b)%Z) [0; 1].

(** initial_refiner.cc:16-31, initial_noop_refiner.h, initial_fm_refiner.cc refine. *)
Definition pool_refine (e : run_env) (lab : list nat) (bw : list Z) : option (list nat * list Z) :=
  match pl_fm cfg with
  | None => Some (lab, bw)
  | Some iters =>
      match fm_refine g limit perfect iters (re_rounds e) (re_abort e) lab bw with
      | Some (lab', bw', _) => Some (lab', bw')
      | None => None
      end
  end.

(** .cc:216-222: is the new result preferred to the best one so far. *)
Definition preferred (p : pool) (feasible : bool) (cut im : Z) : bool :=
  implb (po_feasible p) feasible &&
  ((negb (po_feasible p) && feasible) || (cut <? po_cut p)%Z || ((cut =? po_cut p)%Z && (im <? po_imb p)%Z)).

(** .cc:196-236 run_bipartitioner. *)
Definition run_bipartitioner (i : nat) (e : run_env) (p : pool) : option pool :=
  match flat_bipartition g limit perfect (re_alg e) with
  | None => None
  | Some (lab0, bw0) =>
      match pool_refine e lab0 bw0 with
      | None => None
      | Some (lab, bw) =>
          let cut := InitialFmModel.edge_cut_seq g lab in
          let im := imb bw in
          let feasible := is_feasible bw in
          let counts := if feasible then upd i (S (nth i (po_counts p) 0)) (po_counts p) else po_counts p in
          let log := po_log p ++ [(lab, bw)] in
          if preferred p feasible cut im
          then Some (mkPo feasible cut im (lab, bw) counts log)
          else Some (mkPo (po_feasible p) (po_cut p) (po_imb p) (po_best p) counts log)
      end
  end.

(** .cc:152-156 likely_to_improve: without a feasible result the statistics are (DBL_MAX, 0). *)
Definition likely_to_improve (i : nat) (e : run_env) (p : pool) : bool :=
  negb (nth i (po_counts p) 0 =? 0) && re_promising e.

(** .cc:124-131: one repetition over the bipartitioners [is]; then all repetitions. *)
Fixpoint repetition (rep : nat) (env : nat -> run_env) (is : list nat) (p : pool) : option pool :=
  match is with
  | [] => Some p
  | i :: r =>
      if (Z.of_nat rep <? pl_fixed cfg)%Z || negb (pl_adaptive cfg) || likely_to_improve i (env i) p
      then match run_bipartitioner i (env i) p with
           | Some p' => repetition rep env r p'
           | None => None
           end
      else repetition rep env r p
  end.
Fixpoint repetitions (fuel rep : nat) (env : nat -> nat -> run_env) (p : pool) : option pool :=
  match fuel with
  | 0 => Some p
  | S f =>
      match repetition rep (env rep) (seq 0 (pl_size cfg)) p with
      | Some p' => repetitions f (S rep) env p'
      | None => None
      end
  end.

(** .cc:120-122 std::clamp. *)
Definition num_repetitions : Z := Z.max (pl_min cfg) (Z.min (pl_max cfg) (pl_repetitions cfg)).

(** .cc:113-150 init, then bipartition. *)
Definition pool_bipartition (env : nat -> nat -> run_env) (old : list nat * list Z) : option pool :=
  repetitions (Z.to_nat num_repetitions) 0 env (pool_init old).
End Pool.

(* ------------------------------------------------------------------ the stopping rules of the 2-way refiner *)
(** kaminpar.h FMStoppingRule. *)
Inductive stopping_rule := RSimple | RAdaptive.
(** initial_fm_refiner.h:17-49: the policies. *)
Inductive stopping_policy := SimplePolicy | AdaptivePolicy.
(** initial_refiner.cc:21-27, initial_fm_refiner.h InitialSimple2WayFM, InitialAdaptive2WayFM. *)
Definition create_initial_refiner (r : stopping_rule) : stopping_policy :=
  match r with RAdaptive => SimplePolicy | RSimple => AdaptivePolicy end.

(** initial_fm_refiner.cc:33-35, :51-54 should_stop after [steps] moves since the last accepted one, in a graph of [n] nodes:
    _num_steps > fm_ctx.num_fruitless_moves; and _num_steps > _beta && (_Mk == 0 || ...), with _beta = sqrt(n); the
    second factor depends on doubles and is the input [drift]. *)
Definition should_stop (p : stopping_policy) (n fruitless steps : nat) (drift : bool) : bool :=
  match p with
  | SimplePolicy => fruitless <? steps
  | AdaptivePolicy => (n <? steps * steps) && drift
  end.
