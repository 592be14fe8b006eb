(* The pool on a concrete graph. *)
From Verif Require Import Lib.Prelude Spec.Graph Spec.InitialSpec Spec.InitialPoolSpec.
From Verif Require Import Model.InitialFmModel Model.InitialFlatModel Model.InitialPoolModel.
From Verif Require Import Proofs.Decide Proofs.InitialExamples Proofs.InitialPoolProofs.

(** Three bipartitioners, two repetitions, no refinement. *)
Definition pool3 (fm : option nat) : pool_config := mkPool 3 2 1 5 1 true fm.
Definition pool_algs (r i : nat) : algorithm :=
  match i with
  | 0 => ARandom (fun _ => true)
  | 1 => ABfs alternating 1 (fun _ => (2, true))
  | _ => AGgg ends
  end.
Definition pool_env (r i : nat) : run_env := mkRun (pool_algs r i) (fun _ => in_order) (fun _ => false) false.
Definition spread (bw : list Z) : Z := Z.max (nth 0 bw 0%Z) (nth 1 bw 0%Z).

Lemma cut_path4 lab : (cut_of path4 lab < 2147483647)%Z.
Proof.
  unfold cut_of, cut_weight, path4, of_lists, sumn. cbn [gn length seq map zsum fold_right].
  repeat match goal with |- context [if ?b then _ else _] => destruct b end; vm_compute; reflexivity.
Qed.

Lemma pool_example :
  closed_graph path4 /\ undirected path4 /\ nonneg_edges path4 /\ loop_free path4 /\
  (forall lab, (cut_of path4 lab < 2147483647)%Z) /\
  (forall r i k, legal_order 4 (rc_chunks (re_rounds (pool_env r i) k)) (rc_perms (re_rounds (pool_env r i) k))) /\
  (exists p, pool_bipartition path4 limit2 perfect2 spread 2147483647 (pool3 None) pool_env ([7; 7], [9; 9]%Z) = Some p /\
     po_best p = ([1; 0; 0; 0], [3; 1]%Z) /\
     po_log p = [([1; 0; 1; 0], [2; 2]%Z); ([1; 0; 0; 0], [3; 1]%Z); ([1; 0; 0; 1], [2; 2]%Z)]) /\
  map (cut_of path4) [[1; 0; 1; 0]; [1; 0; 0; 0]; [1; 0; 0; 1]] = [11; 5; 10]%Z.
Proof.
  split; [exact path4_closed|]. split; [exact path4_undirected|]. split; [apply check_nonneg_ok; reflexivity|].
  split; [apply check_loopfree_ok; reflexivity|]. split; [exact cut_path4|]. split; [intros r i k; exact in_order_legal|].
  split; [|reflexivity]. eexists. split; [vm_compute; reflexivity|]. split; reflexivity.
Qed.

Lemma pool_stale :
  exists g limit perfect imb emax cfg, closed_graph g /\ undirected g /\ nonneg_edges g /\ loop_free g /\
    (forall lab, (cut_of g lab < emax)%Z) /\ 0 < pl_size cfg /\ (1 <= pl_min cfg <= pl_max cfg)%Z /\ pl_fixed cfg = 0%Z /\
    forall env old, exists p, pool_bipartition g limit perfect imb emax cfg env old = Some p /\ po_log p = [] /\ po_best p = old.
Proof.
  exists path4, limit2, perfect2, spread, 2147483647%Z, (mkPool 7 5 1 5 0 true None).
  split; [exact path4_closed|]. split; [exact path4_undirected|]. split; [apply check_nonneg_ok; reflexivity|].
  split; [apply check_loopfree_ok; reflexivity|]. split; [exact cut_path4|]. cbn [pl_size pl_min pl_max pl_fixed].
  split; [lia|]. split; [lia|]. split; [auto|]. intros env old. rewrite pool_none by auto.
  eexists. split; [reflexivity|]. split; reflexivity.
Qed.

Lemma stopping_rule_swapped :
  (exists n steps, 100 < steps /\ forall drift, should_stop (create_initial_refiner RSimple) n 100 steps drift = false) /\
  (forall n steps drift, steps <= 100 -> should_stop (create_initial_refiner RAdaptive) n 100 steps drift = false) /\
  exists n steps, n < steps * steps /\ steps <= 100.
Proof.
  split; [|split].
  - exists (105 * 105), 101. split; [lia|]. intros drift. cbn [create_initial_refiner should_stop].
    replace (105 * 105 <? 101 * 101) with false by reflexivity. reflexivity.
  - intros n steps drift H. cbn [create_initial_refiner should_stop]. apply Nat.ltb_ge. exact H.
  - exists 4, 3. lia.
Qed.
