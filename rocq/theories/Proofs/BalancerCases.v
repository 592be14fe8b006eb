(* Concrete runs of the greedy balancer. *)
From Verif Require Import Lib.Prelude Spec.Graph Model.BlockWeightModel Model.BalancerModel Proofs.BalancerTop Proofs.BalancerStuck.
Local Open Scope Z_scope.

(** A path of four nodes. *)
Definition bal_graph (ws : list Z) : graph :=
  mkGraph 4 (fun u => match u with 0%nat => [(1%nat, 1)] | 1%nat => [(0%nat, 1); (2%nat, 1)] | 2%nat => [(1%nat, 1); (3%nat, 1)] | 3%nat => [(2%nat, 1)] | _ => [] end)
    (fun u => nth u ws 0).
Lemma bal_closed ws : closed_graph (bal_graph ws).
Proof.
  intros u v w Hu. cbn [bal_graph gn] in *. destruct u as [|[|[|[|u]]]]; cbn [bal_graph gadj In]; [..|lia]; intuition;
    repeat match goal with H : (_, _) = (_, _) |- _ => injection H as <- <- end; lia.
Qed.

(** Weights 2 2 1 1 in the blocks {0,1,2}, {3} with limit 4: node 2 is moved. *)
Definition bal_ok_mem : mem := mkMem [0; 0; 0; 1]%nat [5; 1].
Definition bal_ok_order : list (nat * option nat) := [(0, None); (1, None); (2, Some 0)]%nat.
Definition bal_ok_es : list (nat * bact) :=
  ([(0, BTask 0); (1, BTask 1); (0, BStep); (0, BStep); (0, BStep); (1, BStep); (0, BPop 2); (0, BGain 1 true); (0, BStep);
    (0, BStep); (0, BStep); (0, BStep); (0, BStep); (0, BStep); (0, BStep); (0, BStep); (0, BStep)])%nat.
Lemma bal_ok_exact : exact_block_weights (bal_graph [2; 2; 1; 1]) (m_label bal_ok_mem) (m_weight bal_ok_mem).
Proof. split; [reflexivity|]. split; [intros [|[|[|[|u]]]] Hu; cbn in *; lia|]. intros [|[|b]] Hb; cbn in Hb; [reflexivity|reflexivity|lia]. Qed.

(** Weights 5 5 1 1 in the blocks {0,1}, {2,3}: perfectly balanced weight 6, limit 6 (3% imbalance). *)
Definition bal_stuck_mem : mem := mkMem [0; 0; 1; 1]%nat [10; 2].
Lemma bal_stuck_exact : exact_block_weights (bal_graph [5; 5; 1; 1]) (m_label bal_stuck_mem) (m_weight bal_stuck_mem).
Proof. split; [reflexivity|]. split; [intros [|[|[|[|u]]]] Hu; cbn in *; lia|]. intros [|[|b]] Hb; cbn in Hb; [reflexivity|reflexivity|lia]. Qed.

Theorem termination_refuted : exists g k lim perf m,
  closed_graph g /\ (forall u, (u < gn g)%nat -> 0 <= gvw g u) /\ exact_block_weights g (m_label m) (m_weight m) /\ length (m_weight m) = k /\
  (exists p, (forall u, (u < gn g)%nat -> (p u < k)%nat) /\ forall b, (b < k)%nat -> block_weight g p b <= lim b) /\
  (forall b, (b < k)%nat -> 0 < perf b <= lim b) /\
  forall T order, Permutation (map fst order) (overloaded_nodes g lim m) ->
    exists s0, init_bal g k lim T m order = Some s0 /\ forall es s, b_run g k lim perf es s0 = Some s -> b_finished s = false.
Proof.
  exists (bal_graph [5; 5; 1; 1]), 2%nat, (fun _ => 6), (fun _ => 6), bal_stuck_mem. split; [apply bal_closed|].
  assert (HV : forall u, (u < gn (bal_graph [5; 5; 1; 1]%Z))%nat -> 0 <= gvw (bal_graph [5; 5; 1; 1]) u) by (intros [|[|[|[|u]]]] Hu; cbn in *; lia).
  split; [exact HV|]. split; [exact bal_stuck_exact|]. split; [reflexivity|]. split.
  - exists (fun u => nth u [0; 1; 0; 1] 0)%nat. split; [intros [|[|[|[|u]]]] Hu; cbn in *; lia|]. intros [|[|b]] Hb; [vm_compute; discriminate|vm_compute; discriminate|lia].
  - split; [lia|]. intros T order HP. destruct (init_ok (bal_graph [5; 5; 1; 1]) 2 (fun _ => 6) T bal_stuck_mem order) as (s0 & E & _); auto.
    { intros [|[|[|[|u]]]] Hu; cbn in *; lia. }
    exists s0. split; auto. intros es s HR.
    eapply (balancer_stuck (bal_graph [5; 5; 1; 1]) 2 (fun _ => 6) (fun _ => 6) (bal_closed _) HV bal_stuck_mem 0); eauto; try (cbn; lia).
    + intros [|[|[|[|u]]]] to Hu Ho Ht Hne; destruct to as [|[|to]]; cbn in *; try lia.
    + exact bal_stuck_exact.
    + exists 0%nat. cbn. split; [lia|auto].
Qed.
