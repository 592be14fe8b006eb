(* Concrete executions of the system of Model/BlockWeightModel.v. *)
From Verif Require Import Lib.Prelude Spec.Graph Model.BlockWeightModel Proofs.BlockWeightProofs.
Local Open Scope Z_scope.

Definition ex_g : graph := {| gn := 4; gadj := fun _ => []; gvw := fun u => nth u [2; 1; 3; 1] 0 |}.
Definition ex_s : sys := mkSys (mkMem [0; 0; 1; 1]%nat [3; 4]) [Idle; Idle].
Definition ex_lim : nat -> Z := fun _ => 5.
(** Two threads want to move node 1 (weight 1) and node 0 (weight 2) to block 1, which has room for one
    of them; both load the old weight, the second CAS fails and the operation gives up. *)
Definition ex_sched : sched :=
  [inl (0, OpMove, 1, 1)%nat; inl (1, OpMove, 3, 0)%nat; inr 0%nat; inr 1%nat; inr 0%nat; inr 1%nat;
   inr 1%nat; inr 0%nat; inr 1%nat; inr 0%nat; inr 0%nat; inr 1%nat; inl (1, OpMove, 0, 1)%nat; inr 1%nat; inr 1%nat].

Lemma ex_exact : exact_block_weights ex_g [0; 0; 1; 1]%nat [3; 4].
Proof.
  split; [reflexivity|]. split; cbn [ex_g gn length]; intros u Hu; do 4 (destruct u as [|u]; [cbn; lia|]); lia.
Qed.
Lemma ex_run : run_sched (gvw ex_g) ex_lim (firstn 12 ex_sched) ex_s = Some (mkSys (mkMem [0; 1; 1; 0]%nat [3; 4]) [Idle; Idle]).
Proof. reflexivity. Qed.

(** Two threads join the same cluster at the same time. *)
Definition lp_g : graph := {| gn := 3; gadj := fun _ => []; gvw := fun _ => 1 |}.
Definition lp_s : sys := mkSys (mkMem [0; 1; 2]%nat [1; 1; 1]) [Idle; Idle].
Definition lp_lim : nat -> Z := fun _ => 2.
Definition lp_sched : sched :=
  [inl (0, OpCluster, 0, 2)%nat; inl (1, OpCluster, 1, 2)%nat; inr 0%nat; inr 1%nat; inr 0%nat; inr 1%nat;
   inr 0%nat; inr 1%nat; inr 0%nat; inr 1%nat].
Definition lp_end : sys := mkSys (mkMem [2; 2; 2]%nat [0; 0; 3]) [Idle; Idle].

Lemma lp_exact : exact_block_weights lp_g [0; 1; 2]%nat [1; 1; 1].
Proof.
  split; [reflexivity|]. split; cbn [lp_g gn length]; intros u Hu; do 3 (destruct u as [|u]; [cbn; lia|]); lia.
Qed.
Lemma lp_run : run_sched (gvw lp_g) lp_lim lp_sched lp_s = Some lp_end.
Proof. reflexivity. Qed.

Lemma lp_refuted : exists g lim s s',
  quiescent s /\ exact_block_weights g (m_label (s_mem s)) (m_weight (s_mem s)) /\
  (forall b, (b < length (m_weight (s_mem s)))%nat -> nth b (m_weight (s_mem s)) 0 <= lim b) /\
  length (s_threads s) = 2%nat /\
  sys_steps (gvw g) lim (fun o => o = OpCluster) s s' /\ quiescent s' /\
  exists b, block_weight g (fun u => nth u (m_label (s_mem s')) 0%nat) b > lim b.
Proof.
  exists lp_g, lp_lim, lp_s, lp_end. split; [intros t [<-|[<-|[]]]; reflexivity|]. split; [exact lp_exact|].
  split; [intros b Hb; do 3 (destruct b as [|b]; [vm_compute; discriminate|]); cbn in Hb; lia|]. split; [reflexivity|].
  split; [apply (run_sched_steps _ _ _ lp_sched); [|exact lp_run]|].
  - intros i o u to H. repeat (destruct H as [H|H]; [try discriminate; injection H; intros; subst; reflexivity|]). destruct H.
  - split; [intros t [<-|[<-|[]]]; reflexivity|]. exists 2%nat. reflexivity.
Qed.
