(* Concrete v-cycles. *)
From Verif Require Import Lib.Prelude Spec.Induced Spec.Level Spec.ExtendSpec Spec.LpSpec Model.SubgraphModel Model.ExtendModel Model.DeepModel
  Model.LpClusterModel Model.VcycleModel Spec.VcycleSpec Proofs.CsrProofs Proofs.DeepProofs Proofs.ExtendCases Proofs.LpClusterExamples Proofs.VcycleProofs.

(** A refinement that moves node 0 of the finer graph to the block of its neighbour of the same community. *)
Definition join_inner (lvl ph : nat) (g : lgraph) (kp : nat) (part : list nat) : list nat :=
  if length g =? 4 then upd 0 (nth 1 part 0) part else part.
Definition ex_steps : list cstep := [CStep coarse4 (pairs 4) 2 [3; 1; 0; 2] 7].
Definition ex_comm : list nat := [1; 1; 0; 0].

Lemma ex_steps_ok : steps_ok coarse2 ex_comm ex_steps.
Proof.
  split; [reflexivity|]. split; [reflexivity|]. split; [reflexivity|].
  split; [intros x I; cbn in I; intuition; subst; cbn; lia|].
  split; [intros x I; cbn in I; cbn; destruct x as [|[|x]]; [auto|auto|lia]|].
  split.
  { apply NoDup_Permutation; [|apply seq_NoDup|].
    - repeat constructor; cbn; intuition discriminate.
    - intros x. cbn. intuition. }
  split; [|reflexivity].
  intros u v Hu Hv. cbn in Hu, Hv.
  do 4 (destruct u as [|u]; [do 4 (destruct v as [|v]; [cbn; congruence|]); lia|]). lia.
Qed.

Lemma ex_restricted : restricted ex_steps coarse2 ex_comm join_inner.
Proof.
  intros lvl ph kp part Hl g (L & _). cbn in Hl. destruct lvl as [|[|lvl]]; [| |lia].
  - exists [upd 0 (nth 1 part 0) part; part]. apply (rr_move _ _ _ _ _ 0 1 1); [constructor|cbn; lia|left; reflexivity|reflexivity|left; reflexivity].
  - exists [part]. constructor.
Qed.

Lemma ex_vcycle : steps_ok coarse2 ex_comm ex_steps /\ restricted ex_steps coarse2 ex_comm join_inner /\
  levels_ok 2 weights_carry coarse2 (rev (map level_of ex_steps)) /\ lg_ok coarse2 /\ level_ok 2 5 /\
  lazy_mem_ok (lg_is_nw coarse2) (lg_is_ew coarse2) free_smem /\
  match vcycle (ext_lazy 0 5 0 1 9 1 any_choice (fun _ => 0)) join_inner 2 2 5 true ex_steps coarse2 [free_smem] ex_comm with
  | Some (_, _, part, kp, _, tr) => Some (part, kp, tr)
  | None => None
  end = Some ([3; 3; 2; 0], 5, [5; 2]).
Proof.
  split; [exact ex_steps_ok|]. split; [exact ex_restricted|].
  destruct ex_uncoarsen as (A & B & _ & D & E & _). split; [exact A|]. split; [exact B|]. split; [exact D|]. split; [exact E|].
  vm_compute. reflexivity.
Qed.

(** The clustering of C53_two_hop_communities_refuted, contracted. *)
Definition hop_gc : lgraph := [(2%Z, [(1, 2%Z)]); (4%Z, [(0, 2%Z)])].

Lemma hop_refuted :
  exists g maxw comm s ev map gc part mems tr,
    lg_ok g /\ symmetric g /\ seq_run g maxw comm true s /\ schedule g ev /\ l_cl (finish (Some true) (Some true) g maxw ev ev s) = map /\
    lg_ok gc /\ levels_ok 1 weights_carry gc [Level g map] /\ length comm = length g /\
    vcycle (ext_lazy 0 2 0 1 9 1 any_choice (fun _ => 0)) no_refine 2 1 2 false [CStep g map (length gc) (seq 0 (length g)) 0] gc [free_smem] comm =
      Some (g, mems, part, 2, true, tr) /\
    ~ refines comm part 2 /\ (lg_cut g comm < lg_cut g part)%Z.
Proof.
  assert (R : exists mems tr, vcycle (ext_lazy 0 2 0 1 9 1 any_choice (fun _ => 0)) no_refine 2 1 2 false
     [CStep com_g [0; 1; 0] (length hop_gc) (seq 0 (length com_g)) 0] hop_gc [free_smem] com = Some (com_g, mems, [1; 0; 1], 2, true, tr))
    by (do 2 eexists; vm_compute; reflexivity).
  destruct R as (mems & tr & R).
  exists com_g, 4%Z, com, com_s3, com_ev, [0; 1; 0], hop_gc, [1; 0; 1], mems, tr.
  split; [exact com_g_ok|]. split; [exact com_g_sym|]. split; [exact com_run|]. split; [apply Permutation_refl|].
  split; [vm_compute; reflexivity|].
  split.
  { intros w adj I. cbn in I. repeat (destruct I as [I|I]; [injection I as <- <-; split; [lia|]; intros v x J; cbn in J;
      repeat (destruct J as [J|J]; [injection J as <- <-; cbn; lia|]); destruct J|]). destruct I. }
  split.
  { split; [exact com_g_ok|]. split; [vm_compute; discriminate|]. split; [reflexivity|].
    split; [intros x I; cbn in I; cbn; intuition; subst; lia|]. split; [|exact I]. split; vm_compute; auto. }
  split; [reflexivity|]. split; [exact R|]. split; [|vm_compute; reflexivity].
  intros (_ & _ & H). specialize (H 0 2). cbn in H. assert (Q : 0 = 1) by (apply H; auto with arith). discriminate Q.
Qed.

(** Cycles with 4 and 5 blocks on a path with four nodes. Pairs of nodes are contracted if the communities allow it. *)
Definition pairs_share (comm : list nat) : bool := (nth 0 comm 0 =? nth 1 comm 0) && (nth 2 comm 0 =? nth 3 comm 0).
Definition ex_cycle (k : nat) : cycle (list smem) :=
  Cycle _ k (fun comm => if pairs_share comm then ex_steps else []) (fun comm => if pairs_share comm then coarse2 else coarse4)
    (fun _ => [free_smem]) (ext_lazy 0 k 0 1 9 1 any_choice (fun _ => 0)) (fun _ => no_refine).

Lemma ex_cycle_steps comm : length comm = 4 -> pairs_share comm = true -> steps_ok coarse2 comm ex_steps.
Proof.
  intros L E. destruct ex_steps_ok as (_ & A2 & A3 & A4 & A5 & A6 & _ & _).
  unfold pairs_share in E. apply andb_prop in E as (E1 & E2). apply Nat.eqb_eq in E1, E2.
  split; [exact L|]. split; [exact A2|]. split; [exact A3|]. split; [exact A4|]. split; [exact A5|]. split; [exact A6|]. split.
  - intros u v Hu Hv. cbn in Hu, Hv.
    do 4 (destruct u as [|u]; [do 4 (destruct v as [|v]; [intros Q; first [reflexivity|exact E1|exact (eq_sym E1)|exact E2|exact (eq_sym E2)|discriminate Q]|]); lia|]). lia.
  - cbn [steps_ok]. unfold project_down. cbn. rewrite !upd_length. reflexivity.
Qed.

Lemma any_choice_ok lvl g kp : choice_ok g kp (any_choice lvl g kp).
Proof. apply ex_choice_ok. Qed.

Lemma ex_cycles : cycles_ok 2 coarse4 [ex_cycle 4; ex_cycle 5] 2 /\ labelled coarse4 2 [1; 1; 0; 0] /\
  option_map fst (vcycles 2 true [ex_cycle 4; ex_cycle 5] [1; 1; 0; 0] 2) = Some [4; 3; 2; 0].
Proof.
  destruct ex_uncoarsen as (A & B & _ & D & E & _). destruct A as (A1 & A2 & A3 & A4 & A5 & A6).
  assert (Ec : forall k ck, ck <= 4 -> forall comm, labelled coarse4 ck comm ->
    (forall m, In m (cy_mem (ex_cycle k) comm) -> lazy_mem_ok (lg_is_nw (cy_gc (ex_cycle k) comm)) (lg_is_ew (cy_gc (ex_cycle k) comm)) m) /\
    lg_ok (cy_gc (ex_cycle k) comm) /\ levels_ok 2 weights_carry (cy_gc (ex_cycle k) comm) (rev (map level_of (cy_steps (ex_cycle k) comm))) /\
    nth 0 (map c_g (cy_steps (ex_cycle k) comm)) (cy_gc (ex_cycle k) comm) = coarse4 /\
    steps_ok (cy_gc (ex_cycle k) comm) comm (cy_steps (ex_cycle k) comm) /\
    restricted (cy_steps (ex_cycle k) comm) (cy_gc (ex_cycle k) comm) comm (cy_inner (ex_cycle k) comm)).
  { intros k ck Hck comm (L & _). cbn [ex_cycle cy_mem cy_gc cy_steps cy_inner].
    split; [intros m [<-|[]]; split; intros _; cbn; lia|].
    destruct (pairs_share comm) eqn:Ep.
    - split; [exact B|]. split; [exact (conj A1 (conj A2 (conj A3 (conj A4 (conj A5 A6)))))|]. split; [reflexivity|].
      split; [apply ex_cycle_steps; [exact L|exact Ep]|]. intros lvl ph kp part _ g _. exists [part]. constructor.
    - split; [exact A1|]. split; [exact I|]. split; [reflexivity|]. split; [exact L|]. intros lvl ph kp part _ g _. exists [part]. constructor. }
  split; [|split; [split; [reflexivity|intros x H; cbn in H; intuition; subst; lia]|vm_compute; reflexivity]].
  assert (X : forall k, exists ub factor threads last_lvl nthreads choices tid,
    cy_ext (ex_cycle k) = ext_lazy ub k factor threads last_lvl nthreads choices tid /\ (factor = 0 \/ exists j, 1 <= j /\ factor = 2 ^ j) /\
         (forall lvl g kp, choice_ok g kp (choices lvl g kp)) /\ (forall b : nat, tid b < nthreads) /\
         (forall comm, length (cy_mem (ex_cycle k) comm) = nthreads)).
  { intros k. exists 0%N, 0, 1, 9, 1, any_choice, (fun _ => 0). split; [reflexivity|]. split; [left; reflexivity|].
    split; [exact any_choice_ok|]. split; [intros; lia|reflexivity]. }
  cbn [cycles_ok]. 
  split; [cbn; lia|]. split; [cbn; lia|]. split; [split; [lia|split; [cbn; lia|left; exists 1; reflexivity]]|].
  split; [exact (X 4)|]. split; [exact (Ec 4 2 ltac:(lia))|].
  split; [cbn; lia|]. split; [cbn; lia|]. split; [split; [cbn; lia|split; [cbn; lia|left; exists 2; reflexivity]]|].
  split; [exact (X 5)|]. split; [exact (Ec 5 4 ltac:(lia))|exact I].
Qed.
