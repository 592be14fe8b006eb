(* Complete calls on concrete graphs. *)
From Verif Require Import Lib.Prelude Spec.Graph Spec.Quotient Spec.Induced Spec.Level Spec.ExtendSpec Spec.PipelineSpec Model.CsrModel Model.PermModel Model.FacadeModel
  Model.UnbufModel Model.SubgraphModel Model.ExtendModel Model.DeepModel Model.PipelineModel Proofs.ExtendCases Proofs.Decide.

(** A coarsening step that joins the nodes 2i and 2i+1; thread 0 processes all of them in order and then makes [w] stores. *)
Definition half (g : graph) : list nat := map (fun u => u / 2) (seq 0 (gn g)).
Definition inorder (g : graph) : list nat := seq 0 (gn g).
Definition half_events (w : nat) (g : graph) : list uevent :=
  map (UProc 0) (seq 0 (Nat.div2 (gn g))) ++ [UFlush 0] ++ repeat (UWrite 0) w.
Definition half_step (w : nat) : cstep :=
  mkStep half inorder (fun g => rev (inorder g)) inorder (fun g => repeat 9 (gn g)) false 100 100 2 8 4 (fun x => x)
    (half_events w) (fun _ _ => ([], [])) (fun _ _ => true).

Lemma half_step_ok w : step_ok (half_step w).
Proof.
  split; [cbn; lia|]. split; [cbn; lia|]. intros g Hg. cbn [half_step st_clustering st_order0 st_order1 st_order2 st_garbage].
  split; [|split; [apply Permutation_refl|split; [apply Permutation_sym, Permutation_rev|split; [apply Permutation_refl|apply repeat_length]]]].
  intros u Hu. unfold half. rewrite nth_map_seq by auto. pose proof (Nat.div_le_upper_bound (0 + u) 2 u). lia.
Qed.

Definition alternate (g : lgraph) : list nat * nat := (alt_bip g 0 1, 2).
Definition ex_env (steps : list cstep) (c : nat) : penv :=
  mkPenv steps 2 alternate c 0 0 1 1 false any_choice (fun _ => 0) no_refine.

Lemma ex_env_ok steps c k : (forall s, In s steps -> step_ok s) -> 1 <= c -> 2 <= k -> env_ok (ex_env steps c) k.
Proof.
  intros Hs Hc Hk. split; [exact Hs|]. split; [|split; [exact Hc|split; [left; reflexivity|split; [|split]]]].
  - intros g. split; [apply (alt_bipartitioner g 0 1)|]. split; [cbn; lia|]. split; [exact Hk|left; exists 1; reflexivity].
  - intros lvl g kp. apply ex_choice_ok.
  - intros b. cbn. lia.
  - intros lvl ph g kp part H. exact H.
Qed.

Definition ex_xadj := [0; 3; 3; 4; 6; 6; 8].
Definition ex_adjncy := [2; 3; 5; 0; 0; 5; 0; 3].
Definition ex_adjwgt := [7; 1; 2; 7; 1; 3; 2; 3]%Z.
Definition ex_call (k : nat) : pcall :=
  mkPCall true k (fun _ => 3%Z) 4 (repeat 99 8) (repeat 99%Z 8) [] 2 [(1, [3; 4; 5]); (0, [0; 1; 2])] (repeat 77 8).

Lemma ex_full :
  wf_csr ex_xadj ex_adjncy [] ex_adjwgt /\ undirected (user_graph ex_xadj ex_adjncy [] ex_adjwgt) /\
  let f0 := copy_graph ex_xadj ex_adjncy [] ex_adjwgt in
  legal_call 8 8 6 (ex_env [half_step 10] 1) (ex_call 3) f0 /\
  match full_call 32 (ex_env [half_step 10] 1) (ex_call 3) f0 with
  | Ok (f, out, ret) => out = [0; 0; 1; 2; 0; 2; 77; 77] /\ ret = Some 10%Z
  | _ => False
  end.
Proof.
  split; [apply check_wf_ok; reflexivity|]. split; [apply check_undirected_ok; reflexivity|]. cbv zeta. split.
  - split; [cbn; lia|]. split; [vm_compute; reflexivity|]. split; [cbn; lia|]. split; [reflexivity|]. split; [reflexivity|].
    split; [split; [intros t ch [E|[E|[]]]; injection E as <- _; cbn; lia|apply (Permutation_app_comm [3; 4; 5] [0; 1; 2])]|].
    split; [apply ex_env_ok; [intros s [<-|[]]; apply half_step_ok|lia|cbn; lia]|].
    split; [vm_compute; discriminate|]. intros lvs E.
    assert (exists m h, coarsen_loop (pe_threshold (ex_env [half_step 10] 1)) (pe_steps (ex_env [half_step 10] 1)) true
      (cg_graph (fc_partitioner_input (ex_call 3) (copy_graph ex_xadj ex_adjncy [] ex_adjwgt))) = Ok [(m, h)] /\ In (1, 3%Z) (gadj h 0) /\ 0 < gn h) as (m & h & E' & Hin & Hn).
    { vm_compute. do 2 eexists. split; [reflexivity|]. cbn. split; [auto|lia]. }
    rewrite E' in E. injection E as <-. cbn [edge_weights_stay]. split; auto. intros _. exists 0, 1, 3%Z. split; auto. split; auto. lia.
  - vm_compute. split; reflexivity.
Qed.
Definition p8_xadj := [0; 1; 3; 5; 7; 9; 11; 13; 14].
Definition p8_adjncy := [1; 0; 2; 1; 3; 2; 4; 3; 5; 4; 6; 5; 7; 6].
Definition p8_adjwgt := [5; 5; 1; 1; 5; 5; 1; 1; 5; 5; 1; 1; 5; 5]%Z.
Definition p8_call : pcall :=
  mkPCall false 8 (fun _ => 3%Z) 4 (repeat 99 14) (repeat 99%Z 14) [] 1 [(0, seq 0 8)] (repeat 77 8).
Lemma edge_weights_lost :
  exists xadj adjncy adjwgt e c,
    let n := length xadj - 1 in
    let f0 := copy_graph xadj adjncy [] adjwgt in
    wf_csr xadj adjncy [] adjwgt /\ (forall x, In x adjwgt -> (1 <= x)%Z) /\ undirected (user_graph xadj adjncy [] adjwgt) /\
    2 <= pc_k c <= n /\ length (pc_junk_edges c) = length adjncy /\ length (pc_junk_weights c) = length adjwgt /\ 0 < pc_concurrency c /\
    valid_schedule (pc_threads c) n (pc_schedule c) /\ env_ok e (pc_k c) /\ (N.of_nat (n / pe_c e) <= 2 ^ 31)%N /\ n <= length (pc_out c) /\
    full_call 32 e c f0 = Ub.
Proof.
  exists p8_xadj, p8_adjncy, p8_adjwgt, (ex_env [half_step 24; half_step 10] 1), p8_call. cbv zeta.
  split; [apply check_wf_ok; reflexivity|].
  split; [unfold p8_adjwgt; intros x Hx; cbn in Hx; intuition lia|]. split; [apply check_undirected_ok; reflexivity|].
  split; [cbn; lia|]. split; [reflexivity|]. split; [reflexivity|]. split; [cbn; lia|].
  split; [split; [intros t ch [E|[]]; injection E as <- _; cbn; lia|apply Permutation_refl]|].
  split; [apply ex_env_ok; [intros s [<-|[<-|[]]]; apply half_step_ok|lia|cbn; lia]|].
  split; [vm_compute; discriminate|]. split; [cbn; lia|]. vm_compute. reflexivity.
Qed.
