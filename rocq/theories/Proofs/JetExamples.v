(* Concrete runs of the Jet refiner. *)
From Verif Require Import Lib.Prelude Spec.Graph Spec.Gain Model.BlockWeightModel Model.BalancerModel Model.JetModel
  Proofs.Decide Proofs.JetProofs Proofs.BalancerStuck.
Local Open Scope Z_scope.

(** Two heavy nodes and two light nodes, each pair joined by an edge that is cut. *)
Definition jg : graph :=
  mkGraph 4 (fun u => match u with 0%nat => [(1%nat, 10)] | 1%nat => [(0%nat, 10)] | 2%nat => [(3%nat, 10)] | 3%nat => [(2%nat, 10)] | _ => [] end)
    (fun u => nth u [5; 5; 1; 1] 0).
Definition jm : mem := mkMem [0; 1; 1; 0]%nat [6; 6].
Lemma jg_closed : closed_graph jg. Proof. apply check_closed_ok. reflexivity. Qed.
Lemma jg_undirected : undirected jg. Proof. apply check_undirected_ok. reflexivity. Qed.
Lemma jg_vw : forall u, (u < gn jg)%nat -> 0 <= gvw jg u. Proof. intros [|[|[|[|u]]]] Hu; cbn in *; lia. Qed.
Lemma jm_exact : exact_block_weights jg (m_label jm) (m_weight jm).
Proof. split; [reflexivity|]. split; [intros [|[|[|[|u]]]] Hu; cbn in *; lia|]. intros [|[|b]] Hb; cbn in Hb; [reflexivity|reflexivity|lia]. Qed.

(** The gain exceeds the (non-positive) temperature bound. *)
Definition warm_pos (gain conn : Z) : bool := 0 <? gain.
Definition jm' : mem := mkMem [1; 1; 0; 0]%nat [2; 10].
Lemma jet_run_ok : jet_refine jg 2 (fun _ => 12) (fun _ => 6) jm [m_label jm'] jm'.
Proof.
  exists (rollback jg [3; 2; 1; 0]%nat (Jst jm' [true; false; true; false] [1; 0; 0; 1]%nat (m_label jm') 0 true)). split; [|reflexivity].
  apply (rounds_S jg 2 (fun _ => 12) (fun _ => 6) (jet_init jg jm) [] (jet_init jg jm) [m_label jm'] _ [3; 2; 1; 0]%nat); [constructor| |apply Permutation_sym, (Permutation_rev (seq 0 4))].
  apply (its_first jg 2 (fun _ => 12) (fun _ => 6) (jet_init jg jm) (Jst jm' [true; false; true; false] [1; 0; 0; 1]%nat (m_label jm') 0 true)).
  refine (jet_it jg 2 (fun _ => 12) (fun _ => 6) (jet_init jg jm) warm_pos [3; 2; 1; 0]%nat [0; 1; 2; 3]%nat [0; 1; 2; 3]%nat jm' _ _ _ _);
    try reflexivity; [apply Permutation_sym, (Permutation_rev (seq 0 4))|].
  exists 1%nat, [], [(0, BTask 1); (0, BStep); (0, BTask 0); (0, BStep)]%nat. eexists. eexists. split; [reflexivity|]. split; [vm_compute; reflexivity|]. split; [vm_compute; reflexivity|]. split; reflexivity.
Qed.

(** From the balanced partition the moves lead to a partition from which the balancer does not come back. *)
Lemma jet_moved warm o1 o2 o3 : (forall gain conn, 0 < gain -> 0 <= conn -> warm gain conn = true) ->
  Permutation o1 (seq 0 4) -> Permutation o2 (seq 0 4) -> Permutation o3 (seq 0 4) -> moved jg 2 warm o1 o2 o3 (jet_init jg jm) = jm'.
Proof.
  intros W P1 P2 P3. rewrite (moved_any_order jg 2 warm o1 o2 o3 (seq 0 4) (seq 0 4) (seq 0 4) (jet_init jg jm)); auto; [|split; [exact jm_exact|reflexivity]].
  unfold moved. cbv zeta. assert (E : find_moves jg 2 warm (m_label jm) (repeat false 4) (seq 0 4) (repeat 0%nat 4) = [1; 0; 0; 1]%nat).
  { unfold find_moves. cbn [fold_left seq]. assert (N : forall u, (u < 4)%nat -> next_block jg 2 warm (m_label jm) (repeat false 4) u = nth u [1; 0; 0; 1]%nat 0%nat).
    { intros u Hu. unfold next_block. destruct u as [|[|[|[|u]]]]; [..|lia]; cbv -[Z.lt Z.le]; rewrite W by lia; reflexivity. }
    rewrite !N by lia. reflexivity. }
  change (m_label (j_mem (jet_init jg jm))) with (m_label jm). change (j_lock (jet_init jg jm)) with (repeat false 4). change (j_next (jet_init jg jm)) with (repeat 0%nat 4). rewrite E. vm_compute. reflexivity.
Qed.
Lemma jm'_exact : exact_block_weights jg (m_label jm') (m_weight jm').
Proof. split; [reflexivity|]. split; [intros [|[|[|[|u]]]] Hu; cbn in *; lia|]. intros [|[|b]] Hb; cbn in Hb; [reflexivity|reflexivity|lia]. Qed.
Theorem jet_never_returns : exists g k lim perf m, closed_graph g /\ undirected g /\ (forall u, (u < gn g)%nat -> 0 <= gvw g u) /\
  exact_block_weights g (m_label m) (m_weight m) /\ length (m_weight m) = k /\
  (forall b, (b < k)%nat -> 0 < perf b <= lim b) /\ (forall b, (b < k)%nat -> nth b (m_weight m) 0 <= lim b) /\
  forall warm o1 o2 o3, (forall gain conn, 0 < gain -> 0 <= conn -> warm gain conn = true) ->
    Permutation o1 (seq 0 (gn g)) -> Permutation o2 (seq 0 (gn g)) -> Permutation o3 (seq 0 (gn g)) ->
    forall T order es s0 s, Permutation (map fst order) (overloaded_nodes g lim (moved g k warm o1 o2 o3 (jet_init g m))) ->
      init_bal g k lim T (moved g k warm o1 o2 o3 (jet_init g m)) order = Some s0 ->
      b_run g k lim perf es s0 = Some s -> b_finished s = false.
Proof.
  exists jg, 2%nat, (fun _ => 6), (fun _ => 6), jm. split; [exact jg_closed|]. split; [exact jg_undirected|]. split; [exact jg_vw|]. split; [exact jm_exact|]. split; [reflexivity|].
  split; [lia|]. split; [intros [|[|b]] Hb; cbn; lia|]. intros warm o1 o2 o3 W P1 P2 P3 T order es s0 s. rewrite (jet_moved warm o1 o2 o3 W P1 P2 P3). intros HP HI HR.
  eapply (balancer_stuck jg 2 (fun _ => 6) (fun _ => 6) jg_closed jg_vw jm' 1); eauto; try (cbn; lia).
  - intros [|[|[|[|u]]]] to Hu Ho Ht Hne; destruct to as [|[|to]]; cbn in *; try lia.
  - exact jm'_exact.
  - exists 0%nat. cbn. split; [lia|auto].
Qed.

(** A path of three nodes in one block and a single node in the other one: the only overload is one node, but every
    balanced partition has a larger cut. *)
Definition jo : graph :=
  mkGraph 4 (fun u => match u with 0%nat => [(1%nat, 1)] | 1%nat => [(0%nat, 1); (2%nat, 1)] | 2%nat => [(1%nat, 1)] | _ => [] end) (fun _ => 1).
Definition jom : mem := mkMem [0; 0; 0; 1]%nat [3; 1].
Lemma jom_exact : exact_block_weights jo (m_label jom) (m_weight jom).
Proof. split; [reflexivity|]. split; [intros [|[|[|[|u]]]] Hu; cbn in *; lia|]. intros [|[|b]] Hb; cbn in Hb; [reflexivity|reflexivity|lia]. Qed.
Lemma jo_undirected : undirected jo. Proof. apply check_undirected_ok. reflexivity. Qed.
Lemma jo_closed : closed_graph jo. Proof. apply check_closed_ok. reflexivity. Qed.
Definition jo_after : jst := jet_step jo 2 warm_pos (seq 0 4) (seq 0 4) (seq 0 4) (mkMem [0; 0; 1; 1]%nat [2; 2]) (jet_init jo jom).
Lemma jo_run : jet_refine jo 2 (fun _ => 2) (fun _ => 2) jom [[0; 0; 1; 1]%nat] jom.
Proof.
  exists (rollback jo (seq 0 4) jo_after). split; [|reflexivity].
  apply (rounds_S jo 2 (fun _ => 2) (fun _ => 2) (jet_init jo jom) [] (jet_init jo jom) [[0; 0; 1; 1]%nat] jo_after (seq 0 4)); [constructor| |reflexivity].
  apply (its_first jo 2 (fun _ => 2) (fun _ => 2) (jet_init jo jom) jo_after). apply jet_it; try reflexivity.
  exists 2%nat, [(0, None); (1, None); (2, Some 0)]%nat,
    ([(0, BTask 0); (1, BTask 1); (0, BStep); (0, BStep); (0, BStep); (1, BStep); (0, BPop 2); (0, BGain 0 true); (0, BRand 0); (0, BStep);
      (0, BStep); (0, BStep); (0, BStep); (0, BStep); (0, BStep); (0, BStep); (0, BStep); (0, BStep)])%nat.
  eexists. eexists. split; [reflexivity|]. split; [vm_compute; reflexivity|]. split; [vm_compute; reflexivity|]. split; vm_compute; reflexivity.
Qed.
Theorem jet_keeps_overload : exists g k lim m, closed_graph g /\ undirected g /\ (forall u, (u < gn g)%nat -> 0 <= gvw g u) /\ (forall b, (b < k)%nat -> 0 <= lim b) /\
  exact_block_weights g (m_label m) (m_weight m) /\ length (m_weight m) = k /\
  (exists perf l, jet_refine g k lim perf m [l] m /\ (forall b, (b < k)%nat -> block_weight g (label_of l) b <= lim b)) /\
  (exists b, (b < k)%nat /\ lim b < nth b (m_weight m) 0) /\
  forall perf h m', jet_refine g k lim perf m h m' -> m' = m.
Proof.
  exists jo, 2%nat, (fun _ => 2), jom. split; [exact jo_closed|]. split; [exact jo_undirected|]. split; [intros; cbn; lia|]. split; [lia|]. split; [exact jom_exact|]. split; [reflexivity|].
  split; [exists (fun _ => 2), [0; 0; 1; 1]%nat; split; [exact jo_run|]; intros [|[|b]] Hb; [vm_compute; discriminate|vm_compute; discriminate|lia]|].
  split; [exists 0%nat; split; [lia|reflexivity]|]. intros perf h m' R.
  destruct (jet_ok jo 2 (fun _ => 2) perf jo_closed jo_undirected ltac:(intros; cbn; lia) ltac:(lia) jom h m' jom_exact eq_refl R) as (E & K & I & C & B).
  apply (ok_same jo 2); [exact (conj E K)|exact (conj jom_exact eq_refl)|]. destruct I as [I|I]; [symmetry; exact I|]. exfalso. specialize (C _ (or_introl eq_refl)). specialize (B _ I).
  destruct E as (L & H & _). rewrite K in H. destruct (m_label m') as [|a [|b [|c [|d [|]]]]]; cbn [length jo gn] in L; try discriminate.
  pose proof (H 0%nat ltac:(cbn; lia)) as H0. pose proof (H 1%nat ltac:(cbn; lia)) as H1. pose proof (H 2%nat ltac:(cbn; lia)) as H2. pose proof (H 3%nat ltac:(cbn; lia)) as H3. cbn [nth] in *.
  pose proof (B 0%nat ltac:(lia)) as B0. pose proof (B 1%nat ltac:(lia)) as B1. clear B H L I.
  destruct a as [|[|a]]; [| |lia]; destruct b as [|[|b]]; [| |lia| | |lia]; destruct c as [|[|c]]; try lia; destruct d as [|[|d]]; try lia; vm_compute in C, B0, B1; congruence.
Qed.
