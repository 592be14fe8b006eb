(* A cycle with four nodes on four ranks, and one with five nodes on five ranks. *)
From Verif Require Import Lib.Prelude Model.GridModel Model.DistGraphModel Model.ReplicateModel Spec.Graph Spec.DistGraphSpec Spec.ReplicateSpec
  Proofs.ImportProofs Proofs.DistViewProofs Proofs.DistSystemProofs Proofs.ReplicateProofs.

(** Cycle with one node on every rank, unit weights. *)
Definition z_graph n : graph := mkGraph n (fun u => [((u + (n - 1)) mod n, 1%Z); ((u + 1) mod n, 1%Z)]) (fun _ => 1%Z).
Definition z_dist n := seq 0 (n + 1).
Definition z_edist n := map (fun r => 2 * r) (seq 0 (n + 1)).
Definition z_adj n r := [(r + (n - 1)) mod n; (r + 1) mod n].
Definition z_state n r := import_run r (S r) (z_adj n r) [0; 0; 0; 1; 1; 1] (import_start r (S r) (z_adj n r) [99; 99]).
Definition z_dcsr n r : dcsr :=
  match z_state n r with
  | Some s => match import_graph 32 (fun _ => 7%Z) r (z_dist n) (z_edist n) [0; 2] [] [] s (rev (entries (im_map s))) with Some d => d | None => Dcsr 0 [] [] [] [] [] [] (Ghosts [] [] []) end
  | None => Dcsr 0 [] [] [] [] [] [] (Ghosts [] [] [])
  end.
(** Each rank with a weight for its node and weights for its edges; the cycle 0 - 1 - 2 - 3 - 0. *)
Definition v_graph : graph := mkGraph 4
  (fun u => nth u [[(3, 4%Z); (1, 1%Z)]; [(0, 1%Z); (2, 2%Z)]; [(1, 2%Z); (3, 3%Z)]; [(2, 3%Z); (0, 4%Z)]] []) (fun u => nth u [10; 20; 30; 40]%Z 0%Z).
Definition v_vw r : list Z := nth r [[10]; [20]; [30]; [40]]%Z [].
Definition v_aw r : list Z := nth r [[4; 1]; [1; 2]; [2; 3]; [3; 4]]%Z [].
Definition v_dcsr r : dcsr :=
  match z_state 4 r with
  | Some s => match import_graph 32 (fun _ => 7%Z) r (z_dist 4) (z_edist 4) [0; 2] (v_vw r) (v_aw r) s (rev (entries (im_map s))) with Some d => d | None => Dcsr 0 [] [] [] [] [] [] (Ghosts [] [] []) end
  | None => Dcsr 0 [] [] [] [] [] [] (Ghosts [] [] [])
  end.
Lemma v_closed : closed_graph v_graph.
Proof. intros u v w Hu Hin. do 4 (destruct u as [|u]; [cbn in Hin; repeat (destruct Hin as [[= <- <-]|Hin]; [cbn; lia|]); destruct Hin|]). cbn in Hu. lia. Qed.
Lemma v_symmetric : symmetric_adjacency v_graph.
Proof. intros u v w Hu Hin. do 4 (destruct u as [|u]; [cbn in Hin; repeat (destruct Hin as [[= <- <-]|Hin]; [eexists; cbn; eauto|]); destruct Hin|]). cbn in Hu. lia. Qed.
Lemma v_fit : weights_fit 32 v_graph.
Proof. split; [lia|]. intros u Hu. do 4 (destruct u as [|u]; [split; [cbn; lia|]; intros v w Hin; cbn in Hin; repeat (destruct Hin as [[= <- <-]|Hin]; [cbn; lia|]); destruct Hin|]). cbn in Hu. lia. Qed.
Lemma v_dist : distribution 4 (gn v_graph) (z_dist 4).
Proof. repeat split. intros [|[|[|[|r]]]] H; cbn; lia. Qed.
Lemma v_import r : r < 4 -> import_outcome 32 (z_dist 4) (z_edist 4) r [0; 2] (z_adj 4 r) (v_vw r) (v_aw r) (v_dcsr r).
Proof.
  intros Hr. exists [99; 99], [0; 0; 0; 1; 1; 1].
  do 4 (destruct r as [|r]; [do 2 eexists; exists (fun _ => 7%Z); split; [reflexivity|]; split; [vm_compute; reflexivity|]; split; [intros t Ht; cbn in Ht; intuition congruence|]; split; [symmetry; apply Permutation_rev|vm_compute; reflexivity]|]). lia.
Qed.
Lemma v_arrays r : r < 4 -> rank_arrays v_graph (z_dist 4) r [0; 2] (z_adj 4 r) (v_vw r) (v_aw r).
Proof.
  intros Hr. do 4 (destruct r as [|r]; [split; [reflexivity|]; split; [reflexivity|]; split; [intros [|[|i]] Hi; cbn in *; lia|]; split; [reflexivity|]; split; [auto|]; split; [auto|];
    intros [|u] Hu; cbn in Hu; try lia; split; reflexivity|]). lia.
Qed.
Lemma from_import P G bits dist edist xadj adj vw aw (d : nat -> dcsr) : distribution P (gn G) dist -> closed_graph G -> weights_fit bits G ->
  length edist = P + 1 -> nth 0 edist 0 = 0 -> (forall r, r < P -> nth (S r) edist 0 = nth r edist 0 + length (dc_edges (d r))) ->
  (forall r, r < P -> rank_arrays G dist r (xadj r) (adj r) (vw r) (aw r)) -> (forall r, r < P -> import_outcome bits dist edist r (xadj r) (adj r) (vw r) (aw r) (d r)) ->
  (forall r, r < P -> csr_arrays (d r)) -> distributed P G dist edist d.
Proof.
  intros HD HC HF L Z0 ST HA HI HS. split; [exact HD|]. split; [exact L|]. split; [exact Z0|]. intros r Hr.
  destruct (import_correct P G dist bits HD HC HF edist r (xadj r) (adj r) (vw r) (aw r) (d r) Hr (HA r Hr) (HI r Hr)) as (V & W & _ & A & B & C & D).
  destruct (HS r Hr) as (S0 & S1 & S2 & S3 & S4). repeat (split; [first [exact V | exact W | exact A | exact B | exact C | exact (ST r Hr) | lia | assumption]|]). assumption.
Qed.
Lemma v_distributed : distributed 4 v_graph (z_dist 4) (z_edist 4) v_dcsr.
Proof.
  apply (from_import 4 v_graph 32 (z_dist 4) (z_edist 4) (fun _ => [0; 2]) (z_adj 4) v_vw v_aw); [exact v_dist|exact v_closed|exact v_fit|reflexivity|reflexivity| |exact v_arrays|exact v_import|].
  - intros r Hr. do 4 (destruct r as [|r]; [vm_compute; reflexivity|]). lia.
  - intros r Hr. do 4 (destruct r as [|r]; [split; [vm_compute; lia|]; split; [vm_compute; reflexivity|]; split; [intros [|i] Hi; [vm_compute; lia|vm_compute in Hi; lia]|]; split; [vm_compute; reflexivity|right; vm_compute; reflexivity]|]). lia.
Qed.
Lemma v_weights : weights_everywhere 4 v_dcsr.
Proof. split; intros _ r Hr; left; do 4 (destruct r as [|r]; [vm_compute; discriminate|]); lia. Qed.
(** The whole graph, with the nodes shifted in two pieces. *)
Lemma v_everywhere : replicate_everywhere (map v_dcsr (seq 0 4)) 2 [(2, 2); (0, 2)] =
  Some (Csr [0; 2; 4; 6; 8] [3; 1; 0; 2; 1; 3; 2; 0] [10; 20; 30; 40]%Z [4; 1; 1; 2; 2; 3; 3; 4]%Z).
Proof. vm_compute. reflexivity. Qed.
(** Two groups of two ranks. *)
Definition v_gadj q := nth q [[3; 1; 0; 2]; [1; 3; 2; 0]] [].
Definition v_sched := [0; 0; 0; 1; 3; 2; 3; 3].
Definition v_out r : dcsr :=
  let q := r / 2 in
  match import_run (2 * q) (2 * q + 2) (v_gadj q) v_sched (import_start (2 * q) (2 * q + 2) (v_gadj q) [99; 99; 99; 99]) with
  | Some s => match finalize 2 [0; 2; 4] (im_next s) (entries (im_map s)) with
      | Some gh => Dcsr q [0; 2; 4] [0; 4; 8] [0; 2; 4] (im_edges s) (nth q [[10; 20; 0; 0]; [30; 40; 0; 0]]%Z []) (nth q [[4; 1; 1; 2]; [2; 3; 3; 4]]%Z []) gh
      | None => Dcsr 0 [] [] [] [] [] [] (Ghosts [] [] []) end
  | None => Dcsr 0 [] [] [] [] [] [] (Ghosts [] [] [])
  end.
Lemma v_groups r : r < 4 -> replicate_outcome 4 2 (map v_dcsr (seq 0 4)) 64 32 r (v_out r).
Proof.
  intros Hr. do 4 (destruct r as [|r]; [do 4 eexists; exists [99; 99; 99; 99], v_sched; do 4 eexists; split; [vm_compute; reflexivity|]; split; [vm_compute; reflexivity|]; split; [vm_compute; reflexivity|]; split; [vm_compute; reflexivity|];
    cbv zeta; split; [reflexivity|]; split; [vm_compute; reflexivity|]; split; [intros t Ht; cbn in Ht; intuition congruence|]; split; [apply Permutation_refl|]; split; [vm_compute; reflexivity|]; split; [vm_compute; reflexivity|vm_compute; reflexivity]|]). lia.
Qed.
Lemma v_out_rank3 : dn (v_out 3) = 2 /\ dghost_n (v_out 3) = 2 /\ map (dlocal_to_global (v_out 3)) [0; 1; 2; 3] = [Some 2; Some 3; Some 1; Some 0] /\ dadj (v_out 3) 0 = Some [(2, 2%Z); (1, 3%Z)].
Proof. repeat split; vm_compute; reflexivity. Qed.
(** Group 0 has the partition {0, 1}, {2, 3}, group 1 the better partition {0, 3}, {1, 2}. *)
Definition v_blocks (c g : nat) : nat := nth g (nth c [[0; 0; 1; 1]; [0; 1; 1; 0]] []) 0.
Definition v_parts r : list nat := nth r [[0; 0; 1; 1]; [0; 1; 0; 1]; [1; 1; 0; 0]; [1; 0; 1; 0]] [].
Lemma v_parts_ok r : r < 4 -> nth (S (r / 2)) (new_distribution 4 2 2 (z_dist 4)) 0 - nth (r / 2) (new_distribution 4 2 2 (z_dist 4)) 0 <= length (v_parts r) /\
  forall u, u < nth (S (r / 2)) (new_distribution 4 2 2 (z_dist 4)) 0 - nth (r / 2) (new_distribution 4 2 2 (z_dist 4)) 0 -> nth_error (v_parts r) u = Some (v_blocks (r mod 2) (nth (r / 2) (new_distribution 4 2 2 (z_dist 4)) 0 + u)).
Proof. intros Hr. do 4 (destruct r as [|r]; [split; [vm_compute; lia|]; intros [|[|u]] Hu; [vm_compute; reflexivity|vm_compute; reflexivity|vm_compute in Hu; lia]|]). lia. Qed.
Lemma v_scatter : map (fun c => cut_weight v_graph (v_blocks c)) [0; 1] = [6; 4]%Z /\
  map (scatter_best 4 2 (fun r => cut_weight v_graph (v_blocks (r mod 2))) v_parts (z_dist 4)) [0; 1; 2; 3] = [Some [0]; Some [1]; Some [1]; Some [0]].
Proof. split; vm_compute; reflexivity. Qed.
(** Everybody's partition of the whole graph; ranks 1 and 3 have the best one. *)
Lemma v_best : best_partition 32 [6; 4; 8; 4]%Z [[0; 0; 1; 1]; [0; 1; 1; 0]; [0; 1; 0; 1]; [1; 0; 0; 1]] (v_dcsr 2) = Some [1; 1; 0].
Proof. vm_compute. reflexivity. Qed.

(** ** Five ranks, two groups *)
Lemma z5_closed : closed_graph (z_graph 5).
Proof. intros u v w Hu Hin. cbn in Hu. do 5 (destruct u as [|u]; [cbn in Hin; repeat (destruct Hin as [[= <- <-]|Hin]; [cbn; lia|]); destruct Hin|]). lia. Qed.
Lemma z5_undirected : undirected (z_graph 5).
Proof. intros u v Hu Hv. cbn in Hu, Hv. do 5 (destruct u as [|u]; [do 5 (destruct v as [|v]; [reflexivity|]); lia|]). lia. Qed.
Lemma z5_fit : weights_fit 32 (z_graph 5).
Proof. split; [lia|]. intros u Hu. split; [cbn; lia|]. intros v w Hin. cbn [z_graph gadj In] in Hin. destruct Hin as [E|[E|[]]]; injection E as _ <-; cbn; lia. Qed.
Lemma z5_dist : distribution 5 (gn (z_graph 5)) (z_dist 5).
Proof. repeat split. intros [|[|[|[|[|r]]]]] H; cbn; lia. Qed.
Lemma z5_import r : r < 5 -> import_outcome 32 (z_dist 5) (z_edist 5) r [0; 2] (z_adj 5 r) [] [] (z_dcsr 5 r).
Proof.
  intros Hr. exists [99; 99], [0; 0; 0; 1; 1; 1].
  do 5 (destruct r as [|r]; [do 2 eexists; exists (fun _ => 7%Z); split; [reflexivity|]; split; [vm_compute; reflexivity|]; split; [intros t Ht; cbn in Ht; intuition congruence|]; split; [symmetry; apply Permutation_rev|vm_compute; reflexivity]|]). lia.
Qed.
Lemma z5_arrays r : r < 5 -> rank_arrays (z_graph 5) (z_dist 5) r [0; 2] (z_adj 5 r) [] [].
Proof.
  intros Hr. do 5 (destruct r as [|r]; [split; [reflexivity|]; split; [reflexivity|]; split; [intros [|[|i]] Hi; cbn in *; lia|]; split; [reflexivity|]; split; [auto|]; split; [auto|];
    intros [|u] Hu; cbn in Hu; try lia; split; reflexivity|]). lia.
Qed.
Lemma z5_distributed : distributed 5 (z_graph 5) (z_dist 5) (z_edist 5) (z_dcsr 5).
Proof.
  apply (from_import 5 (z_graph 5) 32 (z_dist 5) (z_edist 5) (fun _ => [0; 2]) (z_adj 5) (fun _ => []) (fun _ => [])); [exact z5_dist|exact z5_closed|exact z5_fit|reflexivity|reflexivity| |exact z5_arrays|exact z5_import|].
  - intros r Hr. do 5 (destruct r as [|r]; [vm_compute; reflexivity|]). lia.
  - intros r Hr. do 5 (destruct r as [|r]; [split; [vm_compute; lia|]; split; [vm_compute; reflexivity|]; split; [intros [|i] Hi; [vm_compute; lia|vm_compute in Hi; lia]|]; split; [vm_compute; reflexivity|left; vm_compute; reflexivity]|]). lia.
Qed.
Lemma z5_weights : weights_everywhere 5 (z_dcsr 5).
Proof. split; intros (q & Hq & N); exfalso; apply N; do 5 (destruct q as [|q]; [vm_compute; reflexivity|]); lia. Qed.
Lemma z5_stuck wg wl : all_data 5 2 (map (z_dcsr 5) (seq 0 5)) wg wl 3 = None.
Proof.
  unfold all_data. replace (participant 5 2 3) with true by (vm_compute; reflexivity). replace (3 + 1 =? 5) with false by reflexivity. cbn [negb andb].
  replace (primary_data 5 2 (map (z_dcsr 5) (seq 0 5)) 3) with (Some ([0; 2], [1; 3; 2; 4], @nil Z)) by (vm_compute; reflexivity). cbn [bind].
  replace (primary_data 5 2 (map (z_dcsr 5) (seq 0 5)) (5 - 1)) with (Some ([0], [3; 0], @nil Z)) by (vm_compute; reflexivity). cbn [bind fst snd length]. unfold bcast. cbn [length Nat.eqb andb orb]. destruct (wg =? wl); reflexivity.
Qed.
Theorem uneven_groups : exists P R G dist edist d r, 0 < R /\ R < P /\ r < P /\ distributed P G dist edist d /\ weights_everywhere P d /\ closed_graph G /\ undirected G /\
  (forall wglobal wlocal d', ~ replicate_outcome P R (map d (seq 0 P)) wglobal wlocal r d') /\
  exists cuts parts q, q < P /\ scatter_best P R cuts parts dist q = None.
Proof.
  exists 5, 2, (z_graph 5), (z_dist 5), (z_edist 5), (z_dcsr 5), 3. split; [lia|]. split; [lia|]. split; [lia|]. split; [exact z5_distributed|]. split; [exact z5_weights|]. split; [exact z5_closed|]. split; [exact z5_undirected|]. split.
  - intros wg wl d' (d & ms & data & n0 & junk & sched & s & order & gh & nw & _ & _ & E & _). rewrite z5_stuck in E. discriminate.
  - exists (fun _ => 0%Z), (fun _ => [0; 0; 0]), 1. split; [lia|]. vm_compute. reflexivity.
Qed.
(** A cut that does not fit. *)
Definition h_graph : graph := mkGraph 3 (fun u => nth u [[(1, 2000000000%Z); (2, 2000000000%Z)]; [(0, 2000000000%Z)]; [(0, 2000000000%Z)]] []) (fun _ => 1%Z).
Theorem large_cut : exists G part, closed_graph G /\ undirected G /\ weights_fit 32 G /\ length part = gn G /\
  forall d, best_partition 32 [cut_weight G (fun u => nth u part 0)] [part] d = None.
Proof.
  exists h_graph, [0; 1; 1]. split; [|split; [|split; [|split; [reflexivity|]]]].
  - intros u v w Hu Hin. do 3 (destruct u as [|u]; [cbn in Hin; repeat (destruct Hin as [[= <- <-]|Hin]; [cbn; lia|]); destruct Hin|]). cbn in Hu. lia.
  - intros u v Hu Hv. cbn in Hu, Hv. do 3 (destruct u as [|u]; [do 3 (destruct v as [|v]; [reflexivity|]); lia|]). lia.
  - split; [lia|]. intros u Hu. do 3 (destruct u as [|u]; [split; [cbn; lia|]; intros v w Hin; cbn in Hin; repeat (destruct Hin as [[= <- <-]|Hin]; [cbn; lia|]); destruct Hin|]). cbn in Hu. lia.
  - intros d. unfold best_partition. replace (traverse (checked 32) _) with (@None (list Z)) by (vm_compute; reflexivity). reflexivity.
Qed.
Lemma v_ranges : ranges_of 4 [(2, 2); (0, 2)].
Proof. exact (Permutation_app_comm [2; 3] [0; 1]). Qed.
