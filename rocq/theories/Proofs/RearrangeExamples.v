(* Five nodes on two ranks: 0 - 1, 0 - 2, 0 - 3, 0 - 4, 2 - 3, sorted by degree and by colour. *)
From Verif Require Import Lib.Prelude Model.GridModel Model.PermModel Model.DistGraphModel Model.DistMetricsModel Model.RearrangeModel Spec.Graph Spec.DistGraphSpec Spec.ReplicateSpec
  Spec.RearrangeSpec Proofs.ImportProofs Proofs.DistViewProofs Proofs.DistSystemProofs Proofs.ReplicateProofs Proofs.ReplicateExamples Proofs.DistExamples.

Definition w_dist := [0; 3; 5].
Definition w_edist := [0; 7; 10].
Definition w_graph : graph := mkGraph 5
  (fun u => nth u [[(1, 2%Z); (2, 3%Z); (3, 4%Z); (4, 5%Z)]; [(0, 2%Z)]; [(0, 3%Z); (3, 6%Z)]; [(0, 4%Z); (2, 6%Z)]; [(0, 5%Z)]] []) (fun u => nth u [10; 20; 30; 40; 50]%Z 0%Z).
Definition w_xadj r := nth r [[0; 4; 5; 7]; [0; 2; 3]] [].
Definition w_adj r := nth r [[1; 2; 3; 4; 0; 0; 3]; [0; 2; 0]] [].
Definition w_vw r : list Z := nth r [[10; 20; 30]; [40; 50]]%Z [].
Definition w_aw r : list Z := nth r [[2; 3; 4; 5; 2; 3; 6]; [4; 6; 5]]%Z [].
Definition w_sched r := nth r [[0; 1; 2; 2; 3; 3; 2; 3; 4; 5; 6]; [1; 1; 1; 0; 0; 0; 2]] [].
Definition w_state r := import_run (nth r w_dist 0) (nth (S r) w_dist 0) (w_adj r) (w_sched r)
  (import_start (nth r w_dist 0) (nth (S r) w_dist 0) (w_adj r) (map (fun _ => 99) (w_adj r))).
Definition w_dcsr r : dcsr :=
  match w_state r with
  | Some s => match import_graph 32 (fun _ => 7%Z) r w_dist w_edist (w_xadj r) (w_vw r) (w_aw r) s (rev (entries (im_map s))) with Some d => d | None => Dcsr 0 [] [] [] [] [] [] (Ghosts [] [] []) end
  | None => Dcsr 0 [] [] [] [] [] [] (Ghosts [] [] [])
  end.
Lemma w_distribution : distribution 2 (gn w_graph) w_dist.
Proof. repeat split. intros [|[|r]] H; cbn; lia. Qed.
Lemma w_closed : closed_graph w_graph.
Proof. intros u v w Hu Hin. do 5 (destruct u as [|u]; [cbn in Hin; repeat (destruct Hin as [[= <- <-]|Hin]; [cbn; lia|]); destruct Hin|]). cbn in Hu. lia. Qed.
Lemma w_fit : weights_fit 32 w_graph.
Proof. split; [lia|]. intros u Hu. do 5 (destruct u as [|u]; [split; [cbn; lia|]; intros v w Hin; cbn in Hin; repeat (destruct Hin as [[= <- <-]|Hin]; [cbn; lia|]); destruct Hin|]). cbn in Hu. lia. Qed.
Lemma w_symmetric : symmetric_adjacency w_graph.
Proof. intros u v w Hu Hin. do 5 (destruct u as [|u]; [cbn in Hin; repeat (destruct Hin as [[= <- <-]|Hin]; [eexists; cbn; eauto 10|]); destruct Hin|]). cbn in Hu. lia. Qed.
Lemma w_undirected : undirected w_graph.
Proof. intros u v Hu Hv. cbn in Hu, Hv. do 5 (destruct u as [|u]; [do 5 (destruct v as [|v]; [reflexivity|]); lia|]). lia. Qed.
Lemma w_arrays r : r < 2 -> rank_arrays w_graph w_dist r (w_xadj r) (w_adj r) (w_vw r) (w_aw r).
Proof.
  intros Hr. do 2 (destruct r as [|r]; [split; [reflexivity|]; split; [reflexivity|]; split; [intros [|[|[|i]]] Hi; cbn in *; lia|]; split; [reflexivity|]; split; [auto|]; split; [auto|];
    intros [|[|[|u]]] Hu; cbn in Hu; try lia; split; reflexivity|]). lia.
Qed.
Lemma w_import r : r < 2 -> import_outcome 32 w_dist w_edist r (w_xadj r) (w_adj r) (w_vw r) (w_aw r) (w_dcsr r).
Proof.
  intros Hr. exists (map (fun _ => 99) (w_adj r)), (w_sched r).
  do 2 (destruct r as [|r]; [do 2 eexists; exists (fun _ => 7%Z); split; [reflexivity|]; split; [vm_compute; reflexivity|]; split; [intros t Ht; cbn in Ht; intuition congruence|]; split; [symmetry; apply Permutation_rev|vm_compute; reflexivity]|]). lia.
Qed.
Lemma w_distributed : distributed 2 w_graph w_dist w_edist w_dcsr.
Proof.
  apply (from_import 2 w_graph 32 w_dist w_edist w_xadj w_adj w_vw w_aw); [exact w_distribution|exact w_closed|exact w_fit|reflexivity|reflexivity| |exact w_arrays|exact w_import|].
  - intros r Hr. do 2 (destruct r as [|r]; [vm_compute; reflexivity|]). lia.
  - intros r Hr. do 2 (destruct r as [|r]; [split; [vm_compute; lia|]; split; [vm_compute; reflexivity|]; split; [intros [|[|[|i]]] Hi; first [vm_compute in Hi; lia | vm_compute; lia]|]; split; [vm_compute; reflexivity|right; vm_compute; reflexivity]|]). lia.
Qed.
Lemma w_room : room_for_ghosts 2 w_dcsr.
Proof. intros r Hr. right. do 2 (destruct r as [|r]; [vm_compute; lia|]). lia. Qed.
Lemma w_degrees : degrees_fit 2 w_dcsr.
Proof. intros r u Hr Hu. do 2 (destruct r as [|r]; [do 3 (destruct u as [|u]; [vm_compute; reflexivity|]); vm_compute in Hu; lia|]). lia. Qed.

(** By degree: three threads on rank 0, one on rank 1. *)
Definition w_o2n r := nth r [[2; 0; 1]; [1; 0]] [].
Definition w_n2o r := nth r [[1; 2; 0]; [1; 0]] [].
Lemma w_order : order_outcome 2 w_dcsr DegreeBuckets w_o2n w_n2o.
Proof. intros r Hr. destruct r as [|[|r]]; [exists 3|exists 1|lia]; (split; [lia|vm_compute; reflexivity]). Qed.
Definition w_bufs r : list (list (nat * nat)) := nth r [[[]; [(0, 2); (2, 1)]]; [[(0, 1); (1, 0)]; []]] [].
Definition w_msgs r : list (nat * (nat * nat)) := nth r [[(1, (1, 0)); (1, (0, 1))]; [(0, (0, 2)); (0, (2, 1))]] [].
Definition w_new r : dcsr :=
  match rearrange_rank (w_dcsr r) (w_o2n r) (w_n2o r) (map (fun _ => 99) (dc_edges (w_dcsr r))) (map (fun _ => 99%Z) (dc_nw (w_dcsr r))) (map (fun _ => 99%Z) (dc_ew (w_dcsr r))) (w_msgs r) with
  | Some d => d | None => Dcsr 0 [] [] [] [] [] [] (Ghosts [] [] []) end.
Lemma w_rearrange : rearrange_outcome 2 w_dcsr w_o2n w_n2o w_new.
Proof.
  exists (fun _ => 2), w_bufs. split.
  - intros r Hr. split; [lia|]. destruct r as [|[|r]]; [| |lia].
    + eexists _, _, [1; 0], _. split; [vm_compute; reflexivity|]. split; [vm_compute; reflexivity|]. split; [vm_compute; reflexivity|]. split; [intros td Ht; cbn in Ht; intuition congruence|vm_compute; reflexivity].
    + eexists _, _, [0; 1], _. split; [vm_compute; reflexivity|]. split; [vm_compute; reflexivity|]. split; [vm_compute; reflexivity|]. split; [intros td Ht; cbn in Ht; intuition congruence|vm_compute; reflexivity].
  - intros r Hr. exists (map (fun _ => 99) (dc_edges (w_dcsr r))), (map (fun _ => 99%Z) (dc_nw (w_dcsr r))), (map (fun _ => 99%Z) (dc_ew (w_dcsr r))), (w_msgs r).
    rewrite !map_length. split; [reflexivity|]. split; [reflexivity|]. split; [reflexivity|]. destruct r as [|[|r]]; [| |lia].
    + split; [vm_compute; apply perm_swap|vm_compute; reflexivity].
    + split; [vm_compute; apply Permutation_refl|vm_compute; reflexivity].
Qed.
Lemma w_result : dadj (w_new 0) 2 = Some [(4, 5%Z); (3, 4%Z); (1, 3%Z); (0, 2%Z)] /\ map (dlocal_to_global (w_new 0)) [3; 4] = [Some 4; Some 3] /\
  map (dnode_weight (dc_nw (w_new 0))) [0; 1; 2] = [Some 20; Some 30; Some 10]%Z.
Proof. repeat split; vm_compute; reflexivity. Qed.
(** A partition of the sorted graph: blocks of the nodes in the new order, and what the caller gets. *)
Definition w_part (g : nat) : nat := nth g [0; 1; 1; 0; 1] 0.
Definition w_parts r : list nat := nth r [[0; 1; 1; 1; 0]; [0; 1; 1; 1]] [].
Definition w_facade := Dfacade w_new w_o2n true.
Lemma w_prepares : prepares 2 [Natural; DegreeBuckets; Coloring] (df_import w_dcsr) w_facade.
Proof.
  apply (prepares_cons 2 Natural) with (f' := df_import w_dcsr); [apply prepare_keep; right; reflexivity|].
  apply (prepares_cons 2 DegreeBuckets) with (f' := w_facade); [exact (prepare_sort 2 DegreeBuckets (df_import w_dcsr) w_o2n w_n2o w_new eq_refl w_order w_rearrange)|].
  apply (prepares_cons 2 Coloring) with (f' := w_facade); [apply prepare_keep; left; reflexivity|apply prepares_nil].
Qed.
Lemma w_parts_ok r l g : r < 2 -> dlocal_to_global (df_graph w_facade r) l = Some g -> nth_error (w_parts r) l = Some (w_part g).
Proof.
  intros Hr. do 2 (destruct r as [|r]; [do 5 (destruct l as [|l]; [vm_compute; intros [= <-]; reflexivity || (intros H; vm_compute in H; discriminate H)|]); intros H; vm_compute in H; destruct l; discriminate H|]). lia.
Qed.
Lemma w_written : map (fun r => written_blocks w_facade r (w_parts r)) [0; 1] = [Some [1; 0; 1]; Some [1; 0]].
Proof. vm_compute. reflexivity. Qed.
Lemma w_cut : dist_edge_cut (map w_new (seq 0 2)) (map w_parts (seq 0 2)) = Some 7%Z.
Proof. vm_compute. reflexivity. Qed.

(** By colour. *)
Definition w_color (g : nat) : nat := nth g [0; 1; 1; 2; 1] 0.
Definition w_col r : list nat := nth r [[0; 1; 1; 2; 1]; [2; 1; 1; 0]] [].
Definition w_order1 r := nth r [[1; 0; 2]; [0; 1]] [].
Definition w_order2 r := nth r [[1; 2; 0]; [0; 1]] [].
Definition w_placed r : placed := nth r [Placed [0; 1; 3; 3] [0; 2; 1] [0; 2; 1]; Placed [0; 0; 1; 2] [1; 0] [1; 0]] (Placed [] [] []).
Lemma w_colors : (forall r, r < 2 -> length (w_col r) = dn (w_dcsr r) + dghost_n (w_dcsr r)) /\
  (forall r l g, r < 2 -> dlocal_to_global (w_dcsr r) l = Some g -> nth l (w_col r) 0 = w_color g) /\ num_colors (map w_col (seq 0 2)) = Some 3 /\
  (forall r, r < 2 -> Permutation (w_order1 r) (seq 0 (dn (w_dcsr r))) /\ Permutation (w_order2 r) (seq 0 (dn (w_dcsr r))) /\
     color_order 3 (dn (w_dcsr r)) (w_col r) (w_order1 r) (w_order2 r) = Some (w_placed r)) /\
  (forall g h w, g < gn w_graph -> In (h, w) (gadj w_graph g) -> w_color g <> w_color h).
Proof.
  split; [intros r Hr; do 2 (destruct r as [|r]; [vm_compute; reflexivity|]); lia|]. split.
  { intros r l g Hr. do 2 (destruct r as [|r]; [do 5 (destruct l as [|l]; [vm_compute; intros [= <-]; reflexivity || (intros H; vm_compute in H; discriminate H)|]); intros H; vm_compute in H; destruct l; discriminate H|]). lia. }
  split; [vm_compute; reflexivity|]. split.
  { intros r Hr. destruct r as [|[|r]]; [| |lia]; (split; [|split; [|vm_compute; reflexivity]]); vm_compute.
    - apply perm_swap. - etransitivity; [apply perm_skip, perm_swap|]. apply perm_swap. - apply Permutation_refl. - apply Permutation_refl. }
  intros g h w Hg Hin. do 5 (destruct g as [|g]; [cbn in Hin; repeat (destruct Hin as [[= <- <-]|Hin]; [vm_compute; discriminate|]); destruct Hin|]). cbn in Hg. lia.
Qed.
Lemma w_color_outcome : order_outcome 2 w_dcsr Coloring (fun r => pl_o2n (w_placed r)) (fun r => pl_n2o (w_placed r)).
Proof.
  destruct w_colors as (A & _ & C & D & _). exists w_col, 3. split; [exact C|]. intros r Hr. split; [exact (A r Hr)|]. destruct (D r Hr) as (D1 & D2 & D3). exists (w_order1 r), (w_order2 r), (w_placed r). auto.
Qed.

(** A rank without nodes has no colour at all. *)
Lemma x_distributed : distributed 3 x_graph x_dist x_edist x_dcsr.
Proof.
  apply (from_import 3 x_graph 32 x_dist x_edist x_xadj x_adj x_vw x_aw); [exact x_distribution|exact x_closed|exact x_fit|reflexivity|reflexivity| |exact x_arrays|exact x_import|].
  - intros r Hr. do 3 (destruct r as [|r]; [vm_compute; reflexivity|]). lia.
  - intros r Hr. do 3 (destruct r as [|r]; [split; [vm_compute; lia|]; split; [vm_compute; reflexivity|]; split; [intros [|[|i]] Hi; first [vm_compute in Hi; lia | vm_compute; lia]|]; split; [vm_compute; reflexivity|first [left; vm_compute; reflexivity | right; vm_compute; reflexivity]]|]). lia.
Qed.
Theorem empty_rank : exists P G dist edist d, 0 < gn G /\ distributed P G dist edist d /\ closed_graph G /\ undirected G /\ symmetric_adjacency G /\ room_for_ghosts P d /\
  forall col, (forall r, r < P -> length (col r) = dn (d r) + dghost_n (d r)) -> num_colors (map col (seq 0 P)) = None.
Proof.
  exists 3, x_graph, x_dist, x_edist, x_dcsr. split; [cbn; lia|]. split; [exact x_distributed|]. split; [exact x_closed|]. split; [exact x_undirected|]. split; [exact x_symmetric|].
  split; [intros r Hr; do 3 (destruct r as [|r]; [first [left; vm_compute; reflexivity | right; vm_compute; lia]|]); lia|].
  intros col H. pose proof (H 1 ltac:(lia)) as L. assert (E : dn (x_dcsr 1) + dghost_n (x_dcsr 1) = 0) by (vm_compute; reflexivity). rewrite E in L. apply length_zero_iff_nil in L.
  unfold num_colors. cbn [seq map traverse]. rewrite L. cbn [num_local_colors bind]. destruct (num_local_colors (col 0)); reflexivity.
Qed.
