(* A distributed graph with three ranks, one of them empty: a weighted cycle 0 - 1 - 2 - 3 - 0. *)
From Verif Require Import Lib.Prelude Model.GridModel Model.DistGraphModel Model.DistMetricsModel Spec.Graph Spec.DistGraphSpec Proofs.Decide.

Definition x_dist := [0; 2; 2; 4].
Definition x_graph : graph := mkGraph 4
  (fun u => nth u [[(1, 2%Z); (3, 4%Z)]; [(0, 2%Z); (2, 3%Z)]; [(1, 3%Z); (3, 5%Z)]; [(2, 5%Z); (0, 4%Z)]] []) (fun u => nth u [10; 20; 30; 40]%Z 0%Z).
Definition x_xadj r := nth r [[0; 2; 4]; [0]; [0; 2; 4]] [].
Definition x_adj r := nth r [[1; 3; 0; 2]; []; [1; 3; 2; 0]] [].
Definition x_vw r : list Z := nth r [[10; 20]; []; [30; 40]]%Z [].
Definition x_aw r : list Z := nth r [[2; 4; 2; 3]; []; [3; 5; 5; 4]]%Z [].
(** The iterations of the edges interleave. *)
Definition x_sched r := nth r [[0; 1; 3; 2; 3; 1; 3; 1]; []; [0; 1; 0; 2; 0; 3; 3; 3]] [].
Definition x_state r := import_run (nth r x_dist 0) (nth (S r) x_dist 0) (x_adj r) (x_sched r)
  (import_start (nth r x_dist 0) (nth (S r) x_dist 0) (x_adj r) (map (fun _ => 99) (x_adj r))).
Definition x_edist := edge_distribution [4; 0; 4] 77.
Definition x_dcsr r : dcsr :=
  match x_state r with
  | Some s => match import_graph 32 (fun _ => 7%Z) r x_dist x_edist (x_xadj r) (x_vw r) (x_aw r) s (rev (entries (im_map s))) with Some d => d | None => Dcsr 0 [] [] [] [] [] [] (Ghosts [] [] []) end
  | None => Dcsr 0 [] [] [] [] [] [] (Ghosts [] [] [])
  end.

Lemma x_distribution : distribution 3 (gn x_graph) x_dist.
Proof. repeat split. intros [|[|[|r]]] H; cbn; lia. Qed.
Lemma x_closed : closed_graph x_graph.
Proof.
  intros u v w Hu Hin. do 4 (destruct u as [|u]; [cbn in Hin; repeat (destruct Hin as [[= <- <-]|Hin]; [cbn; lia|]); destruct Hin|]). cbn in Hu. lia.
Qed.
Lemma x_fit : weights_fit 32 x_graph.
Proof.
  split; [lia|]. intros u Hu. do 4 (destruct u as [|u]; [split; [cbn; lia|]; intros v w Hin; cbn in Hin; repeat (destruct Hin as [[= <- <-]|Hin]; [cbn; lia|]); destruct Hin|]). cbn in Hu. lia.
Qed.
Lemma x_symmetric : symmetric_adjacency x_graph.
Proof.
  intros u v w Hu Hin. do 4 (destruct u as [|u]; [cbn in Hin; repeat (destruct Hin as [[= <- <-]|Hin]; [eexists; cbn; eauto|]); destruct Hin|]). cbn in Hu. lia.
Qed.
Lemma x_undirected : undirected x_graph.
Proof.
  intros u v Hu Hv. cbn in Hu, Hv. do 4 (destruct u as [|u]; [do 4 (destruct v as [|v]; [reflexivity|]); lia|]). lia.
Qed.
Lemma x_arrays r : r < 3 -> rank_arrays x_graph x_dist r (x_xadj r) (x_adj r) (x_vw r) (x_aw r).
Proof.
  intros Hr. do 3 (destruct r as [|r]; [split; [reflexivity|]; split; [reflexivity|]; split; [intros [|[|i]] Hi; cbn in *; lia|]; split; [reflexivity|]; split; [auto|]; split; [auto|];
    intros [|[|u]] Hu; cbn in Hu; try lia; split; reflexivity|]). lia.
Qed.
Lemma x_import r : r < 3 -> import_outcome 32 x_dist x_edist r (x_xadj r) (x_adj r) (x_vw r) (x_aw r) (x_dcsr r).
Proof.
  intros Hr. exists (map (fun _ => 99) (x_adj r)), (x_sched r).
  do 3 (destruct r as [|r]; [do 2 eexists; exists (fun _ => 7%Z); split; [reflexivity|]; split; [vm_compute; reflexivity|]; split; [intros t Ht; cbn in Ht; intuition congruence|]; split; [symmetry; apply Permutation_rev|vm_compute; reflexivity]|]). lia.
Qed.
(** What the ranks have. *)
Lemma x_ranks : map dn (map x_dcsr [0; 1; 2]) = [2; 0; 2] /\ map dghost_n (map x_dcsr [0; 1; 2]) = [2; 0; 2] /\
  map (dlocal_to_global (x_dcsr 2)) [0; 1; 2; 3; 4] = [Some 2; Some 3; Some 1; Some 0; None] /\
  dadj (x_dcsr 2) 0 = Some [(2, 3%Z); (1, 5%Z)] /\ map (dghost_owner (x_dcsr 2)) [2; 3] = [Some 0; Some 0] /\
  dmap_remote (x_dcsr 2) 1 0 = Some 2.
Proof. repeat split; vm_compute; reflexivity. Qed.

(** The buffers for an array of values, with one thread per node. *)
Definition x_fill {V} (arr : list V) (dflt : V) (d : dcsr) (sched : list nat) : option (list (list (option (nat * V)))) :=
  bind (all_messages d (fun u => u) (fun _ _ => true) (value_message arr dflt) 2 0 (dn d)) (fun ms => bind (fill_start 3 ms) (fun s => bind (fill_run sched s) (fun s => Some (f_bufs s)))).
Definition x_bufs r : list (list (nat * Z)) := nth r [[[]; []; [(0, 10%Z); (1, 20%Z)]]; [[]; []; []]; [[(0, 30%Z); (1, 40%Z)]; []; []]] [].
Lemma x_buffers r : r < 3 -> buffers_outcome 3 (x_dcsr r) (fun u => u) (fun _ _ => true) (value_message (dc_nw (x_dcsr r)) 0%Z) 2 0 (dn (x_dcsr r)) (x_bufs r).
Proof.
  intros Hr. destruct r as [|[|[|r]]]; [| | |lia].
  - eexists _, _, [1; 0], _. split; [vm_compute; reflexivity|]. split; [vm_compute; reflexivity|]. split; [vm_compute; reflexivity|].
    split; [intros td Ht; cbn in Ht; intuition congruence|vm_compute; reflexivity].
  - eexists _, _, [], _. split; [vm_compute; reflexivity|]. split; [vm_compute; reflexivity|]. split; [vm_compute; reflexivity|].
    split; [intros td Ht; cbn in Ht; intuition congruence|vm_compute; reflexivity].
  - eexists _, _, [0; 1], _. split; [vm_compute; reflexivity|]. split; [vm_compute; reflexivity|]. split; [vm_compute; reflexivity|].
    split; [intros td Ht; cbn in Ht; intuition congruence|vm_compute; reflexivity].
Qed.
(** The blocks of the own nodes and the ghosts. *)
Definition x_part (g : nat) : nat := nth g [0; 0; 1; 1] 0.
Definition x_parts r : list nat := nth r [[0; 0; 1; 1]; []; [1; 1; 0; 0]] [].
Lemma x_parts_ok r l g : r < 3 -> dlocal_to_global (x_dcsr r) l = Some g -> nth_error (x_parts r) l = Some (x_part g).
Proof.
  intros Hr. do 3 (destruct r as [|r]; [do 4 (destruct l as [|l]; [vm_compute; intros [= <-]; reflexivity|]); intros H; vm_compute in H; destruct l; discriminate H|]). lia.
Qed.

(** Weights that do not fit: the caller passes 2^31 as the weight of a node. *)
Definition y_graph : graph := mkGraph 1 (fun _ => []) (fun _ => 2147483648%Z).
Lemma large_weights : exists G dist xadj adj vw aw d, distribution 1 (gn G) dist /\ closed_graph G /\
  rank_arrays G dist 0 xadj adj vw aw /\ import_outcome 32 dist [0; 0] 0 xadj adj vw aw d /\ 0 < dn d /\
  dnode_weight (dc_nw d) 0 = Some (-2147483648)%Z /\ gvw G 0 = 2147483648%Z.
Proof.
  exists y_graph, [0; 1], [0; 0], [], [2147483648%Z], [], (Dcsr 0 [0; 1] [0; 0] [0; 0] [] [-2147483648; 7]%Z [] (Ghosts [] [] [])).
  split; [repeat split; intros [|r] H; cbn; lia|]. split; [intros u v w _ []|]. split.
  - split; [reflexivity|]. split; [reflexivity|]. split; [intros [|i] H; cbn in *; lia|]. split; [reflexivity|]. split; [auto|]. split; [auto|]. intros [|u] H; [split; reflexivity|cbn in H; lia].
  - split; [|split; [cbn; lia|split; reflexivity]]. exists [], []. do 2 eexists. exists (fun _ => 7%Z). split; [reflexivity|]. split; [reflexivity|]. split; [intros t []|]. split; [apply Permutation_refl|vm_compute; reflexivity].
Qed.

(** A cut that does not fit: two edges of weight 3 * 2^29 = 1610612736, every node on a rank of its own. *)
Definition z_w : Z := 1610612736.
Definition z_graph : graph := mkGraph 4 (fun u => nth u [[(1, z_w)]; [(0, z_w)]; [(3, z_w)]; [(2, z_w)]] []) (fun _ => 1%Z).
Definition z_part (u : nat) : nat := nth u [0; 1; 0; 1] 0.
Definition z_dist := [0; 1; 2; 3; 4].
Definition z_edist := [0; 1; 2; 3; 4].
Definition z_other r := nth r [1; 0; 3; 2] 0.
Definition z_dcsr r := Dcsr r z_dist z_edist [0; 1] [1] [] [z_w] (Ghosts [z_other r] [z_other r] [(z_other r + 1, 1)]).
Definition z_parts r := [z_part r; z_part (z_other r)].
Lemma large_cut : distribution 4 (gn z_graph) z_dist /\ closed_graph z_graph /\ undirected z_graph /\ weights_fit 32 z_graph /\
  (forall r, r < 4 -> rank_arrays z_graph z_dist r [0; 1] [z_other r] [] [z_w] /\ import_outcome 32 z_dist z_edist r [0; 1] [z_other r] [] [z_w] (z_dcsr r)) /\
  (forall r l g, r < 4 -> dlocal_to_global (z_dcsr r) l = Some g -> nth_error (z_parts r) l = Some (z_part g)) /\
  cut_weight z_graph z_part = 3221225472%Z /\ dist_edge_cut (map z_dcsr (seq 0 4)) (map z_parts (seq 0 4)) = Some 3221225472%Z /\
  reported_cut 32 (map z_dcsr (seq 0 4)) (map z_parts (seq 0 4)) = Some (-1073741824)%Z.
Proof.
  split; [repeat split; intros [|[|[|[|r]]]] H; cbn; lia|].
  split; [intros u v w Hu Hin; do 4 (destruct u as [|u]; [cbn in Hin; destruct Hin as [[= <- <-]|[]]; cbn; lia|]); cbn in Hu; lia|].
  split; [intros u v Hu Hv; cbn in Hu, Hv; do 4 (destruct u as [|u]; [do 4 (destruct v as [|v]; [reflexivity|]); lia|]); lia|].
  split; [split; [lia|]; intros u Hu; split; [cbn; lia|]; intros v w Hin; do 4 (destruct u as [|u]; [cbn in Hin; destruct Hin as [[= <- <-]|[]]; unfold z_w; cbn; lia|]); cbn in Hu; lia|].
  split.
  { intros r Hr. do 4 (destruct r as [|r]; [split;
      [split; [reflexivity|]; split; [reflexivity|]; split; [intros [|i] Hi; cbn in *; lia|]; split; [reflexivity|]; split; [auto|]; split; [auto|]; intros [|u] Hu; cbn in Hu; [split; reflexivity|lia]
      |exists [5], [0; 0; 0]; do 2 eexists; exists (fun _ => 7%Z); split; [reflexivity|]; split; [vm_compute; reflexivity|]; split; [intros t Ht; cbn in Ht; intuition congruence|]; split; [apply Permutation_refl|vm_compute; reflexivity]]|]). lia. }
  split; [|repeat split; vm_compute; reflexivity].
  intros r l g Hr. do 4 (destruct r as [|r]; [do 2 (destruct l as [|l]; [vm_compute; intros [= <-]; reflexivity|]); intros H; vm_compute in H; destruct l; discriminate H|]). lia.
Qed.
(** A total that does not fit: two nodes of weight 3 * 2^29 on one rank; the sum is undefined although every weight fits. *)
Lemma large_total : exists G dist xadj adj vw aw d, distribution 1 (gn G) dist /\ closed_graph G /\ weights_fit 32 G /\
  rank_arrays G dist 0 xadj adj vw aw /\ import_outcome 32 dist [0; 0] 0 xadj adj vw aw d /\
  total_weight G = 3221225472%Z /\ global_total (local_total_node_weight 32) [d] = None.
Proof.
  exists (mkGraph 2 (fun _ => []) (fun _ => z_w)), [0; 2], [0; 0; 0], [], [z_w; z_w], [], (Dcsr 0 [0; 2] [0; 0] [0; 0; 0] [] [z_w; z_w; 7; 7]%Z [] (Ghosts [] [] [])).
  split; [repeat split; intros [|r] H; cbn; lia|]. split; [intros u v w _ []|]. split; [split; [lia|]; intros u Hu; split; [unfold z_w; cbn; lia|intros v w []]|]. split.
  - split; [reflexivity|]. split; [reflexivity|]. split; [intros [|[|i]] H; cbn in *; lia|]. split; [reflexivity|]. split; [auto|]. split; [auto|]. intros [|[|u]] H; [split; reflexivity|split; reflexivity|cbn in H; lia].
  - split; [|split; vm_compute; reflexivity]. exists [], []. do 2 eexists. exists (fun _ => 7%Z). split; [reflexivity|]. split; [reflexivity|]. split; [intros t []|]. split; [apply Permutation_refl|vm_compute; reflexivity].
Qed.
(** One rank passes node weights, the other has nodes but passes none: the message about the weight is written out of bounds. *)
Definition m_dcsr r := nth r
  [Dcsr 0 [0; 1; 2] [0; 1; 2] [0; 1] [1] [5; 7]%Z [] (Ghosts [1] [1] [(2, 1)]); Dcsr 1 [0; 1; 2] [0; 1; 2] [0; 1] [1] [] [] (Ghosts [0] [0] [(1, 1)])] (x_dcsr 0).
Lemma mixed_weights : receive_values (m_dcsr 1) (dc_nw (m_dcsr 1)) [(0, (0, 5%Z))] = None.
Proof. vm_compute. reflexivity. Qed.
