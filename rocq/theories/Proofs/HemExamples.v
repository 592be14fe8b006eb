(* Examples for heavy edge matching: a heavier request that is dropped, and a rank without nodes. *)
From Verif Require Import Lib.Prelude Model.GridModel Model.DistGraphModel Model.RearrangeModel Model.ColoringModel Model.HemModel Spec.Graph Spec.DistGraphSpec Spec.ReplicateSpec Spec.RearrangeSpec
  Spec.ColoringSpec Spec.HemSpec Proofs.ImportProofs Proofs.DistSystemProofs Proofs.ReplicateExamples Proofs.ColoringFinal Proofs.HemFinal.

(** Three nodes on three ranks: 0 - 2 of weight 1, 1 - 2 of weight 5. *)
Definition m_dist := [0; 1; 2; 3].
Definition m_edist := [0; 1; 2; 4].
Definition m_graph : graph := mkGraph 3 (fun u => nth u [[(2, 1%Z)]; [(2, 5%Z)]; [(0, 1%Z); (1, 5%Z)]] []) (fun _ => 1%Z).
Definition m_xadj r := nth r [[0; 1]; [0; 1]; [0; 2]] [].
Definition m_adj r := nth r [[2]; [2]; [0; 1]] [].
Definition m_aw r : list Z := nth r [[1]; [5]; [1; 5]]%Z [].
Definition m_sched r := nth r [[0; 0; 0]; [0; 0; 0]; [0; 0; 0; 1; 1; 1]] [].
Definition m_state r := import_run (nth r m_dist 0) (nth (S r) m_dist 0) (m_adj r) (m_sched r)
  (import_start (nth r m_dist 0) (nth (S r) m_dist 0) (m_adj r) (map (fun _ => 99) (m_adj r))).
Definition m_dcsr r : dcsr :=
  match m_state r with
  | Some s => match import_graph 32 (fun _ => 7%Z) r m_dist m_edist (m_xadj r) [] (m_aw r) s (entries (im_map s)) with Some d => d | None => Dcsr 0 [] [] [] [] [] [] (Ghosts [] [] []) end
  | None => Dcsr 0 [] [] [] [] [] [] (Ghosts [] [] [])
  end.
Lemma m_distribution : distribution 3 (gn m_graph) m_dist.
Proof. repeat split. intros [|[|[|r]]] H; cbn; lia. Qed.
Lemma m_closed : closed_graph m_graph.
Proof. intros u v w Hu Hin. do 3 (destruct u as [|u]; [cbn in Hin; repeat (destruct Hin as [[= <- <-]|Hin]; [cbn; lia|]); destruct Hin|]). cbn in Hu. lia. Qed.
Lemma m_fit : weights_fit 32 m_graph.
Proof. split; [lia|]. intros u Hu. do 3 (destruct u as [|u]; [split; [cbn; lia|]; intros v w Hin; cbn in Hin; repeat (destruct Hin as [[= <- <-]|Hin]; [cbn; lia|]); destruct Hin|]). cbn in Hu. lia. Qed.
Lemma m_symmetric : symmetric_adjacency m_graph.
Proof. intros u v w Hu Hin. do 3 (destruct u as [|u]; [cbn in Hin; repeat (destruct Hin as [[= <- <-]|Hin]; [eexists; cbn; eauto 10|]); destruct Hin|]). cbn in Hu. lia. Qed.
Lemma m_undirected : undirected m_graph.
Proof. intros u v Hu Hv. cbn in Hu, Hv. do 3 (destruct u as [|u]; [do 3 (destruct v as [|v]; [reflexivity|]); lia|]). lia. Qed.
Lemma m_loops : no_self_loops m_graph.
Proof. intros u v w Hu Hin. do 3 (destruct u as [|u]; [cbn in Hin; repeat (destruct Hin as [[= <- <-]|Hin]; [discriminate|]); destruct Hin|]). cbn in Hu. lia. Qed.
Lemma m_arrays r : r < 3 -> rank_arrays m_graph m_dist r (m_xadj r) (m_adj r) [] (m_aw r).
Proof.
  intros Hr. do 3 (destruct r as [|r]; [split; [reflexivity|]; split; [reflexivity|]; split; [intros [|i] Hi; cbn in *; lia|]; split; [reflexivity|]; split; [auto|]; split; [auto|];
    intros [|u] Hu; cbn in Hu; try lia; split; reflexivity|]). lia.
Qed.
Lemma m_import r : r < 3 -> import_outcome 32 m_dist m_edist r (m_xadj r) (m_adj r) [] (m_aw r) (m_dcsr r).
Proof.
  intros Hr. exists (map (fun _ => 99) (m_adj r)), (m_sched r).
  do 3 (destruct r as [|r]; [do 2 eexists; exists (fun _ => 7%Z); split; [reflexivity|]; split; [vm_compute; reflexivity|]; split; [intros t Ht; cbn in Ht; intuition congruence|]; split; [reflexivity|vm_compute; reflexivity]|]). lia.
Qed.
Lemma m_distributed : distributed 3 m_graph m_dist m_edist m_dcsr.
Proof.
  apply (from_import 3 m_graph 32 m_dist m_edist m_xadj m_adj (fun _ => []) m_aw); [exact m_distribution|exact m_closed|exact m_fit|reflexivity|reflexivity| |exact m_arrays|exact m_import|].
  - intros r Hr. do 3 (destruct r as [|r]; [vm_compute; reflexivity|]). lia.
  - intros r Hr. do 3 (destruct r as [|r]; [split; [vm_compute; lia|]; split; [vm_compute; reflexivity|]; split; [intros [|i] Hi; first [vm_compute in Hi; lia | vm_compute; lia]|]; split; [vm_compute; reflexivity|right; vm_compute; reflexivity]|]). lia.
Qed.
Lemma m_ghosts : ghost_weights 3 m_graph m_dcsr.
Proof. intros r u g Hr Hu Hg. do 3 (destruct r as [|r]; [vm_compute; reflexivity|]). lia. Qed.

(** Nodes 0 and 1 have colour 0, node 2 has colour 1; all ghosts are known. *)
Definition m_color (u : nat) : nat := u / 2.
Definition m_col (r : nat) : list nat := nth r [[0; 1]; [0; 1]; [1; 0; 0]] [].
Lemma m_proper : proper_coloring m_graph m_color.
Proof. intros u v w Hu Hin. do 3 (destruct u as [|u]; [cbn in Hin; repeat (destruct Hin as [[= <- <-]|Hin]; [cbn; lia|]); destruct Hin|]). cbn in Hu. lia. Qed.
Lemma m_held : held_by 3 m_dcsr m_color m_col.
Proof.
  intros r Hr. do 3 (destruct r as [|r]; [split; [vm_compute; reflexivity|]; intros l g Hl; do 4 (destruct l as [|l]; [vm_compute in Hl; first [discriminate|injection Hl as <-; vm_compute; reflexivity]|]); vm_compute in Hl; discriminate|]). lia.
Qed.
Definition m_bids (r : nat) : list (req * bool) := nth r [[]; []; [(Req 0 0 0 1%Z, false); (Req 1 0 0 5%Z, true)]] [].
Definition m_msgs (r : nat) : list (nat * (nat * cell)) := nth r [[(2, (0, To 2))]; [(2, (0, To 2))]; [(0, (0, To 2))]] [].
Definition m_after (r : nat) : list cell := nth r [[To 2; To 2]; [Free; To 2]; [To 2; To 2; Free]] [].
Definition m_msgs' (r : nat) : list (nat * (nat * cell)) := nth r [[(2, (0, To 2))]; [(2, (0, To 2))]; []] [].
Definition m_result (r : nat) : list nat := nth r [[2; 2]; [1; 2]; [2; 2; 1]] [].
Lemma m_outcome : hem_outcome 3 m_dcsr 10 false m_col m_result.
Proof.
  exists 2, m_after. split; [vm_compute; reflexivity|]. split.
  - cbn [seq]. apply (more_rounds _ _ _ _ _ _ _ _ m_after); [|apply (more_rounds _ _ _ _ _ _ _ _ m_after); [|apply no_round]].
    + exists (color_class m_dcsr m_col 0), (fun _ _ _ => false), (fun _ _ => false), m_bids, m_msgs. cbv zeta. intros r Hr.
      do 3 (destruct r as [|r]; [split; [apply Permutation_refl|]; split; [vm_compute; apply Permutation_refl|]; split; [vm_compute; apply Permutation_refl|vm_compute; reflexivity]|]). lia.
    + exists (color_class m_dcsr m_col 1), (fun _ _ _ => false), (fun _ _ => false), (fun _ => []), m_msgs'. cbv zeta. intros r Hr.
      do 3 (destruct r as [|r]; [split; [apply Permutation_refl|]; split; [vm_compute; apply Permutation_refl|]; split; [vm_compute; apply Permutation_refl|vm_compute; reflexivity]|]). lia.
  - intros r Hr. do 3 (destruct r as [|r]; [vm_compute; reflexivity|]). lia.
Qed.
Lemma m_own r u : r < 3 -> u < dn (m_dcsr r) -> nth u (m_col r) 0 = m_color (nth r m_dist 0 + u).
Proof. intros Hr Hu. do 3 (destruct r as [|r]; [destruct u as [|u]; [reflexivity|vm_compute in Hu; lia]|]). lia. Qed.
Lemma m_nonempty r : r < 3 -> m_col r <> [].
Proof. intros Hr. do 3 (destruct r as [|r]; [discriminate|]). lia. Qed.
Definition m_label (u : nat) : nat := nth u [2; 1; 2] 0.
Lemma m_labels : held_by 3 m_dcsr m_label m_result.
Proof.
  intros r Hr. do 3 (destruct r as [|r]; [split; [vm_compute; reflexivity|]; intros l g Hl; do 4 (destruct l as [|l]; [vm_compute in Hl; first [discriminate|injection Hl as <-; vm_compute; reflexivity]|]); vm_compute in Hl; discriminate|]). lia.
Qed.
Theorem heavier_dropped : exists P G dist edist d maxw color col result label,
  distributed P G dist edist d /\ closed_graph G /\ undirected G /\ no_self_loops G /\ ghost_weights P G d /\ proper_coloring G color /\ held_by P d color col /\
  hem_outcome P d maxw false col result /\ held_by P d label result /\
  exists u v x wu wv, gadj G u = [(x, wu)] /\ gadj G v = [(x, wv)] /\ (wu < wv)%Z /\ (gvw G v + gvw G x <= maxw)%Z /\ color u = color v /\ color u < color x /\ label u = x /\ label v = v.
Proof.
  exists 3, m_graph, m_dist, m_edist, m_dcsr, 10%Z, m_color, m_col, m_result, m_label.
  split; [exact m_distributed|]. split; [exact m_closed|]. split; [exact m_undirected|]. split; [exact m_loops|]. split; [exact m_ghosts|]. split; [exact m_proper|]. split; [exact m_held|]. split; [exact m_outcome|]. split; [exact m_labels|].
  exists 0, 1, 2, 1%Z, 5%Z. cbn. repeat split; lia.
Qed.

(** Two nodes on rank 0, none on rank 1. *)
Definition e_dist := [0; 2; 2].
Definition e_edist := [0; 2; 2].
Definition e_graph : graph := mkGraph 2 (fun u => nth u [[(1, 1%Z)]; [(0, 1%Z)]] []) (fun _ => 1%Z).
Definition e_xadj r := nth r [[0; 1; 2]; [0]] [].
Definition e_adj r := nth r [[1; 0]; []] [].
Definition e_sched r := nth r [[0; 1]; []] [].
Definition e_state r := import_run (nth r e_dist 0) (nth (S r) e_dist 0) (e_adj r) (e_sched r)
  (import_start (nth r e_dist 0) (nth (S r) e_dist 0) (e_adj r) (map (fun _ => 99) (e_adj r))).
Definition e_dcsr r : dcsr :=
  match e_state r with
  | Some s => match import_graph 32 (fun _ => 7%Z) r e_dist e_edist (e_xadj r) [] [] s (entries (im_map s)) with Some d => d | None => Dcsr 0 [] [] [] [] [] [] (Ghosts [] [] []) end
  | None => Dcsr 0 [] [] [] [] [] [] (Ghosts [] [] [])
  end.
Lemma e_distribution : distribution 2 (gn e_graph) e_dist.
Proof. repeat split. intros [|[|r]] H; cbn; lia. Qed.
Lemma e_closed : closed_graph e_graph.
Proof. intros u v w Hu Hin. do 2 (destruct u as [|u]; [cbn in Hin; repeat (destruct Hin as [[= <- <-]|Hin]; [cbn; lia|]); destruct Hin|]). cbn in Hu. lia. Qed.
Lemma e_fit : weights_fit 32 e_graph.
Proof. split; [lia|]. intros u Hu. do 2 (destruct u as [|u]; [split; [cbn; lia|]; intros v w Hin; cbn in Hin; repeat (destruct Hin as [[= <- <-]|Hin]; [cbn; lia|]); destruct Hin|]). cbn in Hu. lia. Qed.
Lemma e_symmetric : symmetric_adjacency e_graph.
Proof. intros u v w Hu Hin. do 2 (destruct u as [|u]; [cbn in Hin; repeat (destruct Hin as [[= <- <-]|Hin]; [eexists; cbn; eauto 10|]); destruct Hin|]). cbn in Hu. lia. Qed.
Lemma e_undirected : undirected e_graph.
Proof. intros u v Hu Hv. cbn in Hu, Hv. do 2 (destruct u as [|u]; [do 2 (destruct v as [|v]; [reflexivity|]); lia|]). lia. Qed.
Lemma e_loops : no_self_loops e_graph.
Proof. intros u v w Hu Hin. do 2 (destruct u as [|u]; [cbn in Hin; repeat (destruct Hin as [[= <- <-]|Hin]; [discriminate|]); destruct Hin|]). cbn in Hu. lia. Qed.
Lemma e_arrays r : r < 2 -> rank_arrays e_graph e_dist r (e_xadj r) (e_adj r) [] [].
Proof.
  intros Hr. do 2 (destruct r as [|r]; [split; [reflexivity|]; split; [reflexivity|]; split; [intros [|[|i]] Hi; cbn in *; lia|]; split; [reflexivity|]; split; [auto|]; split; [auto|];
    intros [|[|u]] Hu; cbn in Hu; try lia; split; reflexivity|]). lia.
Qed.
Lemma e_import r : r < 2 -> import_outcome 32 e_dist e_edist r (e_xadj r) (e_adj r) [] [] (e_dcsr r).
Proof.
  intros Hr. exists (map (fun _ => 99) (e_adj r)), (e_sched r).
  do 2 (destruct r as [|r]; [do 2 eexists; exists (fun _ => 7%Z); split; [reflexivity|]; split; [vm_compute; reflexivity|]; split; [intros t Ht; cbn in Ht; intuition congruence|]; split; [reflexivity|vm_compute; reflexivity]|]). lia.
Qed.
Lemma e_distributed : distributed 2 e_graph e_dist e_edist e_dcsr.
Proof.
  apply (from_import 2 e_graph 32 e_dist e_edist e_xadj e_adj (fun _ => []) (fun _ => [])); [exact e_distribution|exact e_closed|exact e_fit|reflexivity|reflexivity| |exact e_arrays|exact e_import|].
  - intros r Hr. do 2 (destruct r as [|r]; [vm_compute; reflexivity|]). lia.
  - intros r Hr. do 2 (destruct r as [|r]; [split; [vm_compute; lia|]; split; [vm_compute; reflexivity|]; split; [intros [|[|i]] Hi; first [vm_compute in Hi; lia | vm_compute; lia]|]; split; [vm_compute; reflexivity|left; vm_compute; reflexivity]|]). lia.
Qed.
Lemma e_ghosts : ghost_weights 2 e_graph e_dcsr.
Proof. intros r u g Hr Hu Hg. do 2 (destruct r as [|r]; [vm_compute; reflexivity|]). lia. Qed.
Theorem empty_rank : exists P G dist edist d, distributed P G dist edist d /\ closed_graph G /\ undirected G /\ symmetric_adjacency G /\ no_self_loops G /\ ghost_weights P G d /\
  forall steps maxw ignore, 0 < steps -> (exists col, coloring_outcome P d steps col) /\ forall col result, coloring_outcome P d steps col -> ~ hem_outcome P d maxw ignore col result.
Proof.
  exists 2, e_graph, e_dist, e_edist, e_dcsr. split; [exact e_distributed|]. split; [exact e_closed|]. split; [exact e_undirected|]. split; [exact e_symmetric|]. split; [exact e_loops|]. split; [exact e_ghosts|].
  intros steps maxw ignore Hs. split; [exact (coloring_exists 2 e_graph e_dist e_edist e_dcsr steps e_distributed e_closed e_symmetric e_loops Hs)|].
  intros col result Hc. exact (hem_empty 2 e_graph e_dist e_edist e_dcsr maxw ignore steps col result 1 e_distributed e_closed e_symmetric e_loops Hs Hc (le_n 2) eq_refl eq_refl).
Qed.
