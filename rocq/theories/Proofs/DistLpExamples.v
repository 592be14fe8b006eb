(* A run of the distributed label propagation refiner on the graph of DistExamples: both ranks propose one move into block 1. *)
From Verif Require Import Lib.Prelude Model.GridModel Model.DistGraphModel Model.DistLpModel Spec.Graph Spec.DistGraphSpec
  Proofs.ExchangeProofs Proofs.DistSystemProofs Proofs.DistLpProofs Proofs.DistExamples.

Lemma nth_error_firstn_lt {A} u n (l : list A) : u < n -> nth_error (firstn n l) u = nth_error l u.
Proof. revert n l. induction u as [|u IH]; intros [|n] [|x l] H; try lia; cbn; auto. apply IH. lia. Qed.

Section Statement.
Variables (P : nat) (G : graph) (dist : list nat).
Hypothesis HD : distribution P (gn G) dist.
Variable d : nat -> dcsr.
Hypothesis HV : forall r, r < P -> local_view G dist r (dn (d r)) (dghost_n (d r)) (dlocal_to_global (d r)) (dglobal_to_local (d r)) (dghost_owner (d r)) (dcontains (d r)) (dadj (d r)).
Hypothesis HR : forall r, r < P -> dc_rank (d r) = r /\ dc_dist (d r) = dist.
Hypothesis HN : forall r u, r < P -> u < dn (d r) -> dnode_weight (dc_nw (d r)) u = Some (gvw G (nth r dist 0 + u)).
Variables (k : nat) (ignore : bool) (mx : nat -> Z).
Hypothesis HC : closed_graph G.
Hypothesis HS : symmetric_adjacency G.

Lemma view_ok r : r < P -> rank_ok G dist r (d r).
Proof. intros Hr. destruct (HR r Hr). constructor; auto. Qed.

Lemma start_good parts part : (forall r l g, r < P -> dlocal_to_global (d r) l = Some g -> nth_error (parts r) l = Some (part g)) ->
  (forall g, g < gn G -> part g < k) ->
  good P G dist d k part (map (fun r => lp_start (d r) (parts r) (map (block_weight G part) (seq 0 k))) (seq 0 P)).
Proof.
  intros Hp Hk. split; [rewrite map_length, seq_length; reflexivity|]. split; [exact Hk|]. intros r s E.
  assert (Hr : r < P). { assert (r < length (map (fun r => lp_start (d r) (parts r) (map (block_weight G part) (seq 0 k))) (seq 0 P))) by (apply nth_error_Some; congruence). rewrite map_length, seq_length in *. assumption. }
  rewrite GridBase.nth_error_map_seq in E by exact Hr. injection E as <-. unfold lp_start. constructor; cbn [lp_part lp_next lp_bw].
  - intros l g Hl. exact (Hp r l g Hr Hl).
  - intros u Hu. pose proof (Hp r u _ Hr (own_l2g P G dist d view_ok r u Hr Hu)) as E.
    rewrite nth_error_map. rewrite (nth_error_firstn_lt u (dn (d r))) by exact Hu. rewrite E. reflexivity.
  - intros u Hu. apply Hk. exact (proj2 (owner_of P G dist HD d view_ok HN k mx r u Hr Hu)).
  - reflexivity.
Qed.

Theorem refine_start parts part sts' : (forall r l g, r < P -> dlocal_to_global (d r) l = Some g -> nth_error (parts r) l = Some (part g)) ->
  (forall g, g < gn G -> part g < k) ->
  refine k ignore mx (map d (seq 0 P)) (map (fun r => lp_start (d r) (parts r) (map (block_weight G part) (seq 0 k))) (seq 0 P)) sts' ->
  exists part', length sts' = P /\ (forall g, g < gn G -> part' g < k) /\
    (forall r s, nth_error sts' r = Some s -> lp_bw s = map (block_weight G part') (seq 0 k) /\
       forall l g, dlocal_to_global (d r) l = Some g -> nth_error (lp_part s) l = Some (part' g)) /\
    (ignore = false -> forall b, b < k -> (block_weight G part' b <= Z.max (mx b) (block_weight G part b))%Z).
Proof.
  intros Hp Hk R. destruct (refine_ok P G dist HD d view_ok HN k ignore mx HC HS part _ sts' (start_good parts part Hp Hk) R) as (p' & (L & B & Gd) & W).
  exists p'. split; [exact L|]. split; [exact B|]. split; [|exact W]. intros r s E. destruct (Gd r s E) as [R1 _ _ R4]. split; assumption.
Qed.

Theorem chunk_start parts part sts lo hi threads sts1 coins :
  (forall r l g, r < P -> dlocal_to_global (d r) l = Some g -> nth_error (parts r) l = Some (part g)) ->
  (forall g, g < gn G -> part g < k) ->
  refine k ignore mx (map d (seq 0 P)) (map (fun r => lp_start (d r) (parts r) (map (block_weight G part) (seq 0 k))) (seq 0 P)) sts ->
  (forall r, r < P -> lo r <= hi r <= dn (d r) /\ 0 < threads r) -> length sts1 = P ->
  (forall r s s1, nth_error sts r = Some s -> nth_error sts1 r = Some s1 -> proposes k (lo r) (hi r) s s1) ->
  exists sts2, attempts k ignore mx (map d (seq 0 P)) (fun r => seq (lo r) (hi r - lo r)) coins sts1 = Some sts2 /\ length sts2 = P /\
    forall bufs, (forall r s, nth_error sts2 r = Some s -> move_buffers P (d r) (threads r) (lo r) (hi r) s (bufs r)) ->
    forall q s msgs, nth_error sts2 q = Some s -> Permutation msgs (inbox P bufs q) -> exists s3, synchronize (d q) (lo q) (hi q) msgs s = Some s3.
Proof.
  intros Hp Hk R. destruct (refine_ok P G dist HD d view_ok HN k ignore mx HC HS part _ sts (start_good parts part Hp Hk) R) as (p' & Gd & _).
  exact (chunk_total P G dist HD d view_ok HN k ignore mx HC HS p' lo hi threads sts sts1 coins Gd).
Qed.
End Statement.

(** Nodes 0, 1, 2 in block 0 and node 3 in block 1; block weights 60 and 40, both at most 75. Rank 0 proposes node 0 (weight 10), rank 2
    proposes node 2 (weight 30) for block 1. Each move reduces the cut by 2 and fits alone. *)
Definition w_part (g : nat) : nat := nth g [0; 0; 0; 1] 0.
Definition w_parts r : list nat := map (fun l => match dlocal_to_global (x_dcsr r) l with Some g => w_part g | None => 0 end) (seq 0 (dn (x_dcsr r) + dghost_n (x_dcsr r))).
Definition w_ds := map x_dcsr (seq 0 3).
Definition w_start := map (fun r => lp_start (x_dcsr r) (w_parts r) (map (block_weight x_graph w_part) (seq 0 2))) (seq 0 3).
Definition w_next r : list (option nat) := nth r [[Some 1; Some 0]; []; [Some 1; Some 1]] [].
Definition w_prop := map (fun r => Lp (w_parts r) (w_next r) [60; 40]%Z) (seq 0 3).
Definition w_bufs r : list (list (nat * nat)) := nth r [[[]; []; [(0, 1)]]; [[]; []; []]; [[(0, 1)]; []; []]] [].
Definition w_after ignore := match attempts 2 ignore (fun _ => 75%Z) w_ds (fun r => seq 0 (dn (x_dcsr r))) [fun _ _ => true] w_prop with Some l => l | None => [] end.
Definition w_final := map (fun r => match nth_error (w_after true) r with Some s => match synchronize (x_dcsr r) 0 (dn (x_dcsr r)) (inbox 3 w_bufs r) s with Some s3 => s3 | None => Lp [] [] [] end | None => Lp [] [] [] end) (seq 0 3).

Lemma w_parts_ok r l g : r < 3 -> dlocal_to_global (x_dcsr r) l = Some g -> nth_error (w_parts r) l = Some (w_part g).
Proof.
  intros Hr. do 3 (destruct r as [|r]; [do 4 (destruct l as [|l]; [vm_compute; intros [= <-]; reflexivity|]); intros H; vm_compute in H; destruct l; discriminate H|]). lia.
Qed.
Lemma w_bound g : g < gn x_graph -> w_part g < 2.
Proof. intros H. cbn in H. do 4 (destruct g as [|g]; [cbn; lia|]). lia. Qed.
Lemma x_view r : r < 3 -> local_view x_graph x_dist r (dn (x_dcsr r)) (dghost_n (x_dcsr r)) (dlocal_to_global (x_dcsr r)) (dglobal_to_local (x_dcsr r)) (dghost_owner (x_dcsr r)) (dcontains (x_dcsr r)) (dadj (x_dcsr r)).
Proof.
  intros Hr. exact (proj1 (import_correct 3 x_graph x_dist 32 x_distribution x_closed x_fit x_edist r _ _ _ _ _ Hr (x_arrays r Hr) (x_import r Hr))).
Qed.
Lemma x_meta r : r < 3 -> dc_rank (x_dcsr r) = r /\ dc_dist (x_dcsr r) = x_dist.
Proof. intros Hr. do 3 (destruct r as [|r]; [split; vm_compute; reflexivity|]). lia. Qed.
Lemma x_weights r u : r < 3 -> u < dn (x_dcsr r) -> dnode_weight (dc_nw (x_dcsr r)) u = Some (gvw x_graph (nth r x_dist 0 + u)).
Proof. intros Hr Hu. do 3 (destruct r as [|r]; [vm_compute in Hu; do 2 (destruct u as [|u]; [vm_compute; reflexivity || (exfalso; lia)|]); lia|]). lia. Qed.

Lemma w_buffers r s : nth_error (w_after true) r = Some s -> move_buffers 3 (x_dcsr r) 2 0 (dn (x_dcsr r)) s (w_bufs r).
Proof.
  intros E. unfold move_buffers. destruct r as [|[|[|r]]]; vm_compute in E; try (destruct r; discriminate E); injection E as <-.
  - eexists _, _, [0], _. split; [vm_compute; reflexivity|]. split; [vm_compute; reflexivity|]. split; [vm_compute; reflexivity|].
    split; [intros td Ht; cbn in Ht; intuition congruence|vm_compute; reflexivity].
  - eexists _, _, [], _. split; [vm_compute; reflexivity|]. split; [vm_compute; reflexivity|]. split; [vm_compute; reflexivity|].
    split; [intros td Ht; cbn in Ht; intuition congruence|vm_compute; reflexivity].
  - eexists _, _, [0], _. split; [vm_compute; reflexivity|]. split; [vm_compute; reflexivity|]. split; [vm_compute; reflexivity|].
    split; [intros td Ht; cbn in Ht; intuition congruence|vm_compute; reflexivity].
Qed.
Lemma w_proposes r s s1 : nth_error w_start r = Some s -> nth_error w_prop r = Some s1 -> proposes 2 0 (dn (x_dcsr r)) s s1.
Proof.
  intros E E1. destruct r as [|[|[|r]]]; vm_compute in E, E1; try (destruct r; discriminate E); injection E as <-; injection E1 as <-; repeat split; cbn [lp_next];
    try (intros u [H|H]; vm_compute in H; [lia|]; do 2 (destruct u as [|u]; [try lia; reflexivity|]); destruct u; reflexivity);
    intros u [_ H]; vm_compute in H; try lia; do 2 (destruct u as [|u]; [eexists; split; [reflexivity|lia]|]); lia.
Qed.
Lemma w_nth r d : nth_error w_ds r = Some d -> r < 3 /\ d = x_dcsr r.
Proof.
  intros E. assert (L : r < length w_ds) by (apply nth_error_Some; congruence). unfold w_ds in *. rewrite map_length, seq_length in L. split; [exact L|]. rewrite GridBase.nth_error_map_seq in E by exact L. congruence.
Qed.
Lemma w_refine : refine 2 true (fun _ => 75%Z) w_ds w_start w_final.
Proof.
  apply refine_chunk with (lo := fun _ => 0) (hi := fun r => dn (x_dcsr r)) (threads := fun _ => 2) (sts1 := w_final); [| |apply refine_done].
  - intros r d E. destruct (w_nth r d E) as [_ ->]. split; lia.
  - apply chunk_moves with (sts1 := w_prop) (sts2 := w_after true) (coins := [fun _ _ => true]) (bufs := w_bufs) (msgs := inbox 3 w_bufs).
    + unfold w_start, w_ds. rewrite !map_length. reflexivity.
    + unfold w_prop, w_ds. rewrite !map_length. reflexivity.
    + exact w_proposes.
    + vm_compute. reflexivity.
    + intros r d s E Es. destruct (w_nth r d E) as [_ ->]. exact (w_buffers _ _ Es).
    + unfold w_final, w_ds. rewrite !map_length. reflexivity.
    + intros q d s E Es. split; [apply Permutation_refl|]. destruct (w_nth q d E) as [Hq ->]. clear E. destruct q as [|[|[|q]]]; [| | |lia]; vm_compute in Es; injection Es as <-; vm_compute; reflexivity.
Qed.
Lemma w_overloads : map lp_bw w_start = [[60; 40]; [60; 40]; [60; 40]]%Z /\ map lp_bw w_final = [[20; 80]; [20; 80]; [20; 80]]%Z /\
  map lp_part w_final = [[1; 0; 1; 1]; []; [1; 1; 0; 1]].
Proof. repeat split; vm_compute; reflexivity. Qed.
(** With the check, the attempt is taken back. *)
Lemma w_checked : attempts 2 false (fun _ => 75%Z) w_ds (fun r => seq 0 (dn (x_dcsr r))) [fun _ _ => true] w_prop = Some w_prop.
Proof. vm_compute. reflexivity. Qed.
(** One of the two decides against the move. *)
Lemma w_one : bind (attempts 2 false (fun _ => 75%Z) w_ds (fun r => seq 0 (dn (x_dcsr r))) [fun _ _ => true; fun r _ => r =? 2] w_prop) (fun l => Some (map lp_bw l)) = Some [[30; 70]; [30; 70]; [30; 70]]%Z.
Proof. vm_compute. reflexivity. Qed.
Lemma overloads : exists P G dist d k mx part parts sts', distribution P (gn G) dist /\ closed_graph G /\ symmetric_adjacency G /\ undirected G /\
  (forall r, r < P -> local_view G dist r (dn (d r)) (dghost_n (d r)) (dlocal_to_global (d r)) (dglobal_to_local (d r)) (dghost_owner (d r)) (dcontains (d r)) (dadj (d r))) /\
  (forall r, r < P -> dc_rank (d r) = r /\ dc_dist (d r) = dist) /\
  (forall r u, r < P -> u < dn (d r) -> dnode_weight (dc_nw (d r)) u = Some (gvw G (nth r dist 0 + u))) /\
  (forall r l g, r < P -> dlocal_to_global (d r) l = Some g -> nth_error (parts r) l = Some (part g)) /\
  (forall g, g < gn G -> part g < k) /\ (forall b, b < k -> (block_weight G part b <= mx b)%Z) /\
  refine k true mx (map d (seq 0 P)) (map (fun r => lp_start (d r) (parts r) (map (block_weight G part) (seq 0 k))) (seq 0 P)) sts' /\
  exists s b, In s sts' /\ b < k /\ Z.lt (mx b) (nth b (lp_bw s) 0%Z).
Proof.
  exists 3, x_graph, x_dist, x_dcsr, 2, (fun _ => 75%Z), w_part, w_parts, w_final.
  split; [exact x_distribution|]. split; [exact x_closed|]. split; [exact x_symmetric|]. split; [exact x_undirected|]. split; [exact x_view|]. split; [exact x_meta|]. split; [exact x_weights|].
  split; [exact w_parts_ok|]. split; [exact w_bound|]. split; [intros [|[|b]] H; try lia; vm_compute; discriminate|]. split; [exact w_refine|].
  exists (nth 0 w_final (Lp [] [] [])), 1. split; [apply nth_In; unfold w_final; rewrite map_length, seq_length; lia|]. split; [lia|]. vm_compute. reflexivity.
Qed.
