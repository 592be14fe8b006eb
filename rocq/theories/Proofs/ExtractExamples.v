(* Four ranks and two blocks, two ranks and four blocks; eight ranks and three blocks, for which the code mixes up the blocks. *)
From Verif Require Import Lib.Prelude Model.GridModel Model.DistGraphModel Model.ReplicateModel Model.DistExtractModel Spec.Graph Spec.DistGraphSpec Spec.ReplicateSpec Spec.DistJetSpec
  Spec.DistExtractSpec Proofs.DistViewProofs Proofs.ExchangeProofs Proofs.ReplicateExamples Proofs.RearrangeSystem Proofs.RearrangeExamples Proofs.ExtractSystem Proofs.ExtractFinal.

(** The arrays of a partition of the nodes. *)
Definition parts_of (d : nat -> dcsr) (part : nat -> nat) (r : nat) : list nat :=
  map (fun l => match dlocal_to_global (d r) l with Some g => part g | None => 0 end) (seq 0 (dn (d r) + dghost_n (d r))).
Lemma agree_parts P G dist edist d part : distributed P G dist edist d -> agree P d (parts_of d part) part.
Proof.
  intros HD r l g Hr E. destruct (rank_data P G dist edist d HD r Hr) as [[V _ _] _]. destruct V as (_ & _ & _ & V4 & _). destruct (Nat.lt_ge_cases l (dn (d r) + dghost_n (d r))) as [H|H].
  - unfold parts_of. rewrite GridBase.nth_error_map_seq by exact H. rewrite E. reflexivity.
  - rewrite (V4 l H) in E. discriminate.
Qed.

(** ** Four ranks, blocks {0, 3} and {1, 2} of the weighted cycle *)
Definition v_part (g : nat) : nat := nth g [0; 1; 1; 0] 0.
Lemma v_part_small g : g < gn v_graph -> v_part g < 2.
Proof. intros H. do 4 (destruct g as [|g]; [cbn; lia|]). cbn in H. lia. Qed.
Definition v_parts' := parts_of v_dcsr v_part.
Lemma v_agree : agree 4 v_dcsr v_parts' v_part.
Proof. exact (agree_parts _ _ _ _ _ _ v_distributed). Qed.
Lemma few_four_two : few_left 4 2.
Proof. left. cbn. lia. Qed.
Definition v_sub (r : nat) : csr := if r <? 2 then Csr [0; 1; 2] [1; 0] [10; 40]%Z [4; 4]%Z else Csr [0; 1; 2] [1; 0] [20; 30]%Z [2; 2]%Z.
Definition v_offs (r : nat) : list nat := if r <? 2 then [0; 1; 1; 1; 2] else [0; 0; 1; 2; 2].
(** Rank 1 has the best partition of block 0, rank 2 that of block 1. *)
Definition v_cuts : list Z := [4; 0; 0; 2]%Z.
Definition v_pl (r : nat) : list nat := nth r [[0; 1]; [1; 1]; [0; 0]; [1; 0]] [].
Definition v_extracted (r : nat) : extracted :=
  match extract_local 2 (v_dcsr r) (v_parts' r) (nth r [[0; 0]; [1; 0]; [1; 1]; [1; 2]] []) (nth r [[[0]; []]; [[]; [0]]; [[]; [0]]; [[0]; []]] [])
    (map (fun l => match dlocal_to_global (v_dcsr r) l with Some g => nth g [0; 0; 1; 1] 0 | None => 0 end) (seq 0 3)) with Some x => x | None => Extracted [] [] [] [] [] [] [] end.
Lemma v_gather r : r < 4 -> gather 4 2 (map v_extracted (seq 0 4)) r = Some [(v_sub r, v_offs r)].
Proof. intros H. do 4 (destruct r as [|r]; [vm_compute; reflexivity|]). lia. Qed.
Definition v_new (r : nat) : list nat := nth r [[1]; [2]; [2]; [1]] [].
Lemma v_project r : r < 4 -> project_local 4 2 (v_dcsr r) (v_parts' r) (ex_map (v_extracted r)) v_cuts (fun r => [v_offs r]) (fun r => [(2, v_pl r)]) r = Some (v_new r).
Proof. intros H. do 4 (destruct r as [|r]; [vm_compute; reflexivity|]). lia. Qed.
(** The run: every rank numbers its only node and sends the number to its two neighbours. *)
Definition v_counts : list (list nat) := [[1; 0]; [0; 1]; [0; 1]; [1; 0]].
Definition v_pd (r : nat) : placed := match number_nodes 2 (v_dcsr r) (v_parts' r) (exscan 2 v_counts r) [0] with Some p => p | None => Placed [] [] end.
Definition v_number (r : nat) : nat := nth r [0; 0; 1; 1] 0.
Definition v_bufs (r : nat) : list (list (nat * nat)) := map (fun q => if (q =? (r + 1) mod 4) || (q =? (r + 3) mod 4) then [(0, v_number r)] else []) (seq 0 4).
Definition v_mapping (r : nat) : list nat := map (fun l => match dlocal_to_global (v_dcsr r) l with Some g => v_number g | None => 0 end) (seq 0 3).
Lemma v_run : extract_outcome 4 2 v_dcsr v_parts' v_extracted.
Proof.
  exists v_counts, (fun _ => [0]), v_pd, (fun _ => 1), v_bufs, v_mapping. split; [vm_compute; reflexivity|]. split.
  - intros r Hr. do 4 (destruct r as [|r]; [split; [apply Permutation_refl|]; split; [vm_compute; reflexivity|]; split; [lia|]; do 2 eexists; exists [0; 0]; eexists;
      split; [vm_compute; reflexivity|]; split; [vm_compute; reflexivity|]; split; [vm_compute; reflexivity|]; split; [intros todo Ht; cbn in Ht; destruct Ht as [<-|[]]; reflexivity|vm_compute; reflexivity]|]). lia.
  - intros r Hr. do 4 (destruct r as [|r]; [split; [eexists; split; [apply Permutation_refl|vm_compute; reflexivity]|vm_compute; reflexivity]|]). lia.
Qed.
Lemma v_hypotheses : extract_outcome 4 2 v_dcsr v_parts' v_extracted /\ few_left 4 2 /\ agree 4 v_dcsr v_parts' v_part /\ (forall g, g < gn v_graph -> v_part g < 2) /\
  (forall r, r < 4 -> gather 4 2 (map v_extracted (seq 0 4)) r = Some [(v_sub r, v_offs r)] /\ length (v_pl r) = gn (user_graph (cs_nodes (v_sub r)) (cs_edges (v_sub r)) (cs_nw (v_sub r)) (cs_ew (v_sub r)))).
Proof.
  split; [exact v_run|]. split; [exact few_four_two|]. split; [exact v_agree|]. split; [exact v_part_small|]. intros r Hr. split; [exact (v_gather r Hr)|]. do 4 (destruct r as [|r]; [reflexivity|]). lia.
Qed.

(** ** Two ranks, four blocks *)
Definition w_part (g : nat) : nat := nth g [0; 3; 1; 3; 2] 0.
Lemma w_part_small g : g < gn w_graph -> w_part g < 4.
Proof. intros H. do 5 (destruct g as [|g]; [cbn; lia|]). cbn in H. lia. Qed.
Definition w_parts := parts_of w_dcsr w_part.
Lemma w_agree : agree 2 w_dcsr w_parts w_part.
Proof. exact (agree_parts _ _ _ _ _ _ w_distributed). Qed.
Theorem many_blocks : exists P k G dist edist d parts part, 0 < P /\ P < k /\ k mod P = 0 /\ distributed P G dist edist d /\ closed_graph G /\ symmetric_adjacency G /\
  agree P d parts part /\ (forall g, g < gn G -> part g < k) /\ (exists ex, extract_outcome P k d parts ex) /\
  forall ex cuts subs ps parts', ~ project_outcome P k d parts ex cuts subs ps parts'.
Proof.
  exists 2, 4, w_graph, w_dist, w_edist, w_dcsr, w_parts, w_part. split; [lia|]. split; [lia|]. split; [reflexivity|]. split; [exact w_distributed|]. split; [exact w_closed|]. split; [exact w_symmetric|].
  split; [exact w_agree|]. split; [exact w_part_small|]. split; [exact (extract_exists _ _ _ _ _ _ _ _ w_distributed w_closed w_symmetric w_part_small w_agree)|].
  intros ex cuts subs ps parts' (own & threads & bufs & H & _). destruct (H 0 ltac:(lia)) as [E _]. rewrite (projection_fails 2 4 _ _ _ _ _ _ _ 1 3) in E; [discriminate|lia|vm_compute; lia|vm_compute; reflexivity|lia].
Qed.

(** ** Eight ranks, three blocks *)
Lemma z8_closed : closed_graph (z_graph 8).
Proof. intros u v w Hu Hin. cbn in Hu. do 8 (destruct u as [|u]; [cbn in Hin; repeat (destruct Hin as [[= <- <-]|Hin]; [cbn; lia|]); destruct Hin|]). lia. Qed.
Lemma z8_symmetric : symmetric_adjacency (z_graph 8).
Proof. intros u v w Hu Hin. cbn in Hu. do 8 (destruct u as [|u]; [cbn in Hin; repeat (destruct Hin as [[= <- <-]|Hin]; [eexists; cbn; eauto|]); destruct Hin|]). lia. Qed.
Lemma z8_fit : weights_fit 32 (z_graph 8).
Proof. split; [lia|]. intros u Hu. split; [cbn; lia|]. intros v w Hin. cbn [z_graph gadj In] in Hin. destruct Hin as [E|[E|[]]]; injection E as _ <-; cbn; lia. Qed.
Lemma z8_dist : distribution 8 (gn (z_graph 8)) (z_dist 8).
Proof. repeat split. intros r H. do 8 (destruct r as [|r]; [cbn; lia|]). lia. Qed.
Lemma z8_import r : r < 8 -> import_outcome 32 (z_dist 8) (z_edist 8) r [0; 2] (z_adj 8 r) [] [] (z_dcsr 8 r).
Proof.
  intros Hr. exists [99; 99], [0; 0; 0; 1; 1; 1].
  do 8 (destruct r as [|r]; [do 2 eexists; exists (fun _ => 7%Z); split; [reflexivity|]; split; [vm_compute; reflexivity|]; split; [intros t Ht; cbn in Ht; intuition congruence|]; split; [symmetry; apply Permutation_rev|vm_compute; reflexivity]|]). lia.
Qed.
Lemma z8_arrays r : r < 8 -> rank_arrays (z_graph 8) (z_dist 8) r [0; 2] (z_adj 8 r) [] [].
Proof.
  intros Hr. do 8 (destruct r as [|r]; [split; [reflexivity|]; split; [reflexivity|]; split; [intros [|[|i]] Hi; cbn in *; lia|]; split; [reflexivity|]; split; [auto|]; split; [auto|];
    intros [|u] Hu; cbn in Hu; try lia; split; reflexivity|]). lia.
Qed.
Lemma z8_distributed : distributed 8 (z_graph 8) (z_dist 8) (z_edist 8) (z_dcsr 8).
Proof.
  apply (from_import 8 (z_graph 8) 32 (z_dist 8) (z_edist 8) (fun _ => [0; 2]) (z_adj 8) (fun _ => []) (fun _ => [])); [exact z8_dist|exact z8_closed|exact z8_fit|reflexivity|reflexivity| |exact z8_arrays|exact z8_import|].
  - intros r Hr. do 8 (destruct r as [|r]; [vm_compute; reflexivity|]). lia.
  - intros r Hr. do 8 (destruct r as [|r]; [split; [vm_compute; lia|]; split; [vm_compute; reflexivity|]; split; [intros [|i] Hi; [vm_compute; lia|vm_compute in Hi; lia]|]; split; [vm_compute; reflexivity|left; vm_compute; reflexivity]|]). lia.
Qed.
(** Node 1 is in block 2, all others in block 0: rank 5 expects nothing and gets one node. *)
Definition z8_part (g : nat) : nat := if g =? 1 then 2 else 0.
Lemma z8_part_small g : g < gn (z_graph 8) -> z8_part g < 3.
Proof. intros _. unfold z8_part. destruct (g =? 1); lia. Qed.
Lemma z8_agree : agree 8 (z_dcsr 8) (parts_of (z_dcsr 8) z8_part) z8_part.
Proof. exact (agree_parts _ _ _ _ _ _ z8_distributed). Qed.
Lemma z8_mixed ex : extract_outcome 8 3 (z_dcsr 8) (parts_of (z_dcsr 8) z8_part) ex -> gather 8 3 (map ex (seq 0 8)) 5 = None.
Proof.
  intros H. destruct (run_data _ _ _ _ _ _ _ _ z8_distributed z8_closed z8_symmetric z8_part_small z8_agree ex H) as (order & pd & Hord & F). clear H.
  assert (O : forall r, r < 8 -> order r = [0]).
  { intros r Hr. pose proof (Hord r Hr) as Q. replace (seq 0 (dn (z_dcsr 8 r))) with [0] in Q by (do 8 (destruct r as [|r]; [vm_compute; reflexivity|]); lia). apply Permutation_sym, Permutation_length_1_inv in Q. exact Q. }
  assert (X : forall r, r < 8 -> exists nw ed ew mp en, ex r = Extracted (en ++ []) nw ed ew (if r =? 1 then [0; 0; 0; 1] else [0; 1; 1; 1]) (if r =? 1 then [0; 0; 0; 0] else if (r =? 0) || (r =? 2) then [0; 1; 1; 1] else [0; 2; 2; 2]) mp /\ length en = 1).
  { intros r Hr. destruct (F r Hr) as (F1 & F5 & F6). destruct (ex r) as [en nw ed ew no eo mp]. cbn [ex_nodes ex_noff ex_eoff] in F1, F5, F6. exists nw, ed, ew, mp, en. rewrite app_nil_r.
    assert (Us : forall b, us (z_dist 8) z8_part order r b = if z8_part r =? b then [0] else []).
    { intros b. unfold us, ExtractLocal.members, pb. rewrite (O r Hr). cbn [filter]. replace (nth r (z_dist 8) 0 + 0) with r by (unfold z_dist; rewrite seq_nth by lia; lia). destruct (z8_part r =? b); reflexivity. }
    unfold nds, eds, rws in *. cbn [seq map] in F1, F5, F6. rewrite !Us in F1, F5, F6. rewrite F1, F5, F6. do 8 (destruct r as [|r]; [split; vm_compute; reflexivity|]). lia. }
  clear F O Hord.
  destruct (X 0 ltac:(lia)) as (? & ? & ? & ? & [|? [|? ?]] & E0 & L0); try discriminate L0. destruct (X 1 ltac:(lia)) as (? & ? & ? & ? & [|? [|? ?]] & E1 & L1); try discriminate L1.
  destruct (X 2 ltac:(lia)) as (? & ? & ? & ? & [|? [|? ?]] & E2 & L2); try discriminate L2. destruct (X 3 ltac:(lia)) as (? & ? & ? & ? & [|? [|? ?]] & E3 & L3); try discriminate L3.
  destruct (X 4 ltac:(lia)) as (? & ? & ? & ? & [|? [|? ?]] & E4 & L4); try discriminate L4. destruct (X 5 ltac:(lia)) as (? & ? & ? & ? & [|? [|? ?]] & E5 & L5); try discriminate L5.
  destruct (X 6 ltac:(lia)) as (? & ? & ? & ? & [|? [|? ?]] & E6 & L6); try discriminate L6. destruct (X 7 ltac:(lia)) as (? & ? & ? & ? & [|? [|? ?]] & E7 & L7); try discriminate L7.
  cbn [map seq]. rewrite E0, E1, E2, E3, E4, E5, E6, E7. vm_compute. reflexivity.
Qed.
Theorem mixed_blocks : exists P k G dist edist d parts part r, 0 < k /\ k <= P /\ r < P /\ distributed P G dist edist d /\ closed_graph G /\ symmetric_adjacency G /\
  agree P d parts part /\ (forall g, g < gn G -> part g < k) /\ (exists ex, extract_outcome P k d parts ex) /\
  forall ex, extract_outcome P k d parts ex -> gather P k (map ex (seq 0 P)) r = None.
Proof.
  exists 8, 3, (z_graph 8), (z_dist 8), (z_edist 8), (z_dcsr 8), (parts_of (z_dcsr 8) z8_part), z8_part, 5. split; [lia|]. split; [lia|]. split; [lia|]. split; [exact z8_distributed|]. split; [exact z8_closed|]. split; [exact z8_symmetric|].
  split; [exact z8_agree|]. split; [exact z8_part_small|]. split; [exact (extract_exists _ _ _ _ _ _ _ _ z8_distributed z8_closed z8_symmetric z8_part_small z8_agree)|exact z8_mixed].
Qed.
(** The rank that mixes up the blocks takes block 2 instead of block 1. *)
Lemma wrong_block : 0 < 3 /\ 3 <= 8 /\ ~ few_left 8 3 /\ works_on 8 3 5 1 /\ first_block_on_pe 8 3 5 = 2.
Proof. split; [lia|]. split; [lia|]. split; [unfold few_left; cbn; lia|]. split; [vm_compute; lia|reflexivity]. Qed.
Lemma v_supported : supported 4 2.
Proof. split; [lia|]. split; [lia|]. left. split; [lia|exact few_four_two]. Qed.
Lemma v_projected : map (fun r => project_local 4 2 (v_dcsr r) (v_parts' r) (ex_map (v_extracted r)) v_cuts (fun r => [v_offs r]) (fun r => [(2, v_pl r)]) r) [0; 1; 2; 3] = [Some [1]; Some [2]; Some [2]; Some [1]].
Proof. vm_compute. reflexivity. Qed.
