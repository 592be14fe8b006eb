(* Four nodes on two ranks: 0 - 1, 1 - 2, 2 - 3, where the middle edge is twice as heavy. Jet swaps the nodes 1 and 2. *)
From Verif Require Import Lib.Prelude Model.GridModel Model.DistGraphModel Model.DistMetricsModel Model.DistLpModel Model.LimitsModel Model.DistJetModel Spec.Graph Spec.DistGraphSpec
  Spec.ReplicateSpec Spec.DistJetSpec Proofs.ImportProofs Proofs.DistViewProofs Proofs.DistSystemProofs Proofs.ReplicateProofs Proofs.ReplicateExamples Proofs.DistExamples Proofs.DistJetFinal Proofs.ColoringSystem Proofs.CsrProofs.
From Flocq Require Import IEEE754.BinarySingleNaN.

Definition j_graph (s : Z) : graph := mkGraph 4 (fun u => nth u [[(1, s)]; [(0, s); (2, (2 * s)%Z)]; [(1, (2 * s)%Z); (3, s)]; [(2, s)]] []) (fun u => nth u [1; 1; 1; 1]%Z 0%Z).
Definition j_dist := [0; 2; 4].
Definition j_edist := [0; 3; 6].
Definition j_xadj r := nth r [[0; 1; 3]; [0; 2; 3]] [].
Definition j_adj r := nth r [[1; 0; 2]; [1; 3; 2]] [].
Definition j_vw r : list Z := nth r [[1; 1]; [1; 1]]%Z [].
Definition j_aw (s : Z) r : list Z := nth r [[s; s; 2 * s]; [2 * s; s; s]]%Z [].
Definition j_sched r := nth r [[0; 1; 2; 2; 2]; [0; 0; 0; 1; 2]] [].
Definition j_state r := import_run (nth r j_dist 0) (nth (S r) j_dist 0) (j_adj r) (j_sched r)
  (import_start (nth r j_dist 0) (nth (S r) j_dist 0) (j_adj r) (map (fun _ => 99) (j_adj r))).
Definition j_dcsr (s : Z) r : dcsr :=
  match j_state r with
  | Some st => match import_graph 32 (fun _ => 7%Z) r j_dist j_edist (j_xadj r) (j_vw r) ((j_aw s) r) st (rev (entries (im_map st))) with Some d => d | None => Dcsr 0 [] [] [] [] [] [] (Ghosts [] [] []) end
  | None => Dcsr 0 [] [] [] [] [] [] (Ghosts [] [] [])
  end.

Definition j_scale (s : Z) : Prop := s = 1%Z \/ s = (2 ^ 29)%Z.
Lemma j_distribution s : distribution 2 (gn (j_graph s)) j_dist.
Proof. repeat split. intros [|[|r]] H; cbn; lia. Qed.
Lemma j_closed s : closed_graph (j_graph s).
Proof. intros u v w Hu Hin. do 4 (destruct u as [|u]; [cbn in Hin; repeat (destruct Hin as [[= <- <-]|Hin]; [cbn; lia|]); destruct Hin|]). cbn in Hu. lia. Qed.
Lemma j_fit s (Hs : j_scale s) : weights_fit 32 (j_graph s).
Proof.
  split; [lia|]. intros u Hu. do 4 (destruct u as [|u]; [split; [cbn; lia|]; intros v w Hin; cbn [gadj j_graph nth In] in Hin; repeat (destruct Hin as [[= <- <-]|Hin]; [destruct Hs as [->| ->]; cbn; lia|]); destruct Hin|]).
  cbn in Hu. lia.
Qed.
Lemma j_symmetric s : symmetric_adjacency (j_graph s).
Proof. intros u v w Hu Hin. do 4 (destruct u as [|u]; [cbn in Hin; repeat (destruct Hin as [[= <- <-]|Hin]; [eexists; cbn; eauto 10|]); destruct Hin|]). cbn in Hu. lia. Qed.
Lemma j_undirected s : undirected (j_graph s).
Proof. intros u v Hu Hv. cbn in Hu, Hv. do 4 (destruct u as [|u]; [do 4 (destruct v as [|v]; [reflexivity|]); lia|]). lia. Qed.
Lemma j_arrays s r : r < 2 -> rank_arrays (j_graph s) j_dist r (j_xadj r) (j_adj r) (j_vw r) ((j_aw s) r).
Proof.
  intros Hr. do 2 (destruct r as [|r]; [split; [reflexivity|]; split; [reflexivity|]; split; [intros [|[|[|i]]] Hi; cbn in *; lia|]; split; [reflexivity|]; split; [auto|]; split; [auto|];
    intros [|[|[|u]]] Hu; cbn in Hu; try lia; split; reflexivity|]). lia.
Qed.
Lemma j_import s (Hs : j_scale s) r : r < 2 -> import_outcome 32 j_dist j_edist r (j_xadj r) (j_adj r) (j_vw r) ((j_aw s) r) ((j_dcsr s) r).
Proof.
  intros Hr. exists (map (fun _ => 99) (j_adj r)), (j_sched r). destruct (j_state r) as [st|] eqn:E.
  2: { do 2 (destruct r as [|r]; [vm_compute in E; discriminate E|]). lia. }
  exists st, (rev (entries (im_map st))), (fun _ => 7%Z). split; [now rewrite map_length|]. split; [exact E|]. split; [|split; [symmetry; apply Permutation_rev|]].
  - do 2 (destruct r as [|r]; [vm_compute in E; injection E as <-; intros t Ht; cbn in Ht; intuition congruence|]). lia.
  - unfold j_dcsr. rewrite E. destruct import_graph as [d|] eqn:F; [reflexivity|]. exfalso. revert F.
    destruct Hs as [->| ->]; (do 2 (destruct r as [|r]; [vm_compute in E; injection E as <-; vm_compute; discriminate|])); lia.
Qed.
Lemma j_distributed s (Hs : j_scale s) : distributed 2 (j_graph s) j_dist j_edist (j_dcsr s).
Proof.
  apply (from_import 2 (j_graph s) 32 j_dist j_edist j_xadj j_adj j_vw (j_aw s)); [exact (j_distribution s)|exact (j_closed s)|exact (j_fit s Hs)|reflexivity|reflexivity| |exact (j_arrays s)|exact (j_import s Hs)|].
  - intros r Hr. do 2 (destruct r as [|r]; [destruct Hs as [->| ->]; vm_compute; reflexivity|]). lia.
  - destruct Hs as [->| ->]; intros r Hr; (do 2 (destruct r as [|r]; [split; [vm_compute; lia|]; split; [vm_compute; reflexivity|]; split; [intros [|[|[|i]]] Hi; first [vm_compute in Hi; lia | vm_compute; lia]|]; split; [vm_compute; reflexivity|right; vm_compute; reflexivity]|])); lia.
Qed.

(** One iteration. *)
Definition j_quarter : double := d_div (d_of 1) (d_of 4).
Definition j_warm : Z -> Z -> bool := passes (gain_factor false true (d_of 0) (d_of 0) j_quarter (d_of 0) 0 1).
Definition j_part (g : nat) : nat := nth g [0; 0; 1; 1] 0.
Definition j_part' (g : nat) : nat := nth g [0; 1; 0; 1] 0.
Definition j_parts r : list nat := nth r [[0; 0; 1]; [1; 1; 0]] [].
Definition j_parts' r : list nat := nth r [[0; 1; 0]; [0; 1; 1]] [].
Definition j_locked (r : nat) : list bool := [false; false].
Definition j_locked' r : list bool := nth r [[false; true]; [true; false]] [].
Definition j_tries (s : Z) r : list (Z * nat) := nth r [[(0%Z, 0); (s, 1); (0%Z, 1)]; [(s, 0); (0%Z, 1); (0%Z, 0)]] [].
Definition j_moves (s : Z) r : list (Z * nat) := nth r [[(0%Z, 0); (s, 1); (s, 0)]; [(s, 0); (0%Z, 1); (s, 1)]] [].
Definition j_bufs (s : Z) r : list (list (nat * (Z * nat))) := nth r [[[]; [(1, (s, 1))]]; [[(0, (s, 0))]; []]] [].
Definition j_msgs (s : Z) r : list (nat * (nat * (Z * nat))) := nth r [[(1, (0, (s, 0)))]; [(0, (1, (s, 1)))]] [].
Definition j_bufs2 r : list (list (nat * nat)) := nth r [[[]; [(1, 1)]]; [[(0, 0)]; []]] [].
Definition j_msgs2 r : list (nat * (nat * nat)) := nth r [[(1, (0, 0))]; [(0, (1, 1))]] [].
Definition j_bw (r : nat) : list Z := [2; 2]%Z.
Definition j_mx : list Z := [2; 2]%Z.
Definition j_rnd (r u : nat) (l : list (nat * Z)) := map (fun e => (e, false)) l.
Lemma j_moved s (Hs : j_scale s) : moved 2 2 (j_dcsr s) j_warm j_parts j_locked j_parts' j_locked' (j_moves s) [0; 0]%Z.
Proof.
  exists j_rnd, (j_tries s), (fun _ => 1), (j_bufs s), (j_msgs s), (fun r => nth r [[0; 1; 1]; [0; 1; 0]] []), (fun r => nth r [[-1; 1]; [1; -1]]%Z []), (fun _ => 1), j_bufs2, j_msgs2.
  assert (R : forall (l : list (nat * Z)), map fst (map (fun e => (e, false)) l) = l) by (intros l; rewrite map_map; apply map_id).
  split; [|split; [|split]].
  - intros r Hr. split; [intros u l; unfold j_rnd; rewrite R; apply Permutation_refl|]. do 2 (destruct r as [|r]; [split; [destruct Hs as [->| ->]; vm_compute; reflexivity|]; split; [lia|]; destruct Hs as [->| ->];
      (eexists _, _, [0], _; split; [vm_compute; reflexivity|]; split; [vm_compute; reflexivity|]; split; [vm_compute; reflexivity|]; split; [intros td Ht; cbn in Ht; intuition congruence|vm_compute; reflexivity])|]). lia.
  - intros r Hr. do 2 (destruct r as [|r]; [destruct Hs as [->| ->]; (split; [vm_compute; apply Permutation_refl|]; split; [vm_compute; reflexivity|]; split; [vm_compute; reflexivity|]; split; [vm_compute; reflexivity|]; split; [lia|];
      eexists _, _, [0], _; split; [vm_compute; reflexivity|]; split; [vm_compute; reflexivity|]; split; [vm_compute; reflexivity|]; split; [intros td Ht; cbn in Ht; intuition congruence|vm_compute; reflexivity])|]). lia.
  - intros r Hr. do 2 (destruct r as [|r]; [destruct Hs as [->| ->]; (split; [vm_compute; apply Permutation_refl|vm_compute; reflexivity])|]). lia.
  - reflexivity.
Qed.
Lemma j_resting s (Hs : j_scale s) r u : r < 2 -> u < dn ((j_dcsr s) r) -> nth_error (j_locked r) u = Some ((fun _ => false) (nth r j_dist 0 + u)).
Proof. intros Hr Hu. assert (dn ((j_dcsr s) r) = 2) by (do 2 (destruct r as [|r]; [destruct Hs as [->| ->]; vm_compute; reflexivity|]); lia). rewrite H in Hu. do 2 (destruct u as [|u]; [reflexivity|]). lia. Qed.
Lemma j_agree s (Hs : j_scale s) r l g : r < 2 -> dlocal_to_global ((j_dcsr s) r) l = Some g -> nth_error (j_parts r) l = Some (j_part g) /\ nth_error (j_parts' r) l = Some (j_part' g).
Proof.
  intros Hr. do 2 (destruct r as [|r]; [do 3 (destruct l as [|l]; [destruct Hs as [->| ->]; vm_compute; intros [= <-]; split; reflexivity|]); intros H; destruct Hs as [->| ->]; vm_compute in H; destruct l; discriminate H|]). lia.
Qed.
Lemma j_bound s g : g < gn (j_graph s) -> j_part g < 2 /\ j_part' g < 2.
Proof. intros H. cbn in H. do 4 (destruct g as [|g]; [cbn; lia|]). lia. Qed.
Lemma j_partitioned s (Hs : j_scale s) : partitioned 2 2 (j_graph s) (j_dcsr s) j_parts j_bw j_part.
Proof.
  split; [intros g Hg; apply ((j_bound s) g Hg)|]. split; [intros r l g Hr H; apply ((j_agree s Hs) r l g Hr H)|]. intros r Hr. reflexivity.
Qed.
Lemma j_partitioned' s (Hs : j_scale s) : partitioned 2 2 (j_graph s) (j_dcsr s) j_parts' j_bw j_part'.
Proof.
  split; [intros g Hg; apply ((j_bound s) g Hg)|]. split; [intros r l g Hr H; apply ((j_agree s Hs) r l g Hr H)|]. intros r Hr. reflexivity.
Qed.
(** A balancer without anything to do. *)
Definition j_balance (p : nat -> list nat) (b : nat -> list Z) (p' : nat -> list nat) (b' : nat -> list Z) : Prop := p' = p /\ b' = b.
Lemma j_balance_ok s parts bws part parts' bws' : partitioned 2 2 (j_graph s) (j_dcsr s) parts bws part -> j_balance parts bws parts' bws' -> exists part', partitioned 2 2 (j_graph s) (j_dcsr s) parts' bws' part'.
Proof. intros H (-> & ->). exists part. exact H. Qed.
Definition j_start (s : Z) r : jrank := reset 32 ((j_dcsr s) r) j_mx (2 * s)%Z (j_parts r) (j_bw r).
Definition j_end (s : Z) r : jrank := snapshot 32 j_mx (4 * s)%Z
  (JR (j_parts' r) (apply_deltas 2 [0; 0]%Z (j_bw r)) ((j_moves s) r) (j_locked' r) (jr_best ((j_start s) r)) (jr_best_bw ((j_start s) r)) (jr_best_cut ((j_start s) r)) (jr_best_l1 ((j_start s) r)) (jr_last ((j_start s) r))).
Lemma j_cuts s (Hs : j_scale s) : dist_edge_cut (map (j_dcsr s) (seq 0 2)) (map j_parts (seq 0 2)) = Some (2 * s)%Z /\ dist_edge_cut (map (j_dcsr s) (seq 0 2)) (map j_parts' (seq 0 2)) = Some (4 * s)%Z.
Proof. destruct Hs as [->| ->]; split; vm_compute; reflexivity. Qed.
Lemma j_true_cuts s (Hs : j_scale s) : cut_weight (j_graph s) j_part = (2 * s)%Z /\ cut_weight (j_graph s) j_part' = (4 * s)%Z.
Proof. destruct Hs as [->| ->]; split; vm_compute; reflexivity. Qed.
Lemma j_locked_dn s (Hs : j_scale s) r : r < 2 -> repeat false (dn ((j_dcsr s) r)) = j_locked r.
Proof. intros Hr. do 2 (destruct r as [|r]; [destruct Hs as [->| ->]; vm_compute; reflexivity|]). lia. Qed.
Lemma moved_ext P k d warm p l p1 l1 p' l' m' sums : moved P k d warm p l p' l' m' sums -> (forall r, r < P -> p1 r = p r /\ l1 r = l r) -> moved P k d warm p1 l1 p' l' m' sums.
Proof.
  intros (rnd & moves & th & bufs & msgs & pt & dl & th2 & bufs2 & msgs2 & A & B & C & D) H. exists rnd, moves, th, bufs, msgs, pt, dl, th2, bufs2, msgs2.
  split; [intros r Hr; destruct (H r Hr) as (-> & ->); exact (A r Hr)|]. split; [intros r Hr; destruct (H r Hr) as (-> & _); exact (B r Hr)|]. auto.
Qed.
Lemma j_seen s r : jr_part ((j_end s) r) = j_parts' r.
Proof. unfold j_end, snapshot. match goal with |- context [if ?b then _ else _] => destruct b end; reflexivity. Qed.
Lemma j_jet s (Hs : j_scale s) : jet 2 2 (j_dcsr s) 32 j_mx j_balance j_parts j_bw [fun r => jr_part ((j_end s) r)] (fun r => fst (rollback ((j_end s) r))) (fun r => snd (rollback ((j_end s) r))).
Proof.
  apply (jet_round 2 2 (j_dcsr s) 32 j_mx j_balance j_warm j_parts j_bw (2 * s)%Z (j_start s) (j_end s) [fun r => jr_part ((j_end s) r)] (fun r => fst (rollback ((j_end s) r))) (fun r => snd (rollback ((j_end s) r))) []).
  - apply (j_cuts s Hs).
  - reflexivity.
  - apply iter_last. exists j_parts', j_locked', (j_moves s), [0; 0]%Z, j_parts', (fun r => apply_deltas 2 [0; 0]%Z (jr_bw ((j_start s) r))), (4 * s)%Z. split.
    + apply (moved_ext _ _ _ _ _ _ _ _ _ _ _ _ (j_moved s Hs)). intros r Hr. split; [reflexivity|]. apply ((j_locked_dn s Hs) r Hr).
    + split; [split; reflexivity|]. split; [apply (j_cuts s Hs)|]. intros r Hr. reflexivity.
  - intros r Hr. destruct (rollback ((j_end s) r)); reflexivity.
  - apply jet_done.
Qed.

(** Weights 1 and 2: all cuts fit; the swap makes the partition worse and is taken back. *)
Lemma j_small : j_scale 1.
Proof. left. reflexivity. Qed.
Lemma j_small_cuts p : (0 <= cut_weight (j_graph 1) p < 2 ^ (32 - 1))%Z.
Proof.
  assert (C : forall u v, (0 <= conn (j_graph 1) u v)%Z).
  { intros u v. apply CsrProofs.conn_nonneg. intros x w Hin. do 4 (destruct u as [|u]; [cbn in Hin; repeat (destruct Hin as [[= <- <-]|Hin]; [lia|]); destruct Hin|]). destruct u; destruct Hin. }
  assert (U : (cut_weight (j_graph 1) p <= sumn 4 (fun u => sumn u (conn (j_graph 1) u)))%Z).
  { unfold cut_weight. cbn [gn j_graph]. apply sumn_le. intros u Hu. apply sumn_le. intros v Hv. specialize (C u v). destruct (_ =? _); lia. }
  change (sumn 4 (fun u => sumn u (conn (j_graph 1) u))) with 4%Z in U. split; [|lia].
  unfold cut_weight. apply sumn_nonneg. intros u Hu. apply sumn_nonneg. intros v Hv. specialize (C u v). destruct (_ =? _); lia.
Qed.
Lemma j_small_result r : r < 2 -> rollback (j_end 1 r) = (j_parts r, j_bw r).
Proof. intros Hr. do 2 (destruct r as [|r]; [vm_compute; reflexivity|]). lia. Qed.

(** Weights 2^29 and 2^30: the cut of the swapped nodes is 2^31, stored as -2^31. *)
Lemma j_large : j_scale (2 ^ 29).
Proof. right. reflexivity. Qed.
Lemma j_large_result r : r < 2 -> rollback (j_end (2 ^ 29) r) = (j_parts' r, j_bw r).
Proof. intros Hr. do 2 (destruct r as [|r]; [vm_compute; reflexivity|]). lia. Qed.
Lemma partitioned_ext P k G d p b p' b' part : (forall r, r < P -> p' r = p r /\ b' r = b r) -> partitioned P k G d p b part -> partitioned P k G d p' b' part.
Proof.
  intros H (A & B & C). split; [exact A|]. split; [intros r l g Hr Hl; destruct (H r Hr) as (-> & _); exact (B r l g Hr Hl)|intros r Hr; destruct (H r Hr) as (_ & ->); exact (C r Hr)].
Qed.
Theorem large_cut : exists P k G dist edist d mx (balance : (nat -> list nat) -> (nat -> list Z) -> (nat -> list nat) -> (nat -> list Z) -> Prop) parts bws seen parts' bws' part part',
  distributed P G dist edist d /\ closed_graph G /\ symmetric_adjacency G /\ undirected G /\ weights_fit 32 G /\ length mx = k /\
  (forall parts bws parts' bws', balance parts bws parts' bws' -> parts' = parts /\ bws' = bws) /\
  partitioned P k G d parts bws part /\ overload k G mx part = 0%Z /\ jet P k d 32 mx balance parts bws seen parts' bws' /\
  partitioned P k G d parts' bws' part' /\ cut_weight G part' = (2 * cut_weight G part)%Z /\ (0 < cut_weight G part < 2 ^ 31)%Z.
Proof.
  exists 2, 2, (j_graph (2 ^ 29)), j_dist, j_edist, (j_dcsr (2 ^ 29)), j_mx, j_balance, j_parts, j_bw, [fun r => jr_part (j_end (2 ^ 29) r)],
    (fun r => fst (rollback (j_end (2 ^ 29) r))), (fun r => snd (rollback (j_end (2 ^ 29) r))), j_part, j_part'.
  split; [exact (j_distributed _ j_large)|]. split; [exact (j_closed _)|]. split; [exact (j_symmetric _)|]. split; [exact (j_undirected _)|]. split; [exact (j_fit _ j_large)|]. split; [reflexivity|].
  split; [intros p b p' b' H; exact H|]. split; [exact (j_partitioned _ j_large)|]. split; [vm_compute; reflexivity|]. split; [exact (j_jet _ j_large)|]. split; [|split; [vm_compute; reflexivity|vm_compute; split; reflexivity]].
  apply (partitioned_ext 2 2 _ _ j_parts' j_bw); [|exact (j_partitioned' _ j_large)]. intros r Hr. rewrite (j_large_result r Hr). split; reflexivity.
Qed.

(** Dynamic factors with one round: 0 / 0. *)
Lemma no_factor toplevel initial final fine coarse gain degree : passes (gain_factor true toplevel initial final fine coarse 0 1) gain degree = false.
Proof.
  unfold gain_factor. change (1 <=? 1)%Z with true. cbv iota. assert (E : d_div (d_mul (d_of 1) (d_of 0)) (d_sub (d_of 1) (d_of 1)) = B754_nan) by (vm_compute; reflexivity). rewrite E.
  assert (E1 : forall x, d_mul B754_nan x = B754_nan) by (intros [| | |]; reflexivity). assert (E2 : forall x, d_add x B754_nan = B754_nan) by (intros [| | |]; reflexivity).
  unfold passes. rewrite E1, E2, E1. reflexivity.
Qed.
Lemma cold_stays P G dist edist d k parts part locked rest warm parts' locked' moves' sums :
  distributed P G dist edist d -> closed_graph G -> symmetric_adjacency G -> (forall gain degree, warm gain degree = false) -> agree P d parts part -> (forall g, g < gn G -> part g < k) ->
  (forall r u, r < P -> u < dn (d r) -> nth_error (locked r) u = Some (rest (nth r dist 0 + u))) -> moved P k d warm parts locked parts' locked' moves' sums -> agree P d parts' part.
Proof.
  intros HD HC HS HW HA HK HL HM. destruct (moved_ok P G dist edist d HD HC HS k parts part locked rest warm HA HK HL parts' locked' moves' sums HM) as (tries & part' & A & B & _ & D & _).
  intros r l g Hr Hl. rewrite (D r l g Hr Hl). f_equal. rewrite B. destruct (0 <=? _)%Z; [|reflexivity].
  pose proof (proj1 (local_facts P G dist edist d HD HC r l g Hr Hl)) as Hg. destruct (A g Hg) as [(E & _)|(_ & _ & _ & _ & _ & W)]; [rewrite E; reflexivity|]. rewrite HW in W. discriminate W.
Qed.
