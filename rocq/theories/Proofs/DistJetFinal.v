(* The distributed Jet refiner: iterations, rounds, the best partition; nothing fails. *)
From Verif Require Import Lib.Prelude Model.GridModel Model.DistGraphModel Model.DistMetricsModel Model.DistLpModel Model.DistJetModel Spec.Graph Spec.Gain Spec.DistGraphSpec Spec.ReplicateSpec Spec.DistJetSpec
  Proofs.GridBase Proofs.DistViewProofs Proofs.ExchangeProofs Proofs.DistSyncProofs Proofs.DistMetricsProofs Proofs.RearrangeSystem Proofs.ColoringSystem Proofs.ColoringFinal Proofs.DistJetMoves.

Lemma narrow_small bits z : (0 <= z < 2 ^ (bits - 1))%Z -> narrow bits z = z.
Proof.
  intros H. assert (Hb : (0 < bits)%Z) by (destruct (Z.lt_ge_cases 0 bits) as [C|C]; [exact C|]; rewrite Z.pow_neg_r in H by lia; lia).
  unfold narrow. replace (2 ^ bits)%Z with (2 * 2 ^ (bits - 1))%Z by (rewrite <- Z.pow_succ_r by lia; f_equal; lia).
  rewrite Z.mod_small by lia. lia.
Qed.
Lemma candidate_ext G warm part (R R' : nat -> Prop) g m : (R g <-> R' g) -> candidate G warm part R g m -> candidate G warm part R' g m.
Proof. intros E [(A & [B|B])|(A & B)]; [left; split; [exact A|left; apply E; exact B]|left; split; [exact A|right; exact B]|right; split; [rewrite <- E; exact A|exact B]]. Qed.

Section System.
Variables (P : nat) (G : graph) (dist edist : list nat) (d : nat -> dcsr).
Hypothesis HDs : distributed P G dist edist d.
Hypothesis HC : closed_graph G.
Hypothesis HS : symmetric_adjacency G.
Variable k : nat.
Notation from r := (nth r dist 0).
Notation own := (find_owner dist).

Section Moves.
Variables (parts : nat -> list nat) (part : nat -> nat) (locked : nat -> list bool) (rest : nat -> bool) (warm : Z -> Z -> bool).
Hypothesis HA : agree P d parts part.
Hypothesis HK : forall g, g < gn G -> part g < k.
Hypothesis HLk : forall r u, r < P -> u < dn (d r) -> nth_error (locked r) u = Some (rest (from r + u)).

Lemma lock_some r u : r < P -> u < dn (d r) -> exists b, nth_error (locked r) u = Some b.
Proof. intros Hr Hu. eexists. exact (HLk r u Hr Hu). Qed.
Lemma resting_rest g : g < gn G -> resting dist locked g <-> rest g = true.
Proof. intros Hg. destruct (at_node P G dist edist d HDs g Hg) as (A & B & C). unfold resting. rewrite (nth_error_nth _ _ false (HLk _ _ A B)), C. reflexivity. Qed.

Theorem moved_ok parts' locked' moves' sums : moved P k d warm parts locked parts' locked' moves' sums ->
  exists tries part', (forall g, g < gn G -> candidate G warm part (fun u => rest u = true) g (tries g)) /\
    (forall g, part' g = if (0 <=? projected_gain G dist part tries g)%Z then snd (tries g) else part g) /\
    (forall g, g < gn G -> part' g < k) /\ agree P d parts' part' /\
    (forall r u, r < P -> u < dn (d r) -> nth_error (locked' r) u = Some (negb (part' (from r + u) =? part (from r + u)))) /\
    sums = map (fun b => (block_weight G part' b - block_weight G part b)%Z) (seq 0 k).
Proof.
  intros (rnd & ms & threads & bufs & msgs & pts & dls & threads2 & bufs2 & msgs2 & H1 & H2 & H3 & ->).
  assert (HR : forall r, r < P -> forall u l, Permutation (map fst (rnd r u l)) l) by (intros r Hr; exact (proj1 (H1 r Hr))).
  assert (HM : forall r, r < P -> propose (d r) warm (rnd r) (parts r) (locked r) = Some (ms r)) by (intros r Hr; exact (proj1 (proj2 (H1 r Hr)))).
  assert (HB : forall r, r < P -> 0 < threads r /\ buffers_outcome P (d r) (fun u => u) (move_filter (parts r) (ms r)) (value_message (ms r) (0%Z, 0)) (threads r) 0 (dn (d r)) (bufs r)) by (intros r Hr; exact (proj2 (proj2 (H1 r Hr)))).
  set (mv := move_of dist ms).
  assert (HM' : forall r, r < P -> forall l g, dlocal_to_global (d r) l = Some g -> nth_error (moves' r) l = Some (mv g)).
  { intros r Hr. destruct (H2 r Hr) as (Pm & Rv & _). destruct (candidates_sync P G dist edist d HDs HC HS k parts part locked HA HK lock_some warm rnd HR ms HM threads bufs HB r (msgs r) Hr Pm) as (x & E & A). rewrite Rv in E. injection E as <-. exact A. }
  assert (Hl : forall r, r < P -> locked' r = map (fun u => goes G dist part ms (from r + u)) (seq 0 (dn (d r)))).
  { intros r Hr. destruct (H2 r Hr) as (_ & _ & Fl & _). rewrite (filter_ok P G dist edist d HDs HC k parts part locked HA HK lock_some warm rnd HR ms HM r (moves' r) Hr (HM' r Hr)) in Fl. congruence. }
  assert (Ex : forall r, r < P -> (forall u, u < dn (d r) -> nth_error (pts r) u = Some (after G dist part ms (from r + u))) /\
    (forall l g, dn (d r) <= l -> dlocal_to_global (d r) l = Some g -> nth_error (pts r) l = Some (part g)) /\
    (forall b, b < k -> nth b (dls r) 0%Z = zsum (map (fun u => shift G dist part ms (from r + u) b) (seq 0 (dn (d r)))))).
  { intros r Hr. destruct (H2 r Hr) as (_ & _ & _ & Ex & _). rewrite (Hl r Hr) in Ex.
    destruct (executed P G dist edist d HDs HC k parts part locked HA HK lock_some warm rnd HR ms HM r (moves' r) Hr (HM' r Hr)) as (pt & dl & E & A & B & C). rewrite Ex in E. injection E as <- <-. auto. }
  exists mv, (after G dist part ms). split.
  { intros g Hg. apply (candidate_ext G warm part (resting dist locked)); [exact (resting_rest g Hg)|exact (mv_candidate P G dist edist d HDs k parts part locked HA HK lock_some warm rnd HR ms HM g Hg)]. }
  split. { intros g. unfold after, goes. fold mv. destruct (Nat.eqb_spec (part g) (snd (mv g))) as [->|N]; cbn [negb andb]; [|reflexivity]. destruct (0 <=? _)%Z; reflexivity. }
  split; [exact (after_bound P G dist edist d HDs HC k parts part locked HA HK lock_some warm rnd HR ms HM)|]. split.
  { intros r l g Hr E. destruct (H3 r Hr) as (Pm & Rv).
    destruct (labels_sync P G dist edist d HDs HC HS k parts part locked HK lock_some warm rnd HR ms HM pts threads2 bufs2) with (q := r) (msgs := msgs2 r) as (x & Ex' & A).
    - intros q Hq. destruct (Ex q Hq) as (A & B & _). auto.
    - intros q Hq. destruct (H2 q Hq) as (_ & _ & _ & _ & T & B). rewrite <- (Hl q Hq). auto.
    - exact Hr.
    - exact Pm.
    - rewrite Rv in Ex'. injection Ex' as <-. exact (A l g E). }
  split. { intros r u Hr Hu. rewrite (Hl r Hr), nth_error_map_seq by exact Hu. cbn [Nat.add]. f_equal. apply goes_after. }
  apply (sums_ok P G dist edist d HDs k parts part locked HK lock_some warm rnd HR ms HM). intros r Hr. exact (proj2 (proj2 (Ex r Hr))).
Qed.

Theorem moves_total rnd : (forall r, r < P -> forall u l, Permutation (map fst (rnd r u l)) l) ->
  exists ms, (forall r, r < P -> propose (d r) warm (rnd r) (parts r) (locked r) = Some (ms r)) /\
  (forall threads bufs, (forall r, r < P -> 0 < threads r /\ buffers_outcome P (d r) (fun u => u) (move_filter (parts r) (ms r)) (value_message (ms r) (0%Z, 0)) (threads r) 0 (dn (d r)) (bufs r)) ->
   forall msgs, (forall r, r < P -> Permutation (msgs r) (inbox P bufs r)) ->
   exists ms' lk pts dls, (forall r, r < P -> receive_values (d r) (ms r) (msgs r) = Some (ms' r) /\ filter_moves (d r) (parts r) (ms' r) = Some (lk r) /\
      execute (d r) (ms' r) (lk r) (seq 0 (dn (d r))) (parts r) (repeat 0%Z k) = Some (pts r, dls r)) /\
   forall threads2 bufs2, (forall r, r < P -> 0 < threads2 r /\ buffers_outcome P (d r) (fun u => u) (lock_filter (lk r)) (value_message (pts r) 0) (threads2 r) 0 (dn (d r)) (bufs2 r)) ->
   forall msgs2, (forall r, r < P -> Permutation (msgs2 r) (inbox P bufs2 r)) ->
   exists pts', forall r, r < P -> receive_values (d r) (pts r) (msgs2 r) = Some (pts' r)) /\
  exists parts' locked' moves' sums, moved P k d warm parts locked parts' locked' moves' sums.
Proof.
  intros HR.
  destruct (finite_choice (fun r x => propose (d r) warm (rnd r) (parts r) (locked r) = Some x) P []) as (ms & HM).
  { intros r Hr. destruct (propose_ok P G dist edist d HDs k parts part locked HA HK lock_some warm rnd HR r Hr) as (x & E & _). exists x. exact E. }
  assert (Q : forall threads bufs, (forall r, r < P -> 0 < threads r /\ buffers_outcome P (d r) (fun u => u) (move_filter (parts r) (ms r)) (value_message (ms r) (0%Z, 0)) (threads r) 0 (dn (d r)) (bufs r)) ->
   forall msgs, (forall r, r < P -> Permutation (msgs r) (inbox P bufs r)) ->
   exists ms' lk pts dls, (forall r, r < P -> receive_values (d r) (ms r) (msgs r) = Some (ms' r) /\ filter_moves (d r) (parts r) (ms' r) = Some (lk r) /\
      execute (d r) (ms' r) (lk r) (seq 0 (dn (d r))) (parts r) (repeat 0%Z k) = Some (pts r, dls r)) /\
   forall threads2 bufs2, (forall r, r < P -> 0 < threads2 r /\ buffers_outcome P (d r) (fun u => u) (lock_filter (lk r)) (value_message (pts r) 0) (threads2 r) 0 (dn (d r)) (bufs2 r)) ->
   forall msgs2, (forall r, r < P -> Permutation (msgs2 r) (inbox P bufs2 r)) ->
   exists pts', forall r, r < P -> receive_values (d r) (pts r) (msgs2 r) = Some (pts' r)).
  { intros threads bufs HB msgs Pm.
    destruct (finite_choice (fun r x => receive_values (d r) (ms r) (msgs r) = Some x /\ forall l g, dlocal_to_global (d r) l = Some g -> nth_error x l = Some (move_of dist ms g)) P []) as (ms' & HM').
    { intros r Hr. exact (candidates_sync P G dist edist d HDs HC HS k parts part locked HA HK lock_some warm rnd HR ms HM threads bufs HB r (msgs r) Hr (Pm r Hr)). }
    set (lk := fun r => map (fun u => goes G dist part ms (from r + u)) (seq 0 (dn (d r)))).
    destruct (finite_choice (fun r x => execute (d r) (ms' r) (lk r) (seq 0 (dn (d r))) (parts r) (repeat 0%Z k) = Some x /\
      (forall u, u < dn (d r) -> nth_error (fst x) u = Some (after G dist part ms (from r + u))) /\
      (forall l g, dn (d r) <= l -> dlocal_to_global (d r) l = Some g -> nth_error (fst x) l = Some (part g))) P ([], [])) as (ex & Hex).
    { intros r Hr. destruct (executed P G dist edist d HDs HC k parts part locked HA HK lock_some warm rnd HR ms HM r (ms' r) Hr (proj2 (HM' r Hr))) as (pt & dl & E & A & B & _). exists (pt, dl). auto. }
    exists ms', lk, (fun r => fst (ex r)), (fun r => snd (ex r)). split.
    { intros r Hr. split; [exact (proj1 (HM' r Hr))|]. split; [exact (filter_ok P G dist edist d HDs HC k parts part locked HA HK lock_some warm rnd HR ms HM r (ms' r) Hr (proj2 (HM' r Hr)))|].
      rewrite (proj1 (Hex r Hr)). destruct (ex r); reflexivity. }
    intros threads2 bufs2 HB2 msgs2 Pm2. apply (finite_choice (fun r x => receive_values (d r) (fst (ex r)) (msgs2 r) = Some x) P []). intros r Hr.
    destruct (labels_sync P G dist edist d HDs HC HS k parts part locked HK lock_some warm rnd HR ms HM (fun r => fst (ex r)) threads2 bufs2) with (q := r) (msgs := msgs2 r) as (x & E & _).
    - intros q Hq. exact (proj2 (Hex q Hq)).
    - exact HB2.
    - exact Hr.
    - exact (Pm2 r Hr).
    - exists x. exact E. }
  exists ms. split; [exact HM|]. split; [exact Q|].
  destruct (finite_choice (fun r x => buffers_outcome P (d r) (fun u => u) (move_filter (parts r) (ms r)) (value_message (ms r) (0%Z, 0)) 1 0 (dn (d r)) x) P []) as (bufs & Hb).
  { intros r Hr. apply (buffers_some P G dist (proj1 HDs) _ _ _ r); [exact Hr|exact (proj1 (rank_data P G dist edist d HDs r Hr))|exact HC|lia|intros; lia]. }
  destruct (Q (fun _ => 1) bufs) with (msgs := inbox P bufs) as (ms' & lk & pts & dls & A & B); [intros r Hr; split; [lia|exact (Hb r Hr)]|intros; reflexivity|].
  destruct (finite_choice (fun r x => buffers_outcome P (d r) (fun u => u) (lock_filter (lk r)) (value_message (pts r) 0) 1 0 (dn (d r)) x) P []) as (bufs2 & Hb2).
  { intros r Hr. apply (buffers_some P G dist (proj1 HDs) _ _ _ r); [exact Hr|exact (proj1 (rank_data P G dist edist d HDs r Hr))|exact HC|lia|intros; lia]. }
  destruct (B (fun _ => 1) bufs2) with (msgs2 := inbox P bufs2) as (pts' & Hp); [intros r Hr; split; [lia|exact (Hb2 r Hr)]|intros; reflexivity|].
  exists pts', lk, ms', (sum_deltas k (map dls (seq 0 P))), rnd, ms, (fun _ => 1), bufs, (inbox P bufs), pts, dls, (fun _ => 1), bufs2, (inbox P bufs2).
  split; [intros r Hr; split; [exact (HR r Hr)|split; [exact (HM r Hr)|split; [lia|exact (Hb r Hr)]]]|].
  split; [intros r Hr; destruct (A r Hr) as (A1 & A2 & A3); split; [reflexivity|split; [exact A1|split; [exact A2|split; [exact A3|split; [lia|exact (Hb2 r Hr)]]]]]|].
  split; [intros r Hr; split; [reflexivity|exact (Hp r Hr)]|reflexivity].
Qed.
End Moves.

(** ** Iterations and rounds *)
Variables (bits : Z) (mx : list Z).
Variable balance : (nat -> list nat) -> (nat -> list Z) -> (nat -> list nat) -> (nat -> list Z) -> Prop.
Hypothesis HU : undirected G.
Hypothesis Hmx : length mx = k.
Hypothesis Hfit : forall p, (0 <= cut_weight G p < 2 ^ (bits - 1))%Z.
Hypothesis HBal : forall parts bws part parts' bws', partitioned P k G d parts bws part -> balance parts bws parts' bws' -> exists part', partitioned P k G d parts' bws' part'.

Lemma l1_ok part : imbalance_l1 (map (block_weight G part) (seq 0 k)) mx = overload k G mx part.
Proof.
  unfold imbalance_l1, overload.
  assert (E : forall (f : nat -> Z) m a, map (fun p : Z * Z => if (snd p <? fst p)%Z then Z.max 0 (fst p - snd p) else 0%Z) (combine (map f (seq a (length m))) m) =
    map (fun b => Z.max 0 (f b - nth (b - a) m 0%Z)%Z) (seq a (length m))).
  { intros f m. induction m as [|x t IH]; intros a; cbn [length seq map combine]; [reflexivity|]. rewrite IH. cbn [fst snd]. rewrite Nat.sub_diag. cbn [nth]. f_equal; [destruct (Z.ltb_spec x (f a)); lia|].
    apply map_ext_in. intros b Hb. apply in_seq in Hb. replace (b - a) with (S (b - S a)) by lia. reflexivity. }
  rewrite <- Hmx, E. f_equal. apply map_ext. intros b. rewrite Nat.sub_0_r. reflexivity.
Qed.
Lemma cut_ok parts part c : agree P d parts part -> dist_edge_cut (map d (seq 0 P)) (map parts (seq 0 P)) = Some c -> narrow bits c = cut_weight G part.
Proof.
  intros A E. rewrite (dist_cut_ok P G dist (proj1 HDs) d) with (part := part) in E; [injection E as <-; apply narrow_small, Hfit| |exact A|exact HC|exact HU].
  intros r Hr. exact (ro_view G dist r (d r) (proj1 (rank_data P G dist edist d HDs r Hr))).
Qed.
Lemma good_refl p : at_least_as_good k G mx p p. Proof. split; intros; lia. Qed.
Lemma good_trans p q r : at_least_as_good k G mx p q -> at_least_as_good k G mx q r -> at_least_as_good k G mx p r.
Proof.
  intros [A1 A2] [B1 B2]. split; [lia|]. intros E. assert (E' : overload k G mx q = 0%Z). { assert (0 <= overload k G mx q)%Z; [|lia]. unfold overload. clear. induction (seq 0 k) as [|a t IH]; cbn [map zsum]; lia. }
  specialize (A2 E'). specialize (B2 E). lia.
Qed.
Lemma overload_pos p : (0 <= overload k G mx p)%Z.
Proof. clear. unfold overload. induction (seq 0 k) as [|a t IH]; cbn [map zsum]; lia. Qed.

Record state (s : nat -> jrank) (part best : nat -> nat) : Prop := {
  st_cur : partitioned P k G d (fun r => jr_part (s r)) (fun r => jr_bw (s r)) part;
  st_lock : exists rest, forall r u, r < P -> u < dn (d r) -> nth_error (jr_locked (s r)) u = Some (rest (from r + u));
  st_best : partitioned P k G d (fun r => jr_best (s r)) (fun r => jr_best_bw (s r)) best;
  st_cut : forall r, r < P -> jr_best_cut (s r) = cut_weight G best;
  st_l1 : forall r, r < P -> jr_best_l1 (s r) = overload k G mx best;
  st_last : (forall r, r < P -> jr_last (s r) = true /\ jr_part (s r) = jr_best (s r) /\ jr_bw (s r) = jr_best_bw (s r)) \/ (forall r, r < P -> jr_last (s r) = false) }.

Lemma partitioned_ext parts bws parts' bws' part : (forall r, r < P -> parts r = parts' r /\ bws r = bws' r) -> partitioned P k G d parts bws part -> partitioned P k G d parts' bws' part.
Proof. intros E (A & B & C). split; [exact A|]. split; [intros r l g Hr El; rewrite <- (proj1 (E r Hr)); exact (B r l g Hr El)|intros r Hr; rewrite <- (proj2 (E r Hr)); exact (C r Hr)]. Qed.

Lemma iteration_ok warm s s' part best : state s part best -> iteration P k d bits mx balance warm s s' ->
  exists part' best', state s' part' best' /\ at_least_as_good k G mx best' best /\ at_least_as_good k G mx best' part' /\
    (forall r, r < P -> jr_best (s' r) = jr_best (s r) /\ jr_best_bw (s' r) = jr_best_bw (s r)) /\ best' = best \/
    state s' part' part' /\ best' = part' /\ at_least_as_good k G mx part' best /\ (forall r, r < P -> jr_best (s' r) = jr_part (s' r)).
Proof.
  intros [S1 [rest S2] S3 S4 S5 S6] (parts1 & locked & moves & sums & parts2 & bws2 & cut & Mv & Bl & Ct & Sn).
  pose proof S1 as (K1 & A1 & W1). cbn beta in *.
  destruct (moved_ok (fun r => jr_part (s r)) part (fun r => jr_locked (s r)) rest warm A1 K1 S2 parts1 locked moves sums Mv) as (tries & p1 & _ & _ & M3 & M4 & M5 & M6).
  assert (Pt1 : partitioned P k G d parts1 (fun r => apply_deltas k sums (jr_bw (s r))) p1).
  { split; [exact M3|]. split; [exact M4|]. intros r Hr. unfold apply_deltas. apply map_ext_in. intros b Hb. apply in_seq in Hb. rewrite (W1 r Hr), M6, !nth_map_seq by lia. cbn [Nat.add]. lia. }
  destruct (HBal _ _ _ _ _ Pt1 Bl) as (p2 & Pt2). pose proof Pt2 as (K2 & A2 & W2).
  pose proof (cut_ok parts2 p2 cut A2 Ct) as Ec.
  set (acc := ((0 <? overload k G mx best) && (overload k G mx p2 <? overload k G mx best) || (overload k G mx p2 =? 0) && (cut_weight G p2 <=? cut_weight G best))%Z).
  assert (E : forall r, r < P -> s' r = if acc then JR (parts2 r) (bws2 r) (moves r) (locked r) (parts2 r) (bws2 r) (cut_weight G p2) (overload k G mx p2) true
    else JR (parts2 r) (bws2 r) (moves r) (locked r) (jr_best (s r)) (jr_best_bw (s r)) (jr_best_cut (s r)) (jr_best_l1 (s r)) false).
  { intros r Hr. rewrite (Sn r Hr). unfold snapshot. cbn [jr_part jr_bw jr_moves jr_locked jr_best jr_best_bw jr_best_cut jr_best_l1]. rewrite Ec, (W2 r Hr), l1_ok, (S4 r Hr), (S5 r Hr). reflexivity. }
  assert (Lk : exists rest', forall r u, r < P -> u < dn (d r) -> nth_error (jr_locked (s' r)) u = Some (rest' (from r + u))).
  { exists (fun g => negb (p1 g =? part g)). intros r u Hr Hu. rewrite (E r Hr). destruct acc; exact (M5 r u Hr Hu). }
  pose proof (overload_pos p2) as O2. pose proof (overload_pos best) as Ob.
  exists p2. destruct acc eqn:Ea; unfold acc in Ea.
  - exists p2. right. assert (Gd : at_least_as_good k G mx p2 best).
    { apply orb_true_iff in Ea. destruct Ea as [Ea|Ea]; apply andb_true_iff in Ea; destruct Ea as [X Y].
      - apply Z.ltb_lt in X, Y. split; [lia|]. intros; lia.
      - apply Z.eqb_eq in X. apply Z.leb_le in Y. split; [lia|]. intros _; exact Y. }
    split; [|split; [reflexivity|split; [exact Gd|intros r Hr; rewrite (E r Hr); reflexivity]]]. constructor.
    + apply (partitioned_ext parts2 bws2); [intros r Hr; rewrite (E r Hr); auto|exact Pt2].
    + exact Lk.
    + apply (partitioned_ext parts2 bws2); [intros r Hr; rewrite (E r Hr); auto|exact Pt2].
    + intros r Hr. rewrite (E r Hr). reflexivity.
    + intros r Hr. rewrite (E r Hr). reflexivity.
    + left. intros r Hr. rewrite (E r Hr). auto.
  - exists best. left. split.
    { constructor.
      + apply (partitioned_ext parts2 bws2); [intros r Hr; rewrite (E r Hr); auto|exact Pt2].
      + exact Lk.
      + apply (partitioned_ext (fun r => jr_best (s r)) (fun r => jr_best_bw (s r))); [intros r Hr; rewrite (E r Hr); auto|exact S3].
      + intros r Hr. rewrite (E r Hr). exact (S4 r Hr).
      + intros r Hr. rewrite (E r Hr). exact (S5 r Hr).
      + right. intros r Hr. rewrite (E r Hr). reflexivity. }
    split; [apply good_refl|]. split; [|split; [intros r Hr; rewrite (E r Hr); auto|reflexivity]].
    apply orb_false_iff in Ea. destruct Ea as [X Y]. apply andb_false_iff in X, Y. split.
    + destruct X as [X|X]; [apply Z.ltb_ge in X; lia|apply Z.ltb_ge in X; exact X].
    + intros Z0. destruct Y as [Y|Y]; [apply Z.eqb_neq in Y; lia|apply Z.leb_gt in Y; lia].
Qed.
(** The best partition is one that was seen. *)
Lemma iterations_ok warm s seen s' : iterations P k d bits mx balance warm s seen s' -> forall part best, state s part best ->
  exists part' best', state s' part' best' /\ at_least_as_good k G mx best' best /\
    (forall ps, In ps seen -> exists q, agree P d ps q /\ (forall g, g < gn G -> q g < k) /\ at_least_as_good k G mx best' q) /\
    ((forall r, r < P -> jr_best (s' r) = jr_best (s r)) \/ exists ps, In ps seen /\ forall r, r < P -> jr_best (s' r) = ps r).
Proof.
  induction 1 as [s s' It|s s1 seen s' It Its IH]; intros part best St.
  - destruct (iteration_ok warm s s' part best St It) as (p' & b' & [(S & G1 & G2 & B & Eb)|(S & Eb & G1 & B)]).
    + exists p', b'. split; [exact S|]. split; [exact G1|]. split; [|left; intros r Hr; exact (proj1 (B r Hr))].
      intros ps [<-|[]]. exists p'. destruct (st_cur _ _ _ S) as (K & A & _). auto.
    + exists p', p'. split; [exact S|]. split; [exact G1|]. split; [|right; eexists; split; [left; reflexivity|exact B]].
      intros ps [<-|[]]. exists p'. destruct (st_cur _ _ _ S) as (K & A & _). split; [exact A|]. split; [exact K|apply good_refl].
  - destruct (iteration_ok warm s s1 part best St It) as (p1 & b1 & [(S & G1 & G2 & B & Eb)|(S & Eb & G1 & B)]).
    + destruct (IH p1 b1 S) as (p' & b' & S' & G' & Sn & Or). exists p', b'. split; [exact S'|]. split; [exact (good_trans _ _ _ G' G1)|]. split.
      * intros ps [<-|Hin]; [|exact (Sn ps Hin)]. exists p1. destruct (st_cur _ _ _ S) as (K & A & _). split; [exact A|]. split; [exact K|exact (good_trans _ _ _ G' G2)].
      * destruct Or as [Or|(ps & Hin & Or)]; [left; intros r Hr; rewrite (Or r Hr); exact (proj1 (B r Hr))|right; exists ps; split; [right; exact Hin|exact Or]].
    + destruct (IH p1 p1 S) as (p' & b' & S' & G' & Sn & Or). exists p', b'. split; [exact S'|]. split; [exact (good_trans _ _ _ G' G1)|]. split.
      * intros ps [<-|Hin]; [|exact (Sn ps Hin)]. exists p1. destruct (st_cur _ _ _ S) as (K & A & _). split; [exact A|]. split; [exact K|exact G'].
      * right. destruct Or as [Or|(ps & Hin & Or)]; [eexists; split; [left; reflexivity|]; intros r Hr; cbn beta; rewrite (Or r Hr); exact (B r Hr)|exists ps; split; [right; exact Hin|exact Or]].
Qed.
Theorem jet_ok parts bws seen parts' bws' : jet P k d bits mx balance parts bws seen parts' bws' -> forall part, partitioned P k G d parts bws part ->
  exists part', partitioned P k G d parts' bws' part' /\ at_least_as_good k G mx part' part /\
    (forall ps, In ps seen -> exists q, agree P d ps q /\ (forall g, g < gn G -> q g < k) /\ at_least_as_good k G mx part' q) /\
    exists ps, In ps (parts :: seen) /\ forall r, r < P -> parts' r = ps r.
Proof.
  induction 1 as [parts bws|warm parts bws cut s s' seen parts1 bws1 seen' parts2 bws2 Ct Rs Its Rb J IH]; intros part Pt.
  - exists part. split; [exact Pt|]. split; [apply good_refl|]. split; [intros ps []|]. exists parts. split; [left; reflexivity|auto].
  - pose proof Pt as (K & A & W). pose proof (cut_ok parts part cut A Ct) as Ec.
    assert (St : state s part part).
    { constructor.
      - apply (partitioned_ext parts bws); [intros r Hr; rewrite (Rs r Hr); auto|exact Pt].
      - exists (fun _ => false). intros r u Hr Hu. rewrite (Rs r Hr). cbn [reset jr_locked]. rewrite (nth_error_nth' _ false) by (rewrite repeat_length; exact Hu). rewrite nth_repeat. reflexivity.
      - apply (partitioned_ext parts bws); [intros r Hr; rewrite (Rs r Hr); auto|exact Pt].
      - intros r Hr. rewrite (Rs r Hr). exact Ec.
      - intros r Hr. rewrite (Rs r Hr). cbn [reset jr_best_l1]. rewrite (W r Hr). apply l1_ok.
      - left. intros r Hr. rewrite (Rs r Hr). auto. }
    destruct (iterations_ok warm s seen s' Its part part St) as (p' & b' & S' & G' & Sn & Or).
    assert (Rb' : forall r, r < P -> parts1 r = jr_best (s' r) /\ bws1 r = jr_best_bw (s' r)).
    { intros r Hr. pose proof (Rb r Hr) as E. unfold rollback in E. destruct (st_last _ _ _ S') as [L|L]; [destruct (L r Hr) as (L1 & L2 & L3); rewrite L1 in E; injection E as <- <-; auto|rewrite (L r Hr) in E; injection E as <- <-; auto]. }
    destruct (IH b') as (p2 & P2 & G2 & Sn2 & ps & Hps & Eps).
    { apply (partitioned_ext (fun r => jr_best (s' r)) (fun r => jr_best_bw (s' r))); [intros r Hr; destruct (Rb' r Hr); auto|exact (st_best _ _ _ S')]. }
    exists p2. split; [exact P2|]. split; [exact (good_trans _ _ _ G2 G')|]. split.
    + intros qs Hin. apply in_app_or in Hin. destruct Hin as [Hin|Hin]; [|exact (Sn2 qs Hin)]. destruct (Sn qs Hin) as (q & A1 & A2 & A3). exists q. split; [exact A1|]. split; [exact A2|exact (good_trans _ _ _ G2 A3)].
    + destruct Hps as [<-|Hps]; [|exists ps; split; [right; apply in_or_app; right; exact Hps|exact Eps]].
      assert (Src : forall r, r < P -> parts2 r = jr_best (s' r)) by (intros r Hr; rewrite (Eps r Hr); exact (proj1 (Rb' r Hr))).
      destruct Or as [Or|(qs & Hin & Or)].
      * exists parts. split; [left; reflexivity|]. intros r Hr. rewrite (Src r Hr), (Or r Hr), (Rs r Hr). reflexivity.
      * exists qs. split; [right; apply in_or_app; left; exact Hin|]. intros r Hr. rewrite (Src r Hr). exact (Or r Hr).
Qed.
End System.
