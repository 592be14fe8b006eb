(* One iteration of the distributed Jet refiner: which moves are tried and kept, and what they do to the partition. *)
From Verif Require Import Lib.Prelude Model.GridModel Model.DistGraphModel Model.DistMetricsModel Model.DistLpModel Model.DistJetModel Spec.Graph Spec.Gain Spec.DistGraphSpec Spec.ReplicateSpec Spec.DistJetSpec
  Proofs.GridBase Proofs.DistViewProofs Proofs.ExchangeProofs Proofs.DistSyncProofs Proofs.DistMetricsProofs Proofs.DistLpProofs Proofs.RearrangeSystem Proofs.ColoringSystem.

Lemma max_gainer_ok es : forall target conn, let m := max_gainer es target conn in
  (conn <= snd m)%Z /\ (forall b c coin, In ((b, c), coin) es -> (c <= snd m)%Z) /\ (m = (target, conn) \/ exists coin, In (m, coin) es).
Proof.
  induction es as [|[[b c] coin] t IH]; intros target conn; cbn [max_gainer]; cbv zeta.
  - split; [cbn; lia|]. split; [intros b c coin []|]. left. reflexivity.
  - destruct ((conn <? c)%Z || ((c =? conn)%Z && coin)) eqn:E.
    + destruct (IH b c) as (A & B & C). assert (conn <= c)%Z by (apply orb_true_iff in E; destruct E as [E|E]; [apply Z.ltb_lt in E; lia|apply andb_true_iff in E; destruct E as [E _]; apply Z.eqb_eq in E; lia]).
      split; [lia|]. split; [intros b' c' coin' [[= <- <- <-]|Hin]; [exact A|exact (B b' c' coin' Hin)]|]. right. destruct C as [->|[x Hx]]; [exists coin; left; reflexivity|exists x; right; exact Hx].
    + destruct (IH target conn) as (A & B & C). assert (c <= conn)%Z by (apply orb_false_iff in E; destruct E as [E _]; apply Z.ltb_ge in E; lia).
      split; [exact A|]. split; [intros b' c' coin' [[= <- <- <-]|Hin]; [lia|exact (B b' c' coin' Hin)]|]. destruct C as [C|[x Hx]]; [left; exact C|right; exists x; right; exact Hx].
Qed.
Lemma traverse_total {A B} (f : A -> option B) l : (forall x, In x l -> exists y, f x = Some y) -> exists ys, traverse f l = Some ys /\ length ys = length l /\
  forall i x, nth_error l i = Some x -> f x = nth_error ys i.
Proof.
  induction l as [|a t IH]; intros H; cbn [traverse].
  - exists []. split; [reflexivity|]. split; [reflexivity|]. intros [|i] x E; discriminate E.
  - destruct (H a (or_introl eq_refl)) as [y Ey]. destruct IH as (ys & E & L & N); [intros x Hx; apply H; right; exact Hx|]. rewrite Ey. cbn [bind]. rewrite E. cbn [bind].
    exists (y :: ys). split; [reflexivity|]. split; [cbn [length]; lia|]. intros [|i] x Ex; cbn [nth_error] in *; [congruence|exact (N i x Ex)].
Qed.
Lemma nth_error_seq a n i : i < n -> nth_error (seq a n) i = Some (a + i).
Proof. intros H. rewrite (nth_error_nth' (seq a n) 0) by (rewrite seq_length; exact H). rewrite seq_nth by exact H. reflexivity. Qed.

Lemma two_updates (dl : list Z) f t b w : f < length dl -> t < length dl ->
  nth b (upd t (nth t (upd f (nth f dl 0%Z + - w)%Z dl) 0%Z + w)%Z (upd f (nth f dl 0%Z + - w)%Z dl)) 0%Z = (nth b dl 0%Z + ((if Nat.eqb t b then w else 0%Z) - (if Nat.eqb f b then w else 0%Z)))%Z.
Proof.
  intros Hf Ht. rewrite !upd_nth, !upd_length, (proj2 (Nat.ltb_lt _ _) Hf), (proj2 (Nat.ltb_lt _ _) Ht), !andb_true_r.
  destruct (Nat.eqb_spec t b), (Nat.eqb_spec f b), (Nat.eqb_spec f t); subst; try congruence; lia.
Qed.

Lemma zsum_diff {A} (f g : A -> Z) l : zsum (map (fun x => Z.sub (f x) (g x)) l) = Z.sub (zsum (map f l)) (zsum (map g l)).
Proof. induction l as [|a t IH]; cbn [map zsum]; [reflexivity|]. rewrite IH. lia. Qed.

Section System.
Variables (P : nat) (G : graph) (dist edist : list nat) (d : nat -> dcsr).
Hypothesis HDs : distributed P G dist edist d.
Hypothesis HC : closed_graph G.
Hypothesis HS : symmetric_adjacency G.
Variable k : nat.
Notation from r := (nth r dist 0).
Notation own := (find_owner dist).

Lemma node_weight_ok r u : r < P -> u < dn (d r) -> dnode_weight (dc_nw (d r)) u = Some (gvw G (from r + u)).
Proof. intros Hr. destruct HDs as (_ & _ & _ & H). destruct (H r Hr) as (_ & W & _). apply W. Qed.
Lemma l2g_own r u : r < P -> u < dn (d r) -> dlocal_to_global (d r) u = Some (from r + u).
Proof. intros Hr. destruct (rank_data P G dist edist d HDs r Hr) as [[(_ & V2 & _) _ _] _]. apply V2. Qed.

Section Iteration.
Variables (parts : nat -> list nat) (part : nat -> nat) (locked : nat -> list bool).
Hypothesis HA : agree P d parts part.
Hypothesis HK : forall g, g < gn G -> part g < k.
Hypothesis HLk : forall r u, r < P -> u < dn (d r) -> exists b, nth_error (locked r) u = Some b.
Definition resting (g : nat) : Prop := nth (g - from (own g)) (locked (own g)) false = true.

Lemma block_edges_ok r u nbs : r < P -> u < dn (d r) -> dadj (d r) u = Some nbs ->
  block_edges (parts r) nbs = Some (map (fun e => (part (fst e), snd e)) (gadj G (from r + u))).
Proof.
  intros Hr Hu E. destruct (row_facts P G dist edist d HDs r u Hr Hu) as (nbs' & E' & _ & M). assert (nbs' = nbs) by congruence. subst nbs'. clear E E'.
  revert M. generalize (gadj G (from r + u)) as l. unfold block_edges. induction nbs as [|[v w] t IH]; intros [|[y x] l] M; cbn [map traverse] in *; try discriminate; [reflexivity|].
  cbn [fst snd] in M. injection M as M1 M2 M3. cbn [fst snd]. rewrite (HA r v y Hr M1). cbn [bind]. rewrite (IH l M3). cbn [bind]. rewrite M2. reflexivity.
Qed.
Lemma rating_conn g b : rating (map (fun e => (part (fst e), snd e)) (gadj G g)) b = block_conn G part g b.
Proof. unfold rating, block_conn. generalize (gadj G g). induction l as [|[v w] t IH]; cbn [map filter]; [reflexivity|]. cbn [fst snd]. destruct (part v =? b); cbn [map zsum snd]; [f_equal|]; exact IH. Qed.
Lemma ratings_in g b c : In (b, c) (ratings (part g) (map (fun e => (part (fst e), snd e)) (gadj G g))) <->
  b <> part g /\ c = block_conn G part g b /\ exists v w, In (v, w) (gadj G g) /\ part v = b.
Proof.
  unfold ratings. rewrite in_map_iff. split.
  - intros (b' & [= <- <-] & Hin). apply nodup_In, filter_In in Hin. destruct Hin as [Hin Hb]. apply negb_true_iff, Nat.eqb_neq in Hb. split; [exact Hb|]. split; [apply rating_conn|].
    rewrite map_map in Hin. cbn [fst] in Hin. apply in_map_iff in Hin. destruct Hin as [[v w] [A B]]. cbn [fst] in A. exists v, w. auto.
  - intros (Hb & -> & v & w & Hin & Hv). exists b. split; [rewrite rating_conn; reflexivity|]. apply nodup_In, filter_In. split; [|apply negb_true_iff, Nat.eqb_neq; exact Hb].
    rewrite map_map. apply in_map_iff. exists (v, w). auto.
Qed.
Lemma conn_none g b : (forall v w, In (v, w) (gadj G g) -> part v <> b) -> block_conn G part g b = 0%Z.
Proof.
  unfold block_conn. generalize (gadj G g). induction l as [|[v w] t IH]; intros H; cbn [filter]; [reflexivity|]. cbn [fst]. rewrite (proj2 (Nat.eqb_neq _ _) (H v w (or_introl eq_refl))).
  apply IH. intros v' w' Hin. apply (H v' w'). right. exact Hin.
Qed.
Lemma has_neighbor g b : {v | exists w, In (v, w) (gadj G g) /\ part v = b} + {forall v w, In (v, w) (gadj G g) -> part v <> b}.
Proof.
  generalize (gadj G g). induction l as [|[v w] t IH]; [right; intros v w []|]. destruct (Nat.eq_dec (part v) b) as [E|N]; [left; exists v, w; split; [left; reflexivity|exact E]|].
  destruct IH as [[x Hx]|H]; [left; exists x; destruct Hx as [y [A B]]; exists y; split; [right; exact A|exact B]|right]. intros v' w' [[= <- <-]|Hin]; [exact N|exact (H v' w' Hin)].
Qed.

Variable warm : Z -> Z -> bool.
Variable rnd : nat -> nat -> list (nat * Z) -> list ((nat * Z) * bool).
Hypothesis HR : forall r, r < P -> forall u l, Permutation (map fst (rnd r u l)) l.

Lemma find_move_ok r u : r < P -> u < dn (d r) -> exists m, find_move (d r) warm (rnd r) (parts r) (locked r) u = Some m /\ candidate G warm part resting (from r + u) m.
Proof.
  intros Hr Hu. destruct (at_own P G dist edist d HDs r u Hr Hu) as [Hg Ho]. set (g := from r + u) in *. unfold find_move. rewrite (HA r u g Hr (l2g_own r u Hr Hu)). cbn [bind].
  destruct (HLk r u Hr Hu) as [lk El]. rewrite El. cbn [bind].
  assert (Rs : resting g <-> lk = true). { unfold resting. rewrite Ho. replace (g - from r) with u by (unfold g; lia). rewrite (nth_error_nth _ _ false El). reflexivity. }
  destruct lk. { exists (0%Z, part g). split; [reflexivity|]. left. split; [reflexivity|]. left. apply Rs. reflexivity. }
  destruct (row_facts P G dist edist d HDs r u Hr Hu) as (nbs & E & _). rewrite E. cbn [bind]. rewrite (block_edges_ok r u nbs Hr Hu E). cbn [bind]. fold g.
  set (es := map (fun e => (part (fst e), snd e)) (gadj G g)). set (ents := rnd r u (ratings (part g) es)).
  destruct (max_gainer_ok ents (part g) 0%Z) as (A & B & C). set (m := max_gainer ents (part g) 0%Z) in *.
  assert (In1 : forall b c, In (b, c) (ratings (part g) es) -> (c <= snd m)%Z).
  { intros b c Hin. apply (Permutation_in _ (Permutation_sym (HR r Hr u _))) in Hin. fold ents in Hin. apply in_map_iff in Hin. destruct Hin as [[x coin] [A1 A2]]. cbn [fst] in A1. subst x. exact (B b c coin A2). }
  assert (All : forall b, b <> part g -> (block_conn G part g b <= snd m)%Z).
  { intros b Hb. destruct (has_neighbor g b) as [[v (w & Hv & Hp)]|Hn]; [|rewrite (conn_none g b Hn); exact A].
    apply (In1 b). apply ratings_in. split; [exact Hb|]. split; [reflexivity|]. exists v, w. auto. }
  assert (Who : m = (part g, 0%Z) \/ fst m <> part g /\ snd m = block_conn G part g (fst m) /\ exists v w, In (v, w) (gadj G g) /\ part v = fst m).
  { destruct C as [C|[coin C]]; [left; exact C|right]. assert (Hin : In m (ratings (part g) es)) by (apply (Permutation_in _ (HR r Hr u _)); fold ents; apply in_map_iff; exists (m, coin); auto).
    destruct m as [b c]. apply ratings_in in Hin. exact Hin. }
  cbv zeta. fold ents. fold m. assert (Rt : rating es (part g) = block_conn G part g (part g)) by apply rating_conn. rewrite Rt. destruct (negb (fst m =? part g) && warm (snd m - block_conn G part g (part g))%Z (block_conn G part g (part g))) eqn:T.
  - apply andb_true_iff in T. destruct T as [T1 T2]. apply negb_true_iff, Nat.eqb_neq in T1. eexists. split; [reflexivity|]. right. cbn [fst snd].
    destruct Who as [Hm|(_ & W1 & W2)]; [rewrite Hm in T1; cbn [fst] in T1; congruence|]. rewrite <- W1. split; [rewrite Rs; discriminate|]. split; [exact T1|]. split; [reflexivity|]. split; [exact W2|]. split; [exact All|exact T2].
  - exists (0%Z, part g). split; [reflexivity|]. left. split; [reflexivity|]. right. intros b Hb Hpos Hbest. apply andb_false_iff in T. destruct Who as [Hm|(W0 & W1 & W2)].
    + rewrite Hm in All. cbn [snd] in All. specialize (All b Hb). lia.
    + destruct T as [T|T]; [apply negb_false_iff, Nat.eqb_eq in T; congruence|]. replace (block_conn G part g b) with (snd m); [exact T|]. apply Z.le_antisymm; [rewrite W1; apply Hbest; exact W0|apply All; exact Hb].
Qed.

Lemma propose_ok r : r < P -> exists ms, propose (d r) warm (rnd r) (parts r) (locked r) = Some ms /\ length ms = dn (d r) + dghost_n (d r) /\
  (forall u, u < dn (d r) -> exists m, nth_error ms u = Some m /\ candidate G warm part resting (from r + u) m) /\
  (forall l g, dn (d r) <= l -> dlocal_to_global (d r) l = Some g -> nth_error ms l = Some (0%Z, part g)).
Proof.
  intros Hr. unfold propose.
  destruct (traverse_total (find_move (d r) warm (rnd r) (parts r) (locked r)) (seq 0 (dn (d r)))) as (own & E1 & L1 & N1).
  { intros u Hu. apply in_seq in Hu. destruct (find_move_ok r u Hr ltac:(lia)) as (m & A & _). exists m. exact A. }
  rewrite E1. cbn [bind]. pose proof (proj1 (rank_data P G dist edist d HDs r Hr)) as [V _ _]. destruct V as (_ & V2 & V3 & V4 & _).
  destruct (traverse_total (ghost_no_move (parts r)) (seq (dn (d r)) (dghost_n (d r)))) as (gh & E2 & L2 & N2).
  { intros u Hu. apply in_seq in Hu. destruct (V3 u ltac:(lia)) as (g & q & Eg & _). unfold ghost_no_move. rewrite (HA r u g Hr Eg). cbn [bind]. eexists. reflexivity. }
  rewrite E2. cbn [bind]. rewrite seq_length in L1, L2. eexists. split; [reflexivity|]. split; [rewrite app_length; lia|]. split.
  - intros u Hu. rewrite nth_error_app1 by lia. destruct (find_move_ok r u Hr Hu) as (m & A & B). exists m. split; [|exact B]. rewrite <- (N1 u u (nth_error_seq 0 (dn (d r)) u Hu)). exact A.
  - intros l g Hl Eg. assert (Lk : l < dn (d r) + dghost_n (d r)) by (destruct (Nat.lt_ge_cases l (dn (d r) + dghost_n (d r))) as [L|L]; [exact L|rewrite V4 in Eg by exact L; discriminate]).
    rewrite nth_error_app2 by lia. rewrite L1, <- (N2 (l - dn (d r)) l). { unfold ghost_no_move. rewrite (HA r l g Hr Eg). reflexivity. }
    rewrite nth_error_seq by lia. f_equal. lia.
Qed.

(** Whatever the ranks propose: the moves of all nodes. *)
Definition move_of (ms : nat -> list (Z * nat)) (g : nat) : Z * nat := nth (g - from (own g)) (ms (own g)) (0%Z, 0).
Lemma move_of_own ms r u m : r < P -> u < dn (d r) -> nth_error (ms r) u = Some m -> move_of ms (from r + u) = m.
Proof.
  intros Hr Hu E. destruct (at_own P G dist edist d HDs r u Hr Hu) as [_ Ho]. unfold move_of. rewrite Ho. replace (from r + u - from r) with u by lia. exact (nth_error_nth _ _ _ E).
Qed.

Section Proposed.
Variable ms : nat -> list (Z * nat).
Hypothesis HM : forall r, r < P -> propose (d r) warm (rnd r) (parts r) (locked r) = Some (ms r).
Notation mv := (move_of ms).
Lemma proposed r : r < P -> length (ms r) = dn (d r) + dghost_n (d r) /\ (forall u, u < dn (d r) -> nth_error (ms r) u = Some (mv (from r + u)) /\ candidate G warm part resting (from r + u) (mv (from r + u))) /\
  (forall l g, dn (d r) <= l -> dlocal_to_global (d r) l = Some g -> nth_error (ms r) l = Some (0%Z, part g)).
Proof.
  intros Hr. destruct (propose_ok r Hr) as (ms' & E & L & A & B). rewrite (HM r Hr) in E. injection E as <-. split; [exact L|]. split; [|exact B].
  intros u Hu. destruct (A u Hu) as (m & E1 & E2). rewrite (move_of_own ms r u m Hr Hu E1). auto.
Qed.
Lemma mv_candidate g : g < gn G -> candidate G warm part resting g (mv g).
Proof. intros Hg. destruct (at_node P G dist edist d HDs g Hg) as (A & B & C). destruct (proposed (own g) A) as (_ & H & _). rewrite <- C at 1 2. exact (proj2 (H _ B)). Qed.
Lemma mv_target g : g < gn G -> snd (mv g) < k.
Proof.
  intros Hg. destruct (mv_candidate g Hg) as [[E _]|(_ & _ & _ & (v & w & Hin & Hv) & _)]; [rewrite E; exact (HK g Hg)|]. rewrite <- Hv. apply HK. exact (HC g v w Hg Hin).
Qed.
Lemma mv_stay g : g < gn G -> snd (mv g) = part g -> mv g = (0%Z, part g).
Proof. intros Hg E. destruct (mv_candidate g Hg) as [[-> _]|(_ & N & _)]; [reflexivity|congruence]. Qed.

Lemma candidates_sync threads bufs : (forall r, r < P -> 0 < threads r /\ buffers_outcome P (d r) (fun u => u) (move_filter (parts r) (ms r)) (value_message (ms r) (0%Z, 0)) (threads r) 0 (dn (d r)) (bufs r)) ->
  forall q msgs, q < P -> Permutation msgs (inbox P bufs q) ->
  exists ms', receive_values (d q) (ms q) msgs = Some ms' /\ forall l g, dlocal_to_global (d q) l = Some g -> nth_error ms' l = Some (mv g).
Proof.
  intros HB q msgs Hq Hp.
  destruct (sync_some P G dist (proj1 HDs) (fun g => (0%Z, part g)) mv d ms (0%Z, 0) (fun r => move_filter (parts r) (ms r)) threads (fun _ => 0) (fun r => dn (d r)) bufs HC HS) with (q := q) (msgs := msgs) as (ms' & E & _ & A).
  - intros r Hr. exact (proj1 (rank_data P G dist edist d HDs r Hr)).
  - intros r Hr. split; [lia|exact (proj1 (HB r Hr))].
  - intros r u Hr Hu. destruct (proposed r Hr) as (_ & H & _). exact (proj1 (H u Hu)).
  - intros r l g Hr Hl Eg. destruct (proposed r Hr) as (_ & _ & H). exact (H l g Hl Eg).
  - intros r u Hr Hu N. apply mv_stay; [exact (proj1 (at_own P G dist edist d HDs r u Hr Hu))|]. destruct (proposed r Hr) as (_ & H & _).
    destruct (Nat.eq_dec (snd (mv (from r + u))) (part (from r + u))) as [E|Ne]; [exact E|]. exfalso. apply N. split; [lia|]. unfold move_filter.
    rewrite (HA r u _ Hr (l2g_own r u Hr Hu)), (proj1 (H u Hu)). apply negb_true_iff, Nat.eqb_neq. exact Ne.
  - intros r Hr. exact (proj2 (HB r Hr)).
  - exact Hq.
  - exact Hp.
  - exists ms'. auto.
Qed.

Lemma same_rank_ok u v : u < gn G -> v < gn G -> same_rank dist u v = (own u =? own v).
Proof.
  intros Hu Hv. apply Bool.eq_true_iff_eq. unfold same_rank. rewrite existsb_exists, Nat.eqb_eq. pose proof (proj1 HDs) as HD. pose proof (proj1 HD) as Ld. split.
  - intros [r [Hr Hb]]. apply in_seq in Hr. apply andb_true_iff in Hb. destruct Hb as [A B]. apply andb_true_iff in A, B. destruct A as [A1 A2], B as [B1 B2].
    apply Nat.leb_le in A1, B1. apply Nat.ltb_lt in A2, B2. rewrite (own_find P G dist edist d HDs r u), (own_find P G dist edist d HDs r v); try lia; unfold owns; lia.
  - intros E. destruct (find_owner_owns P (gn G) dist u HD Hu) as [Lr [A1 A2]]. destruct (find_owner_owns P (gn G) dist v HD Hv) as [_ [B1 B2]]. rewrite <- E in B1, B2.
    exists (own u). split; [apply in_seq; lia|]. apply Nat.leb_le in A1, B1. apply Nat.ltb_lt in A2, B2. rewrite A1, A2, B1, B2. reflexivity.
Qed.

(** The moves that are executed. *)
Definition goes (g : nat) : bool := negb (part g =? snd (mv g)) && (0 <=? projected_gain G dist part mv g)%Z.
Lemma keep_ok r ms' u : r < P -> (forall l g, dlocal_to_global (d r) l = Some g -> nth_error ms' l = Some (mv g)) -> u < dn (d r) ->
  keep_move (d r) (parts r) ms' u = Some (goes (from r + u)).
Proof.
  intros Hr HM' Hu. destruct (at_own P G dist edist d HDs r u Hr Hu) as [Hg Ho]. pose proof (l2g_own r u Hr Hu) as El. set (g := from r + u) in *. unfold keep_move.
  rewrite (HA r u g Hr El). cbn [bind]. rewrite (HM' u g El). cbn [bind]. unfold goes. destruct (Nat.eqb_spec (part g) (snd (mv g))) as [E|N]; [reflexivity|].
  destruct (row_facts P G dist edist d HDs r u Hr Hu) as (nbs & E & _ & M). rewrite E. cbn [bind negb andb]. fold g in M.
  set (term := fun e : nat * Z => let b := if moves_first dist mv g (fst e) then snd (mv (fst e)) else part (fst e) in if b =? snd (mv g) then snd e else if b =? part g then (- snd e)%Z else 0%Z).
  assert (T : traverse (projected (parts r) ms' u (fst (mv g)) (part g) (snd (mv g))) nbs = Some (map term (gadj G g))).
  { assert (Cl : forall v w, In (v, w) (gadj G g) -> v < gn G) by (intros v w Hin; exact (HC g v w Hg Hin)). clear E. revert M Cl. generalize (gadj G g) as l. induction nbs as [|[v w] t IH]; intros [|[y x] l] M Cl; cbn [map traverse] in *; try discriminate; [reflexivity|].
    cbn [fst snd] in M. injection M as M1 M2 M3. unfold projected at 1. cbn [fst snd]. rewrite (HM' v y M1). cbn [bind]. rewrite (HA r v y Hr M1). cbn [bind].
    rewrite (IH l M3) by (intros v' w' Hin; apply (Cl v' w'); right; exact Hin). cbn [bind]. do 2 f_equal. subst x. unfold term. cbn [fst snd].
    assert (Hy : y < gn G) by (apply (Cl y w); left; reflexivity).
    assert (F : (v <? u) = same_rank dist g y && (y <? g)).
    { rewrite (same_rank_ok g y Hg Hy), Ho. destruct (Nat.lt_ge_cases v (dn (d r))) as [L|L].
      - rewrite (l2g_own r v Hr L) in M1. injection M1 as <-. rewrite (proj2 (at_own P G dist edist d HDs r v Hr L)), Nat.eqb_refl. cbn [andb]. apply Bool.eq_true_iff_eq. rewrite !Nat.ltb_lt. unfold g. lia.
      - destruct (local_facts P G dist edist d HDs HC r v y Hr M1) as (_ & Gh & _). unfold dis_ghost in Gh. rewrite (proj2 (Nat.leb_le _ _) L) in Gh. symmetry in Gh. apply negb_true_iff in Gh. rewrite (Nat.eqb_sym r), Gh. cbn [andb]. apply Nat.ltb_ge. lia. }
    unfold moves_first. rewrite <- F. reflexivity. }
  rewrite T. reflexivity.
Qed.
Lemma filter_ok r ms' : r < P -> (forall l g, dlocal_to_global (d r) l = Some g -> nth_error ms' l = Some (mv g)) ->
  filter_moves (d r) (parts r) ms' = Some (map (fun u => goes (from r + u)) (seq 0 (dn (d r)))).
Proof. intros Hr HM'. unfold filter_moves. apply traverse_ok. intros u Hu. apply in_seq in Hu. apply keep_ok; [exact Hr|exact HM'|lia]. Qed.

(** The partition after the moves. *)
Definition after (g : nat) : nat := if goes g then snd (mv g) else part g.
Lemma after_bound g : g < gn G -> after g < k.
Proof. intros Hg. unfold after. destruct (goes g); [exact (mv_target g Hg)|exact (HK g Hg)]. Qed.
Lemma goes_after g : goes g = negb (after g =? part g).
Proof.
  unfold after. destruct (goes g) eqn:E; [|rewrite Nat.eqb_refl; reflexivity]. unfold goes in E. apply andb_true_iff in E. destruct E as [E _]. rewrite Nat.eqb_sym in E. rewrite E. reflexivity.
Qed.
Definition shift (g b : nat) : Z := Z.sub (if after g =? b then gvw G g else 0%Z) (if part g =? b then gvw G g else 0%Z).

Lemma execute_ok r ms' lk us : forall pt dl, r < P -> NoDup us -> length dl = k ->
  (forall u, In u us -> u < dn (d r) /\ nth_error lk u = Some (goes (from r + u)) /\ nth_error ms' u = Some (mv (from r + u)) /\ nth_error pt u = Some (part (from r + u))) ->
  exists pt' dl', execute (d r) ms' lk us pt dl = Some (pt', dl') /\ length dl' = k /\
    (forall j, nth_error pt' j = if existsb (Nat.eqb j) us then Some (after (from r + j)) else nth_error pt j) /\
    (forall b, b < k -> nth b dl' 0%Z = (nth b dl 0 + zsum (map (fun u => shift (from r + u) b) us))%Z).
Proof.
  induction us as [|u t IH]; intros pt dl Hr ND Ld H; cbn [execute].
  - exists pt, dl. split; [reflexivity|]. split; [exact Ld|]. split; [reflexivity|]. intros b Hb. cbn [map zsum]. lia.
  - inversion ND as [|x y Nin ND']. subst x y. destruct (H u (or_introl eq_refl)) as (Hu & A1 & A2 & A3). rewrite A1. cbn [bind]. destruct (at_own P G dist edist d HDs r u Hr Hu) as [Hg _]. set (g := from r + u) in *.
    destruct (goes g) eqn:Eg.
    + rewrite A3. cbn [bind]. rewrite A2. cbn [bind]. rewrite (node_weight_ok r u Hr Hu). cbn [bind]. fold g. pose proof (HK g Hg) as K1. pose proof (mv_target g Hg) as K2.
      unfold add_delta at 1. rewrite (nth_error_nth' dl 0%Z) by lia. cbn [bind]. unfold add_delta. rewrite (nth_error_nth' (upd (part g) _ dl) 0%Z) by (rewrite upd_length; lia). cbn [bind].
      assert (Lp : u < length pt) by (apply nth_error_Some; congruence).
      destruct (IH (upd u (snd (mv g)) pt) (upd (snd (mv g)) (nth (snd (mv g)) (upd (part g) (nth (part g) dl 0 + - gvw G g) dl) 0 + gvw G g) (upd (part g) (nth (part g) dl 0 + - gvw G g) dl))%Z Hr ND') as (pt' & dl' & E & B0 & B1 & B2).
      * rewrite !upd_length. exact Ld.
      * intros v Hv. assert (v <> u) by congruence. destruct (H v (or_intror Hv)) as (C0 & C1 & C2 & C3). rewrite upd_nth_error, (proj2 (Nat.eqb_neq u v)) by congruence. auto.
      * exists pt', dl'. split; [exact E|]. split; [exact B0|]. split.
        -- intros j. rewrite B1. cbn [existsb]. destruct (Nat.eqb_spec j u) as [->|Hne]; cbn [orb].
           ++ destruct (existsb (Nat.eqb u) t); [reflexivity|]. rewrite upd_nth_error, Nat.eqb_refl, (proj2 (Nat.ltb_lt _ _) Lp). cbn [andb]. fold g. unfold after. rewrite Eg. reflexivity.
           ++ rewrite upd_nth_error, (proj2 (Nat.eqb_neq u j)) by congruence. reflexivity.
        -- intros b Hb. rewrite (B2 b Hb). cbn [map zsum]. fold g. unfold shift at 2. unfold after. rewrite Eg. rewrite two_updates by lia. lia.
    + destruct (IH pt dl Hr ND' Ld) as (pt' & dl' & E & B0 & B1 & B2); [intros v Hv; exact (H v (or_intror Hv))|]. exists pt', dl'. split; [exact E|]. split; [exact B0|]. split.
      * intros j. rewrite B1. cbn [existsb]. destruct (Nat.eqb_spec j u) as [->|Hne]; cbn [orb]; [|reflexivity]. fold g. unfold after. rewrite Eg, A3. destruct (existsb (Nat.eqb u) t); reflexivity.
      * intros b Hb. rewrite (B2 b Hb). cbn [map zsum]. fold g. unfold shift at 2, after. rewrite Eg. lia.
Qed.

Lemma executed r ms' : r < P -> (forall l g, dlocal_to_global (d r) l = Some g -> nth_error ms' l = Some (mv g)) ->
  exists pt dl, execute (d r) ms' (map (fun u => goes (from r + u)) (seq 0 (dn (d r)))) (seq 0 (dn (d r))) (parts r) (repeat 0%Z k) = Some (pt, dl) /\
    (forall u, u < dn (d r) -> nth_error pt u = Some (after (from r + u))) /\
    (forall l g, dn (d r) <= l -> dlocal_to_global (d r) l = Some g -> nth_error pt l = Some (part g)) /\
    (forall b, b < k -> nth b dl 0%Z = zsum (map (fun u => shift (from r + u) b) (seq 0 (dn (d r))))).
Proof.
  intros Hr HM'. destruct (execute_ok r ms' (map (fun u => goes (from r + u)) (seq 0 (dn (d r)))) (seq 0 (dn (d r))) (parts r) (repeat 0%Z k) Hr (seq_NoDup _ _) (repeat_length _ _)) as (pt & dl & E & _ & A & B).
  { intros u Hu. apply in_seq in Hu. assert (Hu' : u < dn (d r)) by lia. split; [exact Hu'|]. split; [rewrite nth_error_map_seq by exact Hu'; reflexivity|].
    split; [exact (HM' u _ (l2g_own r u Hr Hu'))|exact (HA r u _ Hr (l2g_own r u Hr Hu'))]. }
  exists pt, dl. split; [exact E|]. split; [|split].
  - intros u Hu. rewrite A. assert (X : existsb (Nat.eqb u) (seq 0 (dn (d r))) = true) by (apply existsb_exists; exists u; split; [apply in_seq; lia|apply Nat.eqb_refl]). rewrite X. reflexivity.
  - intros l g Hl Eg. rewrite A. assert (X : existsb (Nat.eqb l) (seq 0 (dn (d r))) = false).
    { destruct (existsb (Nat.eqb l) (seq 0 (dn (d r)))) eqn:X; [|reflexivity]. apply existsb_exists in X. destruct X as [x [X1 X2]]. apply in_seq in X1. apply Nat.eqb_eq in X2. lia. }
    rewrite X. exact (HA r l g Hr Eg).
  - intros b Hb. rewrite (B b Hb), nth_repeat. lia.
Qed.
Lemma sums_ok dls : (forall r, r < P -> forall b, b < k -> nth b (dls r) 0%Z = zsum (map (fun u => shift (from r + u) b) (seq 0 (dn (d r))))) ->
  sum_deltas k (map dls (seq 0 P)) = map (fun b => Z.sub (block_weight G after b) (block_weight G part b)) (seq 0 k).
Proof.
  intros H. unfold sum_deltas. apply map_ext_in. intros b Hb. apply in_seq in Hb. rewrite map_map. unfold block_weight.
  rewrite <- (rank_sums P (gn G) dist (fun u => if after u =? b then gvw G u else 0%Z) (proj1 HDs)), <- (rank_sums P (gn G) dist (fun u => if part u =? b then gvw G u else 0%Z) (proj1 HDs)), <- zsum_diff.
  apply zsum_map_ext. intros r Hr. apply in_seq in Hr. rewrite (H r ltac:(lia) b ltac:(lia)), (sys_dn P G dist edist d HDs r ltac:(lia)), <- zsum_diff. reflexivity.
Qed.
Lemma labels_sync pts threads bufs :
  (forall r, r < P -> (forall u, u < dn (d r) -> nth_error (pts r) u = Some (after (from r + u))) /\ (forall l g, dn (d r) <= l -> dlocal_to_global (d r) l = Some g -> nth_error (pts r) l = Some (part g))) ->
  (forall r, r < P -> 0 < threads r /\ buffers_outcome P (d r) (fun u => u) (lock_filter (map (fun u => goes (from r + u)) (seq 0 (dn (d r))))) (value_message (pts r) 0) (threads r) 0 (dn (d r)) (bufs r)) ->
  forall q msgs, q < P -> Permutation msgs (inbox P bufs q) ->
  exists pt', receive_values (d q) (pts q) msgs = Some pt' /\ forall l g, dlocal_to_global (d q) l = Some g -> nth_error pt' l = Some (after g).
Proof.
  intros HP HB q msgs Hq Hp.
  destruct (sync_some P G dist (proj1 HDs) part after d pts 0 (fun r => lock_filter (map (fun u => goes (from r + u)) (seq 0 (dn (d r))))) threads (fun _ => 0) (fun r => dn (d r)) bufs HC HS) with (q := q) (msgs := msgs) as (pt' & E & _ & A).
  - intros r Hr. exact (proj1 (rank_data P G dist edist d HDs r Hr)).
  - intros r Hr. split; [lia|exact (proj1 (HB r Hr))].
  - intros r u Hr Hu. exact (proj1 (HP r Hr) u Hu).
  - intros r l g Hr Hl Eg. exact (proj2 (HP r Hr) l g Hl Eg).
  - intros r u Hr Hu N. unfold after. destruct (goes (from r + u)) eqn:E; [|reflexivity]. exfalso. apply N. split; [lia|]. unfold lock_filter. rewrite nth_map_seq by exact Hu. exact E.
  - intros r Hr. exact (proj2 (HB r Hr)).
  - exact Hq.
  - exact Hp.
  - exists pt'. auto.
Qed.
End Proposed.
End Iteration.
End System.
