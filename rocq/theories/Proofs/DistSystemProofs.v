(* The distributed graph as a whole: import, edge distribution, send buffers and ghost values of all ranks. *)
From Verif Require Import Lib.Prelude Model.GridModel Model.MathModel Model.DistGraphModel Spec.Graph Spec.DistGraphSpec
  Proofs.GridBase Proofs.ImportProofs Proofs.DistViewProofs Proofs.FillProofs Proofs.ExchangeProofs.

Section System.
Variables (P : nat) (G : graph) (dist : list nat) (bits : Z).
Hypothesis HD : distribution P (gn G) dist.
Hypothesis HC : closed_graph G.
Hypothesis HW : weights_fit bits G.

Lemma import_ok edist r xadj adj vw aw d : r < P -> rank_arrays G dist r xadj adj vw aw ->
  import_outcome bits dist edist r xadj adj vw aw d ->
  local_view G dist r (dn d) (dghost_n d) (dlocal_to_global d) (dglobal_to_local d) (dghost_owner d) (dcontains d) (dadj d) /\
  dc_rank d = r /\ dc_dist d = dist /\ dc_edist d = edist /\ length (dc_edges d) = length adj /\
  (vw = [] -> dc_nw d = []) /\
  (vw <> [] -> dn d + dghost_n d <= length (dc_nw d) /\ forall u, u < dn d -> nth_error (dc_nw d) u = Some (gvw G (nth r dist 0 + u))) /\
  (vw = [] -> forall u, u < dn d -> gvw G (nth r dist 0 + u) = 1%Z).
Proof.
  intros Hr HA (junk & sched & s & order & fresh & J & R & F & O & E).
  destruct (import_view P G dist r xadj adj vw aw bits HD Hr HA HW HC junk sched s J R F order O fresh edist) as (d' & E' & X).
  assert (d' = d) by congruence. subst d'. exact X.
Qed.
Lemma own_weight edist r xadj adj vw aw d : r < P -> rank_arrays G dist r xadj adj vw aw ->
  import_outcome bits dist edist r xadj adj vw aw d -> forall u, u < dn d -> dnode_weight (dc_nw d) u = Some (gvw G (nth r dist 0 + u)).
Proof.
  intros Hr HA O u Hu. destruct (import_ok edist r xadj adj vw aw d Hr HA O) as (_ & _ & _ & _ & _ & A & B & C).
  destruct (nil_dec vw) as [E|E].
  - rewrite (A E). cbn [dnode_weight]. rewrite (C E u Hu). reflexivity.
  - destruct (B E) as [_ W]. specialize (W u Hu). unfold dnode_weight. destruct (dc_nw d); [destruct u; discriminate|exact W].
Qed.
Theorem import_correct edist r xadj adj vw aw d : r < P -> rank_arrays G dist r xadj adj vw aw ->
  import_outcome bits dist edist r xadj adj vw aw d ->
  local_view G dist r (dn d) (dghost_n d) (dlocal_to_global d) (dglobal_to_local d) (dghost_owner d) (dcontains d) (dadj d) /\
  (forall u, u < dn d -> dnode_weight (dc_nw d) u = Some (gvw G (nth r dist 0 + u))) /\
  (forall l q u, dmap_remote d u q = Some l <-> q <= P /\ dlocal_to_global d l = Some (nth q dist 0 + u)) /\
  dc_rank d = r /\ dc_dist d = dist /\ dc_edist d = edist /\ length (dc_edges d) = length adj.
Proof.
  intros Hr HA O. destruct (import_ok edist r xadj adj vw aw d Hr HA O) as (V & A1 & A2 & A3 & A4 & _).
  split; [exact V|]. split; [exact (own_weight edist r xadj adj vw aw d Hr HA O)|]. split; [|auto].
  destruct V as (_ & _ & _ & _ & V5 & _). intros l q u. unfold dmap_remote, doffset. rewrite A2. destruct HD as (L & _). split.
  - destruct (nth_error dist q) as [o|] eqn:E; [|discriminate]. cbn [bind]. intros H. split; [assert (q < length dist) by (apply nth_error_Some; congruence); lia|].
    apply V5. rewrite (nth_error_nth dist q 0 E), Nat.add_comm. exact H.
  - intros [Hq H]. rewrite (nth_error_nth' dist 0) by lia. cbn [bind]. apply V5 in H. rewrite Nat.add_comm. exact H.
Qed.

Theorem import_total edist r xadj adj vw aw junk sched s : r < P -> rank_arrays G dist r xadj adj vw aw -> length junk = length adj ->
  import_run (nth r dist 0) (nth (S r) dist 0) adj sched (import_start (nth r dist 0) (nth (S r) dist 0) adj junk) = Some s ->
  length sched <= 3 * length adj /\
  ((exists e s', import_step (nth r dist 0) (nth (S r) dist 0) adj e s = Some s') \/
   (forall order fresh, Permutation order (entries (im_map s)) ->
      exists d, import_graph bits fresh r dist edist xadj vw aw s order = Some d /\ import_outcome bits dist edist r xadj adj vw aw d)).
Proof.
  intros Hr HA J R. destruct (import_terminates _ _ adj junk sched s J R) as [L [F|S]]; (split; [exact L|]); [right|left; exact S].
  intros order fresh O. destruct (import_view P G dist r xadj adj vw aw bits HD Hr HA HW HC junk sched s J R F order O fresh edist) as (d & E & _).
  exists d. split; [exact E|]. exists junk, sched, s, order, fresh. auto.
Qed.

Lemma ghost_wanted r u pe : symmetric_adjacency G -> r < P -> pe < P -> u < nth (S r) dist 0 - nth r dist 0 ->
  (wanted P G dist r u pe <-> ghost_of G dist pe (nth r dist 0 + u)).
Proof.
  intros HS Hr Hpe Hu. assert (Or : owns dist r (nth r dist 0 + u)) by (unfold owns; lia).
  pose proof (owns_lt P (gn G) dist HD r _ Hr Or) as Lt. split.
  - intros (_ & Hne & v & w & Ov & Hin). split.
    + intros C. apply Hne. exact (owns_unique P (gn G) dist HD pe r _ Hpe Hr C Or).
    + destruct (HS _ _ _ Lt Hin) as [w' Hw]. exists v, w'. auto.
  - intros (N & v & w & Ov & Hin). split; [exact Hpe|]. split; [intros ->; exact (N Or)|].
    destruct (HS _ _ _ (owns_lt P (gn G) dist HD pe v Hpe Ov) Hin) as [w' Hw]. exists v, w'. auto.
Qed.

Variables (edist : list nat) (xadj adj : nat -> list nat) (vw aw : nat -> list Z) (d : nat -> dcsr).
Hypothesis HA : forall r, r < P -> rank_arrays G dist r (xadj r) (adj r) (vw r) (aw r).
Hypothesis HI : forall r, r < P -> import_outcome bits dist edist r (xadj r) (adj r) (vw r) (aw r) (d r).

Lemma import_rank_ok r : r < P -> rank_ok G dist r (d r).
Proof. intros Hr. destruct (import_ok _ _ _ _ _ _ _ Hr (HA r Hr) (HI r Hr)) as (V & A1 & A2 & _). constructor; assumption. Qed.
Lemma import_dn r : r < P -> dn (d r) = nth (S r) dist 0 - nth r dist 0.
Proof. intros Hr. destruct (import_rank_ok r Hr) as [[V _] _ _]. exact V. Qed.

Theorem buffers_system {X} (mapper : nat -> nat) (filter_ : nat -> nat -> bool) (builder : nat -> nat -> nat -> X) r threads a b :
  symmetric_adjacency G -> r < P -> 0 < threads -> (forall s, a <= s < b -> mapper s < dn (d r)) ->
  (exists ms s0, all_messages (d r) mapper filter_ builder threads a b = Some ms /\ fill_start P ms = Some s0 /\
    forall sched s, fill_run sched s0 = Some s -> length sched <= length (concat ms) /\
      ((exists t s', fill_step t s = Some s') \/
       exists bufs, buffers_outcome P (d r) mapper filter_ builder threads a b bufs /\ f_bufs s = map (map Some) bufs)) /\
  forall bufs, buffers_outcome P (d r) mapper filter_ builder threads a b bufs -> length bufs = P /\
    forall pe, pe < P -> exists senders, NoDup senders /\
      (forall s, In s senders <-> a <= s < b /\ filter_ s (mapper s) = true /\ ghost_of G dist pe (nth r dist 0 + mapper s)) /\
      Permutation (nth pe bufs []) (map (fun s => builder s (mapper s) pe) senders).
Proof.
  intros HS Hr Ht Hm. split; [exact (buffers_exist P G dist HD mapper filter_ builder r (d r) threads a b Hr (import_rank_ok r Hr) HC Ht Hm)|].
  intros bufs B. destruct (buffers_ok P G dist HD mapper filter_ builder r (d r) threads a b Hr (import_rank_ok r Hr) HC Ht Hm bufs B) as [L Q]. split; [exact L|].
  intros pe Hpe. destruct (Q pe Hpe) as (sn & S1 & S2 & S3). exists sn. split; [exact S1|]. split; [|exact S3]. intros s. rewrite (S2 s).
  split; intros (R & F & W); (split; [exact R|]; split; [exact F|]); pose proof (Hm s R) as Lm; rewrite (import_dn r Hr) in Lm; apply (ghost_wanted r (mapper s) pe HS Hr Hpe Lm); exact W.
Qed.

Theorem sync_system {V} (f : nat -> V) (dflt : V) (arr : nat -> list V) (threads : nat -> nat) (bufs : nat -> list (list (nat * V))) :
  symmetric_adjacency G -> (forall r, r < P -> 0 < threads r) ->
  (forall r, r < P -> dn (d r) + dghost_n (d r) <= length (arr r)) ->
  (forall r u, r < P -> u < dn (d r) -> nth_error (arr r) u = Some (f (nth r dist 0 + u))) ->
  (forall r, r < P -> buffers_outcome P (d r) (fun u => u) (fun _ _ => true) (value_message (arr r) dflt) (threads r) 0 (dn (d r)) (bufs r)) ->
  forall q msgs, q < P -> Permutation msgs (inbox P bufs q) ->
  exists arr', receive_values (d q) (arr q) msgs = Some arr' /\ length arr' = length (arr q) /\
    forall l g, dlocal_to_global (d q) l = Some g -> nth_error arr' l = Some (f g).
Proof.
  intros HS Ht Hl Hv Hb. apply (sync_ok P G dist HD f d arr dflt threads bufs HC HS import_rank_ok Ht); [intros r Hr; right; exact (Hl r Hr)| |exact Hb].
  intros r u Hr Hu. apply nth_error_nth. exact (Hv r u Hr Hu).
Qed.

Theorem weights_system (dflt : Z) (threads : nat -> nat) (bufs : nat -> list (list (nat * Z))) :
  symmetric_adjacency G -> (forall r, r < P -> 0 < threads r) ->
  (forall r, r < P -> vw r = [] -> nth (S r) dist 0 = nth r dist 0) ->
  (forall r, r < P -> buffers_outcome P (d r) (fun u => u) (fun _ _ => true) (value_message (dc_nw (d r)) dflt) (threads r) 0 (dn (d r)) (bufs r)) ->
  forall q msgs, q < P -> Permutation msgs (inbox P bufs q) ->
  exists nw, receive_values (d q) (dc_nw (d q)) msgs = Some nw /\
    forall l g, dlocal_to_global (d q) l = Some g -> dnode_weight nw l = Some (gvw G g).
Proof.
  intros HS Ht He Hb q msgs Hq Hp.
  destruct (sync_ok P G dist HD (gvw G) d (fun r => dc_nw (d r)) dflt threads bufs HC HS import_rank_ok Ht) with (q := q) (msgs := msgs) as (nw & E & _ & N); [| |exact Hb|exact Hq|exact Hp|].
  - intros r Hr. destruct (import_ok _ _ _ _ _ _ _ Hr (HA r Hr) (HI r Hr)) as (_ & _ & _ & _ & _ & _ & B & _).
    destruct (nil_dec (vw r)) as [Z|Z]; [left|right; apply (B Z)]. rewrite (import_dn r Hr), (He r Hr Z). lia.
  - intros r u Hr Hu. apply nth_error_nth. destruct (import_ok _ _ _ _ _ _ _ Hr (HA r Hr) (HI r Hr)) as (_ & _ & _ & _ & _ & _ & B & _).
    destruct (nil_dec (vw r)) as [Z|Z]; [|apply (B Z); exact Hu]. rewrite (import_dn r Hr), (He r Hr Z) in Hu. lia.
  - exists nw. split; [exact E|]. intros l g Hl. specialize (N l g Hl). unfold dnode_weight. destruct nw; [destruct l; discriminate|exact N].
Qed.
End System.

Lemma displs_from_length l s : length (displs_from s l) = length l + 1.
Proof. revert s. induction l as [|x t IH]; intros s; cbn [displs_from length]; [reflexivity|]. rewrite IH. lia. Qed.
Lemma nth_firstn' {A} (l : list A) k i dflt : i < k -> nth i (firstn k l) dflt = nth i l dflt.
Proof. revert k i. induction l as [|x t IH]; intros [|k] [|i] H; cbn [firstn nth]; try lia; try reflexivity. apply IH. lia. Qed.
Lemma edge_distribution_ok ms x : length (edge_distribution ms x) = length ms + 1 /\
  forall r, r <= length ms -> nth r (edge_distribution ms x) 0 = list_sum (firstn r ms).
Proof.
  unfold edge_distribution, exclusive_scan.
  assert (L : length (displs (ms ++ [x])) = length ms + 2) by (unfold displs; rewrite displs_from_length, app_length; cbn [length]; lia).
  assert (D : forall r, r <= length ms -> nth r (displs (ms ++ [x])) 0 = list_sum (firstn r ms)).
  { intros r Hr. apply nth_error_nth. rewrite displs_nth by (rewrite app_length; cbn [length]; lia). rewrite firstn_app. replace (r - length ms) with 0 by lia. rewrite firstn_O, app_nil_r. reflexivity. }
  split; [rewrite firstn_length, app_length, L; cbn [length]; lia|].
  intros r Hr. rewrite nth_firstn' by (rewrite app_length; cbn [length]; lia). exact (D r Hr).
Qed.
