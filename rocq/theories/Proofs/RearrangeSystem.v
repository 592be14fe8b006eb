(* Reordering of a distributed graph: the ranks hold a renamed copy of the graph. *)
From Verif Require Import Lib.Prelude Lib.Count Model.GridModel Model.CsrModel Model.PermModel Model.DistGraphModel Model.RearrangeModel
  Spec.Graph Spec.DistGraphSpec Spec.ReplicateSpec Proofs.GraphFacts Proofs.PermProofs Proofs.DistViewProofs Proofs.ExchangeProofs Proofs.DistSystemProofs
  Proofs.ReplicateProofs Proofs.RearrangeRank Proofs.RearrangeOrder.

Lemma afind_ainsert k (v : nat) l x : afind x (ainsert k v l) = match afind k l with Some _ => afind x l | None => if k =? x then Some v else afind x l end.
Proof. unfold ainsert. destruct (afind k l); [reflexivity|]. cbn [afind]. reflexivity. Qed.
Lemma copy_ghosts_ok old : forall us new, (forall u, In u us -> u < length old /\ u < length new) ->
  exists r, fold_left (fun s u => bind s (fun a => bind (nth_error old u) (fun w => store u w a))) us (Some new) = Some r /\ length r = length new /\
    forall u, nth u r 0%Z = if existsb (Nat.eqb u) us then nth u old 0%Z else nth u new 0%Z.
Proof.
  induction us as [|a t IH]; intros new H; cbn [fold_left].
  - exists new. split; [reflexivity|]. split; [reflexivity|]. reflexivity.
  - destruct (H a (or_introl eq_refl)) as [H1 H2]. cbn [bind]. rewrite (nth_error_nth' old 0%Z) by exact H1. cbn [bind]. unfold store at 2.
    rewrite (proj2 (Nat.ltb_lt a (length new))) by exact H2.
    destruct (IH (upd a (nth a old 0%Z) new)) as (r & E & L & N); [intros u Hu; rewrite upd_length; apply H; right; exact Hu|].
    exists r. split; [exact E|]. rewrite upd_length in L. split; [exact L|]. intros u. rewrite N. cbn [existsb]. destruct (existsb (Nat.eqb u) t) eqn:Et; [rewrite orb_true_r; reflexivity|].
    rewrite orb_false_r, upd_nth. destruct (Nat.eqb_spec a u) as [X|X]; [subst u|]; cbn [andb].
    + rewrite Nat.eqb_refl, (proj2 (Nat.ltb_lt a (length new))) by exact H2. reflexivity.
    + destruct (Nat.eqb_spec u a); [congruence|reflexivity].
Qed.
Lemma nth_some {X} (l : list X) i x dflt : nth_error l i = Some x -> nth i l dflt = x.
Proof. intros E. exact (nth_error_nth l i dflt E). Qed.

Section System.
Variables (P : nat) (G : graph) (dist edist : list nat) (d : nat -> dcsr).
Hypothesis HDs : distributed P G dist edist d.
Hypothesis HC : closed_graph G.
Hypothesis HS : symmetric_adjacency G.
Notation from r := (nth r dist 0).

Lemma HD : distribution P (gn G) dist. Proof. exact (proj1 HDs). Qed.
Lemma rank_data r : r < P -> rank_ok G dist r (d r) /\ csr_arrays (d r).
Proof.
  intros Hr. destruct HDs as (_ & _ & _ & H). destruct (H r Hr) as (V & _ & A & B & _ & _ & C0 & C1 & C2 & C3 & C4). split; [constructor; assumption|].
  unfold csr_arrays. repeat (split; [first [assumption | lia]|]). exact C4.
Qed.
Lemma sys_dn r : r < P -> dn (d r) = nth (S r) dist 0 - from r.
Proof. intros Hr. destruct (rank_data r Hr) as [[(V & _) _ _] _]. exact V. Qed.
Lemma own_find r g : r < P -> owns dist r g -> find_owner dist g = r.
Proof.
  intros Hr O. pose proof (owns_lt P (gn G) dist HD r g Hr O) as Lt. destruct (find_owner_owns P (gn G) dist g HD Lt) as [A B].
  exact (owns_unique P (gn G) dist HD _ _ g A Hr B O).
Qed.
Lemma owned r g : r < P -> owns dist r g <-> exists u, u < dn (d r) /\ g = from r + u.
Proof. intros Hr. rewrite (sys_dn r Hr). unfold owns. split; [intros H; exists (g - from r); lia|intros (u & A & ->); lia]. Qed.

Variables (o2n n2o : nat -> list nat).
Definition sig g := let r := find_owner dist g in from r + nth (g - from r) (o2n r) 0.
Definition isg g := let r := find_owner dist g in from r + nth (g - from r) (n2o r) 0.
Lemma sig_at r u : r < P -> u < dn (d r) -> sig (from r + u) = from r + nth u (o2n r) 0.
Proof. intros Hr Hu. unfold sig. rewrite (own_find r) by (first [exact Hr | apply (owned r _ Hr); exists u; auto]). cbv zeta. do 2 f_equal. lia. Qed.
Lemma isg_at r u : r < P -> u < dn (d r) -> isg (from r + u) = from r + nth u (n2o r) 0.
Proof. intros Hr Hu. unfold isg. rewrite (own_find r) by (first [exact Hr | apply (owned r _ Hr); exists u; auto]). cbv zeta. do 2 f_equal. lia. Qed.
Hypothesis HO : forall r, r < P -> inverse_orders (dn (d r)) (o2n r) (n2o r).
Lemma sig_owns r g : r < P -> owns dist r g -> owns dist r (sig g) /\ isg (sig g) = g.
Proof.
  intros Hr O. apply owned in O; [|exact Hr]. destruct O as (u & Hu & ->). rewrite sig_at by assumption. destruct (HO r Hr) as (_ & _ & B1 & _). destruct (B1 u Hu) as [X Y].
  split; [apply owned; [exact Hr|exists (nth u (o2n r) 0); auto]|]. rewrite isg_at by assumption. rewrite Y. reflexivity.
Qed.
Lemma isg_owns r g : r < P -> owns dist r g -> owns dist r (isg g) /\ sig (isg g) = g.
Proof.
  intros Hr O. apply owned in O; [|exact Hr]. destruct O as (u & Hu & ->). rewrite isg_at by assumption. destruct (HO r Hr) as (_ & _ & _ & B2). destruct (B2 u Hu) as [X Y].
  split; [apply owned; [exact Hr|exists (nth u (n2o r) 0); auto]|]. rewrite sig_at by assumption. rewrite Y. reflexivity.
Qed.
Lemma owner g : g < gn G -> exists r, r < P /\ owns dist r g.
Proof. intros Hg. exists (find_owner dist g). exact (find_owner_owns P (gn G) dist g HD Hg). Qed.
Lemma sig_back r g : r < P -> g < gn G -> owns dist r (sig g) -> owns dist r g.
Proof. intros Hr Hg O. destruct (owner g Hg) as (q & Hq & Oq). destruct (sig_owns q g Hq Oq) as [A _]. rewrite (owns_unique P (gn G) dist HD r q _ Hr Hq O A). exact Oq. Qed.

Definition newG : graph := mkGraph (gn G) (fun x => rev (map (fun e => (sig (fst e), snd e)) (gadj G (isg x)))) (fun x => gvw G (isg x)).
Lemma new_iso : isomorphic_by sig G newG.
Proof.
  split; [reflexivity|]. split; [|split; [|split]].
  - intros g Hg. destruct (owner g Hg) as (r & Hr & O). destruct (sig_owns r g Hr O) as [A _]. exact (owns_lt P (gn G) dist HD r _ Hr A).
  - intros g h Hg Hh E. destruct (owner g Hg) as (r & Hr & O). destruct (owner h Hh) as (q & Hq & O').
    rewrite <- (proj2 (sig_owns r g Hr O)), <- (proj2 (sig_owns q h Hq O')), E. reflexivity.
  - intros g Hg. destruct (owner g Hg) as (r & Hr & O). cbn [gvw newG]. rewrite (proj2 (sig_owns r g Hr O)). reflexivity.
  - intros g Hg. destruct (owner g Hg) as (r & Hr & O). cbn [gadj newG]. rewrite (proj2 (sig_owns r g Hr O)). symmetry. apply Permutation_rev.
Qed.
Lemma new_ghost r x : r < P -> ghost_of newG dist r x <-> exists g, ghost_of G dist r g /\ x = sig g.
Proof.
  intros Hr. unfold ghost_of. split.
  - intros (N & v & w & Ov & Hin). cbn [gadj newG] in Hin. apply in_rev in Hin. apply in_map_iff in Hin. destruct Hin as [[g w'] [[= <- <-] Hin]].
    destruct (isg_owns r v Hr Ov) as [Oi _]. exists g. split; [|reflexivity]. split.
    + intros C. apply N. apply sig_owns; assumption.
    + exists (isg v), w'. split; [exact Oi|exact Hin].
  - intros (g & (N & v & w & Ov & Hin) & ->). split.
    + intros C. apply N. apply sig_back; [exact Hr| |exact C]. exact (HC v g w (owns_lt P (gn G) dist HD r v Hr Ov) Hin).
    + destruct (sig_owns r v Hr Ov) as [A B]. exists (sig v), w. split; [exact A|]. cbn [gadj newG]. rewrite B. apply in_rev. rewrite rev_involutive. apply in_map_iff. exists (g, w). auto.
Qed.

Hypothesis Room : forall r, r < P -> dc_nw (d r) = [] \/ dn (d r) + dghost_n (d r) <= length (dc_nw (d r)).
Variables (threads : nat -> nat) (bufs : nat -> list (list (nat * nat))).
Hypothesis HB : forall r, r < P -> 0 < threads r /\ buffers_outcome P (d r) (fun u => u) (fun _ _ => true) (label_message (o2n r)) (threads r) 0 (dn (d r)) (bufs r).

Section Rank.
Variables (q : nat) (je : list nat) (jn jw : list Z) (msgs : list (nat * (nat * nat))).
Hypothesis Hq : q < P.
Hypothesis Hj : length je = length (dc_edges (d q)).
Hypothesis Hjn : length jn = length (dc_nw (d q)).
Hypothesis Hjw : length jw = length (dc_ew (d q)).
Hypothesis Hm : Permutation msgs (inbox P bufs q).

Lemma in_box r u x : In (r, (u, x)) msgs <-> r < P /\ u < dn (d r) /\ ghost_of G dist q (from r + u) /\ x = nth u (o2n r) 0.
Proof.
  assert (E : In (r, (u, x)) msgs <-> In (r, (u, x)) (inbox P bufs q)) by (split; apply Permutation_in; [exact Hm|symmetry; exact Hm]).
  rewrite E. unfold inbox. rewrite in_flat_map.
  assert (Bf : forall r', r' < P -> forall u' x', In (u', x') (nth q (bufs r') []) <-> u' < dn (d r') /\ ghost_of G dist q (from r' + u') /\ x' = nth u' (o2n r') 0).
  { intros r' Hr' u' x'. destruct (HB r' Hr') as [Ht Hb]. destruct (rank_data r' Hr') as [RO _].
    destruct (buffers_ok P G dist HD (fun u => u) (fun _ _ => true) (label_message (o2n r')) r' (d r') (threads r') 0 (dn (d r')) Hr' RO HC Ht) with (bufs := bufs r') as [_ B]; [intros s Hs; lia|exact Hb|].
    destruct (B q Hq) as (sn & S1 & S2 & S3).
    assert (W : forall s, s < dn (d r') -> (wanted P G dist r' s q <-> ghost_of G dist q (from r' + s))) by (intros s Hs; apply (ghost_wanted P G dist HD r' s q HS Hr' Hq); rewrite <- sys_dn; assumption).
    split.
    - intros Hin. apply (Permutation_in _ S3) in Hin. apply in_map_iff in Hin. destruct Hin as [s [[= <- <-] Hs]]. apply S2 in Hs. destruct Hs as (R & _ & Ws).
      split; [lia|]. split; [apply W; [lia|exact Ws]|reflexivity].
    - intros (L & Ws & ->). apply (Permutation_in _ (Permutation_sym S3)). apply in_map_iff. exists u'. split; [reflexivity|].
      apply S2. split; [lia|]. split; [reflexivity|]. apply W; assumption. }
  split.
  - intros [r' [Hr' Hin]]. apply in_seq in Hr'. apply in_map_iff in Hin. destruct Hin as [[u' x'] [[= <- <- <-] Hin]]. split; [lia|]. apply Bf; [lia|exact Hin].
  - intros (Hr & B). exists r. split; [apply in_seq; lia|]. apply in_map_iff. exists (u, x). split; [reflexivity|]. apply Bf; [exact Hr|exact B].
Qed.

Let n := dn (d q).
Let k := dghost_n (d q).
Lemma dist_at i : i <= P -> doffset (d q) i = Some (from i).
Proof. intros Hi. unfold doffset. destruct (rank_data q Hq) as [[_ _ ->] _]. apply nth_error_nth'. destruct HD as (L & _). lia. Qed.
Lemma rank_q : dc_rank (d q) = q. Proof. destruct (rank_data q Hq) as [[_ E _] _]. exact E. Qed.
Lemma view_q : local_view G dist q n k (dlocal_to_global (d q)) (dglobal_to_local (d q)) (dghost_owner (d q)) (dcontains (d q)) (dadj (d q)).
Proof. destruct (rank_data q Hq) as [[V _ _] _]. exact V. Qed.
Lemma ghost_key g l : ghost_of G dist q g -> dglobal_to_local (d q) g = Some l -> afind (g + 1) (gh_map (dc_ghosts (d q))) = Some l /\ n <= l < n + k.
Proof.
  intros Gh E. pose proof view_q as (V1 & V2 & V3 & V4 & V5 & V6 & V7 & V8). destruct (V6 g Gh) as (l' & R & E'). assert (l' = l) by congruence. subst l'. split; [|exact R].
  unfold dglobal_to_local in E. rewrite rank_q, dist_at in E by lia. cbn [bind] in E.
  destruct ((from q <=? g) && (g <? from q + dn (d q))) eqn:B; [|exact E]. exfalso. destruct Gh as (N & _). apply N. apply andb_prop in B. destruct B as [B1 B2]. apply Nat.leb_le in B1. apply Nat.ltb_lt in B2.
  apply owned; [exact Hq|]. exists (g - from q). lia.
Qed.

(** The renamed ghosts. *)
Lemma sig_inj g h : g < gn G -> h < gn G -> sig g = sig h -> g = h.
Proof. destruct new_iso as (_ & _ & I & _). intros Hg Hh E. exact (I g h Hg Hh E). Qed.
Lemma ghost_lt g : ghost_of G dist q g -> g < gn G.
Proof. intros (_ & v & w & Ov & Hin). exact (HC v g w (owns_lt P (gn G) dist HD q v Hq Ov) Hin). Qed.
Lemma labels_ok ms : (forall m, In m ms -> In m msgs) ->
  exists mp gl, fold_left (receive_label (d q)) ms (Some ([], gh_global (dc_ghosts (d q)))) = Some (mp, gl) /\ length gl = k /\
    (forall r u x l, In (r, (u, x)) ms -> dglobal_to_local (d q) (from r + u) = Some l -> nth_error gl (l - n) = Some (sig (from r + u))) /\
    (forall y l, afind y mp = Some l <-> exists r u x, In (r, (u, x)) ms /\ y = sig (from r + u) + 1 /\ dglobal_to_local (d q) (from r + u) = Some l).
Proof.
  induction ms as [|m t IH] using rev_ind; intros Hin.
  - exists [], (gh_global (dc_ghosts (d q))). split; [reflexivity|]. split; [reflexivity|]. split; [intros r u x l []|]. intros y l. cbn [afind]. split; [discriminate|]. intros (r & u & x & [] & _).
  - destruct IH as (mp & gl & E & L & A & B); [intros m' Hm'; apply Hin; apply in_or_app; left; exact Hm'|].
    destruct m as [r [u x]]. pose proof (proj1 (in_box r u x) (Hin _ ltac:(apply in_or_app; right; left; reflexivity))) as (Hr & Hu & Gh & Hx). subst x.
    pose proof view_q as (V1 & V2 & V3 & V4 & V5 & V6 & V7 & V8). destruct (V6 _ Gh) as (l0 & R0 & E0). destruct (ghost_key _ _ Gh E0) as [K _].
    rewrite fold_left_app, E. cbn [fold_left]. unfold receive_label. cbn [bind fst snd]. rewrite dist_at by lia. cbn [bind]. rewrite K. cbn [bind]. fold n.
    unfold store. rewrite (proj2 (Nat.ltb_lt (l0 - n) (length gl))) by lia. cbn [bind]. rewrite <- (sig_at r u Hr Hu).
    exists (ainsert (sig (from r + u) + 1) l0 mp), (upd (l0 - n) (sig (from r + u)) gl). split; [reflexivity|]. split; [rewrite upd_length; exact L|]. split.
    + intros r' u' x' l' Hm' E'. rewrite upd_nth_error. assert (C0 : In (r', (u', x')) msgs) by (apply Hin; exact Hm').
      destruct (proj1 (in_box _ _ _) C0) as (Hr' & Hu' & Gh' & _). destruct (ghost_key _ _ Gh' E') as [_ R'].
      destruct (Nat.eqb_spec (l0 - n) (l' - n)) as [Q|Q]; cbn [andb].
      * rewrite (proj2 (Nat.ltb_lt (l0 - n) (length gl))) by lia. assert (Hll : l0 = l') by lia. subst l'. apply V5 in E'. apply V5 in E0. congruence.
      * apply in_app_or in Hm'. destruct Hm' as [Hm'|[Hm'|[]]]; [exact (A r' u' x' l' Hm' E')|]. injection Hm' as <- <- _. rewrite E0 in E'. injection E' as <-. lia.
    + intros y l. rewrite afind_ainsert. destruct (afind (sig (from r + u) + 1) mp) as [l1|] eqn:F.
      * rewrite B. split.
        -- intros (r' & u' & x' & Hm' & Hy & E'). exists r', u', x'. split; [apply in_or_app; left; exact Hm'|auto].
        -- intros (r' & u' & x' & Hm' & Hy & E'). apply in_app_or in Hm'. destruct Hm' as [Hm'|[Hm'|[]]]; [exists r', u', x'; auto|]. injection Hm' as <- <- <-.
           apply B in F. destruct F as (r1 & u1 & x1 & Hm1 & Hy1 & E1). exists r1, u1, x1. split; [exact Hm1|]. split; [lia|].
           assert (Q : from r1 + u1 = from r + u).
           { apply sig_inj; [| |lia]; apply ghost_lt; [|exact Gh]. exact (proj1 (proj2 (proj2 (proj1 (in_box r1 u1 x1) (Hin _ ltac:(apply in_or_app; left; exact Hm1)))))). }
           rewrite Q. exact E'.
      * destruct (Nat.eqb_spec (sig (from r + u) + 1) y) as [Q|Q].
        -- split.
           ++ intros [= <-]. exists r, u, (nth u (o2n r) 0). split; [apply in_or_app; right; left; reflexivity|]. auto.
           ++ intros (r' & u' & x' & Hm' & Hy & E'). f_equal. assert (Gh' : ghost_of G dist q (from r' + u')) by exact (proj1 (proj2 (proj2 (proj1 (in_box r' u' x') (Hin _ Hm'))))).
              assert (Q' : from r' + u' = from r + u) by (apply sig_inj; [apply ghost_lt; exact Gh'|apply ghost_lt; exact Gh|lia]). rewrite Q' in E'. congruence.
        -- rewrite B. split; intros (r' & u' & x' & Hm' & Hy & E'); exists r', u', x'; (split; [|auto]).
           ++ apply in_or_app. left. exact Hm'.
           ++ apply in_app_or in Hm'. destruct Hm' as [Hm'|[Hm'|[]]]; [exact Hm'|]. exfalso. injection Hm' as <- <- _. apply Q. symmetry. exact Hy.
Qed.

Lemma weights_new : exists nw', copy_ghost_weights n (n + k) (dc_nw (d q)) (pnw (dc_nodes (d q)) (dc_nw (d q)) (n2o q) jn) = Some nw' /\ length nw' = length (dc_nw (d q)) /\
  (forall u, u < n -> dnode_weight nw' u = dnode_weight (dc_nw (d q)) (nth u (n2o q) 0)) /\ (forall u, n <= u < n + k -> dnode_weight nw' u = dnode_weight (dc_nw (d q)) u).
Proof.
  destruct (rank_data q Hq) as [_ (A0 & _)]. destruct (HO q Hq) as (_ & L2 & _ & B2). fold n in L2, B2.
  unfold pnw. change (length (dc_nodes (d q)) - 1) with n. destruct (nil_dec (dc_nw (d q))) as [E|E].
  - rewrite E in *. cbn [length] in *. destruct jn as [|z t]; [|discriminate]. assert (X : copy_ghost_weights n (n + k) [] (if length (dc_nodes (d q)) <=? 0 + 1 then map (fun u => nth (nth u (n2o q) 0) [] 0%Z) (seq 0 n) ++ skipn n [] else []) = Some []).
    { destruct (Nat.leb_spec (length (dc_nodes (d q))) (0 + 1)) as [H|H]; [|reflexivity]. assert (Hn : n = 0) by (unfold n, dn; lia). rewrite Hn. reflexivity. }
    exists []. split; [exact X|]. split; [reflexivity|]. split; reflexivity.
  - destruct (Room q Hq) as [C|Rm]; [congruence|]. fold n k in Rm.
    assert (Hle : (length (dc_nodes (d q)) <=? length (dc_nw (d q)) + 1) = true) by (apply Nat.leb_le; unfold n, dn in Rm; lia). rewrite Hle.
    set (new := map (fun u => nth (nth u (n2o q) 0) (dc_nw (d q)) 0%Z) (seq 0 n) ++ skipn n jn).
    assert (Ln : length new = length (dc_nw (d q))) by (unfold new; rewrite app_length, map_length, seq_length, skipn_length; lia).
    assert (Nn : new <> []) by (intros C; apply E; apply length_zero_iff_nil; rewrite <- Ln, C; reflexivity).
    unfold copy_ghost_weights. rewrite match_ne by exact Nn. replace (n + k - n) with k by lia.
    destruct (copy_ghosts_ok (dc_nw (d q)) (seq n k) new) as (nw' & F & L & N); [intros u Hu; apply in_seq in Hu; lia|].
    exists nw'. split; [exact F|]. split; [lia|].
    assert (Nn' : nw' <> []) by (intros C; apply E; apply length_zero_iff_nil; rewrite <- Ln, <- L, C; reflexivity).
    assert (DW : forall l u, l <> [] -> u < length l -> dnode_weight l u = Some (nth u l 0%Z)).
    { intros l u Hl Hu. unfold dnode_weight. rewrite match_ne by exact Hl. apply nth_error_nth'. exact Hu. }
    split.
    + intros u Hu. destruct (B2 u Hu) as [Q _]. rewrite !DW by (assumption || lia). f_equal. rewrite N. destruct (existsb (Nat.eqb u) (seq n k)) eqn:X.
      * exfalso. apply existsb_exists in X. destruct X as (y & Hy & Ey). apply in_seq in Hy. apply Nat.eqb_eq in Ey. lia.
      * unfold new. rewrite app_nth1 by (rewrite map_length, seq_length; exact Hu). rewrite nth_map_seq by exact Hu. reflexivity.
    + intros u Hu. rewrite !DW by (assumption || lia). f_equal. rewrite N. assert (X : existsb (Nat.eqb u) (seq n k) = true) by (apply existsb_exists; exists u; split; [apply in_seq; lia|apply Nat.eqb_refl]). rewrite X. reflexivity.
Qed.

Theorem rank_rearranged : exists d', rearrange_rank (d q) (o2n q) (n2o q) je jn jw msgs = Some d' /\
  local_view newG dist q (dn d') (dghost_n d') (dlocal_to_global d') (dglobal_to_local d') (dghost_owner d') (dcontains d') (dadj d') /\
  (forall u, u < dn d' -> dnode_weight (dc_nw d') u = Some (gvw newG (from q + u))) /\
  dc_rank d' = q /\ dc_dist d' = dist /\ dc_edist d' = edist /\ length (dc_edges d') = length (dc_edges (d q)) /\ csr_arrays d' /\
  dn d' = dn (d q) /\ dghost_n d' = dghost_n (d q) /\ length (dc_nw d') = length (dc_nw (d q)) /\ length (dc_ew d') = length (dc_ew (d q)) /\
  (forall u, n <= u < n + k -> dnode_weight (dc_nw d') u = dnode_weight (dc_nw (d q)) u) /\
  (forall u, u < n -> degree_of (dc_nodes d') u = degree_of (dc_nodes (d q)) (nth u (n2o q) 0)) /\
  (forall l g, dlocal_to_global (d q) l = Some g -> dlocal_to_global d' (if l <? n then nth l (o2n q) 0 else l) = Some (sig g)).
Proof.
  destruct (rank_data q Hq) as [[_ Rk Ds] CA]. pose proof CA as (A0 & A1 & A2 & A3 & A4). destruct (HO q Hq) as (L1 & L2 & B1 & B2).
  destruct HDs as (_ & _ & _ & HR). destruct (HR q Hq) as (_ & Wt & _ & _ & Ed & _).
  destruct weights_new as (nw' & EW & LW & W1 & W2). destruct (labels_ok msgs (fun m H => H)) as (mp & gl & EL & Lg & LA & LB).
  unfold rearrange_rank.
  rewrite (build_part (dc_nodes (d q)) (dc_edges (d q)) (dc_nw (d q)) (dc_ew (d q)) (o2n q) (n2o q) je jn jw A0 A1 A2 A3 A4 L1 L2 B1 B2 Hj Hjw).
  cbv beta iota. fold n k. rewrite EW. cbn [bind]. rewrite EL. cbn [bind fst snd].
  set (NO := pnodes (dc_nodes (d q)) (n2o q)). set (ED := pedges (dc_nodes (d q)) (dc_edges (d q)) (o2n q) (n2o q)).
  set (EWt := pew (dc_nodes (d q)) (dc_edges (d q)) (dc_ew (d q)) (n2o q) jw).
  set (d' := Dcsr _ _ _ _ _ _ _ _). exists d'. split; [reflexivity|].
  assert (LNO : length NO = S n) by (apply pnodes_length).
  assert (Dn' : dn d' = n) by (unfold dn, d'; cbn [dc_nodes]; lia).
  assert (Dk' : dghost_n d' = k) by (exact Lg).
  assert (CA' : csr_arrays d').
  { unfold csr_arrays. rewrite Dn'. cbn [dc_nodes dc_edges dc_ew d']. destruct (pcsr (dc_nodes (d q)) (dc_edges (d q)) (dc_ew (d q)) (o2n q) (n2o q) je jw A0 A1 A2 A3 A4 L1 L2 B1 B2 Hj Hjw) as (Q1 & Q2 & Q3 & Q4).
    split; [exact Q1|]. split; [exact Q2|]. split; [exact Q3|]. split; [exact Q4|]. exact (proj1 (pew_ok (dc_nodes (d q)) (dc_edges (d q)) (dc_ew (d q)) (o2n q) (n2o q) je jw A0 A1 A2 A3 A4 L1 L2 B1 B2 Hj Hjw)). }
  pose proof view_q as (V1 & V2 & V3 & V4 & V5 & V6 & V7 & V8).
  assert (Off : forall i, i <= P -> doffset d' i = Some (from i)) by (intros i Hi; unfold doffset; cbn [dc_dist d']; rewrite Ds; apply nth_error_nth'; destruct HD as (L & _); lia).
  assert (Own' : forall u, u < n -> dlocal_to_global d' u = Some (from q + u)).
  { intros u Hu. unfold dlocal_to_global, dis_ghost. rewrite Dn'. rewrite (proj2 (Nat.leb_gt n u)) by exact Hu. cbn [dc_rank d']. rewrite Rk, Off by lia. reflexivity. }
  assert (GhL : forall u g, n <= u -> dlocal_to_global (d q) u = Some g -> ghost_of G dist q g /\ n <= u < n + k).
  { intros u g Hu E. destruct (Nat.lt_ge_cases u (n + k)) as [H|H]; [|rewrite (V4 u H) in E; discriminate]. destruct (V3 u ltac:(lia)) as (g' & p & E' & Gh & _). split; [congruence|lia]. }
  assert (Full : forall g, ghost_of G dist q g -> exists r u, In (r, (u, nth u (o2n r) 0)) msgs /\ g = from r + u).
  { intros g Gh. destruct (owner g (ghost_lt g Gh)) as (r & Hr & O). apply owned in O; [|exact Hr]. destruct O as (u & Hu & ->). exists r, u. split; [|reflexivity]. apply in_box. auto. }
  assert (Gh' : forall u g, n <= u -> dlocal_to_global (d q) u = Some g -> dlocal_to_global d' u = Some (sig g)).
  { intros u g Hu E. destruct (GhL u g Hu E) as [Gh Ru]. destruct (Full g Gh) as (r & v & Hin & ->). unfold dlocal_to_global, dis_ghost. rewrite Dn'. rewrite (proj2 (Nat.leb_le n u)) by exact Hu.
    cbn [dc_ghosts gh_global d']. apply (LA r v _ u Hin). apply V5. exact E. }
  assert (Tr : forall l g, dlocal_to_global (d q) l = Some g -> dlocal_to_global d' (if l <? n then nth l (o2n q) 0 else l) = Some (sig g)).
  { intros l g E. destruct (Nat.ltb_spec l n) as [H|H]; [|exact (Gh' l g H E)]. rewrite (V2 l H) in E. injection E as <-. destruct (B1 l H) as [Q _]. rewrite (Own' _ Q), (sig_at q l Hq H). reflexivity. }
  assert (G2L : forall x, dglobal_to_local d' x = if (from q <=? x) && (x <? from q + n) then Some (x - from q) else afind (x + 1) mp).
  { intros x. unfold dglobal_to_local. cbn [dc_rank d']. rewrite Rk, Off by lia. cbn [bind]. rewrite Dn'. reflexivity. }
  assert (InO : forall x, (from q <=? x) && (x <? from q + n) = true <-> owns dist q x).
  { intros x. rewrite andb_true_iff, Nat.leb_le, Nat.ltb_lt. rewrite owned by exact Hq. fold n. split; [intros H; exists (x - from q); lia|intros (u & A & ->); lia]. }
  assert (Mp : forall x l, afind (x + 1) mp = Some l <-> exists g, ghost_of G dist q g /\ x = sig g /\ dglobal_to_local (d q) g = Some l).
  { intros x l. rewrite LB. split.
    - intros (r & u & y & Hin & Hy & E). exists (from r + u). split; [exact (proj1 (proj2 (proj2 (proj1 (in_box r u y) Hin))))|]. split; [lia|exact E].
    - intros (g & Gh & -> & E). destruct (Full g Gh) as (r & u & Hin & ->). exists r, u, (nth u (o2n r) 0). split; [exact Hin|]. split; [reflexivity|exact E]. }
  assert (NotOwn : forall g, ghost_of G dist q g -> (from q <=? sig g) && (sig g <? from q + n) = false).
  { intros g Gh. destruct ((from q <=? sig g) && (sig g <? from q + n)) eqn:X; [|reflexivity]. exfalso. apply InO in X. destruct Gh as (N & Hx). apply N. apply sig_back; [exact Hq| |exact X]. apply ghost_lt. split; assumption. }
  assert (View : local_view newG dist q (dn d') (dghost_n d') (dlocal_to_global d') (dglobal_to_local d') (dghost_owner d') (dcontains d') (dadj d')).
  { rewrite Dn', Dk'. split; [exact V1|]. split; [exact Own'|]. split; [|split; [|split; [|split; [|split]]]].
    - intros u Hu. destruct (V3 u Hu) as (g & p & E & Gh & Ow & Op). exists (sig g), p. split; [apply Gh'; [lia|exact E]|]. split; [apply new_ghost; [exact Hq|exists g; auto]|].
      split; [unfold dghost_owner; rewrite Dn'; cbn [dc_ghosts gh_owner d']; exact Ow|]. destruct (owner g (ghost_lt g Gh)) as (r & Hr & O).
      destruct (Nat.lt_ge_cases p P) as [Hp|Hp]; [apply sig_owns; assumption|]. exfalso. unfold owns in Op. destruct HD as (LD & _). rewrite (nth_overflow dist 0 (n := S p)) in Op by lia. lia.
    - intros u Hu. unfold dlocal_to_global, dis_ghost. rewrite Dn'. rewrite (proj2 (Nat.leb_le n u)) by lia. cbn [dc_ghosts gh_global d']. apply nth_error_None. lia.
    - intros u x. rewrite G2L. split.
      + intros E. destruct (Nat.lt_ge_cases u n) as [H|H].
        * rewrite (Own' u H) in E. injection E as <-. assert (X : (from q <=? from q + u) && (from q + u <? from q + n) = true) by (apply InO; apply owned; [exact Hq|exists u; auto]). rewrite X. f_equal. lia.
        * assert (Hk : u < n + k). { destruct (Nat.lt_ge_cases u (n + k)) as [C|C]; [exact C|]. exfalso. unfold dlocal_to_global, dis_ghost in E. rewrite Dn', (proj2 (Nat.leb_le n u)) in E by lia. cbn [dc_ghosts gh_global d'] in E. assert (Z : nth_error gl (u - n) = None) by (apply nth_error_None; lia). rewrite Z in E. discriminate. }
          destruct (V3 u ltac:(lia)) as (g & p & E' & Gh & _). rewrite (Gh' u g H E') in E. injection E as <-. rewrite (NotOwn g Gh). apply Mp. exists g. split; [exact Gh|]. split; [reflexivity|]. apply V5. exact E'.
      + intros E. destruct ((from q <=? x) && (x <? from q + n)) eqn:X.
        * injection E as <-. apply andb_prop in X. destruct X as [X1 X2]. apply Nat.leb_le in X1. apply Nat.ltb_lt in X2. rewrite Own' by lia. f_equal. lia.
        * apply Mp in E. destruct E as (g & Gh & -> & E). destruct (ghost_key g u Gh E) as [_ R]. apply Gh'; [lia|]. apply V5. exact E.
    - intros x Gx. apply new_ghost in Gx; [|exact Hq]. destruct Gx as (g & Gh & ->). destruct (V6 g Gh) as (u & R & E). exists u. split; [exact R|]. rewrite G2L, (NotOwn g Gh). apply Mp. exists g. auto.
    - intros x. unfold dcontains. cbn [dc_rank d']. rewrite Rk, Off by lia. cbn [bind]. rewrite Dn'. fold n. cbn [dc_ghosts gh_map d'].
      rewrite new_ghost by exact Hq. rewrite <- InO. destruct ((from q <=? x) && (x <? from q + n)) eqn:X; cbn [orb].
      + split; auto.
      + destruct (afind (x + 1) mp) as [l|] eqn:F.
        * split; [intros _|reflexivity]. right. apply Mp in F. destruct F as (g & Gh & -> & _). exists g. auto.
        * split; [discriminate|]. intros [C|(g & Gh & ->)]; [discriminate|]. exfalso. destruct (V6 g Gh) as (u & R & E). assert (Y : afind (sig g + 1) mp = Some u) by (apply Mp; exists g; auto). congruence.
    - intros u Hu. rewrite (dadj_row d' u CA') by lia. eexists. split; [reflexivity|]. cbn [dc_nodes dc_edges dc_ew d'].
      unfold NO, ED, EWt. rewrite (prow (dc_nodes (d q)) (dc_edges (d q)) (dc_ew (d q)) (o2n q) (n2o q) je jw A0 A1 A2 A3 A4 L1 L2 B1 B2 Hj Hjw u Hu).
      destruct (B2 u Hu) as [Ho _]. destruct (V8 _ Ho) as (nbs & En & Mn). rewrite (dadj_row (d q) _ CA Ho) in En. injection En as En. rewrite En.
      cbn [gadj newG]. rewrite isg_at by assumption. rewrite !map_rev. f_equal. rewrite !map_map. cbn [fst snd]. clear En. revert Mn. generalize (gadj G (from q + nth u (n2o q) 0)).
      induction nbs as [|[v w] t IHn]; intros [|[g w'] l] Mn; try discriminate; [reflexivity|]. cbn [map fst snd] in *. injection Mn as E1 E2 E3. f_equal; [|exact (IHn l E3)].
      f_equal; [|exact E2]. exact (Tr v g E1). }
  split; [exact View|]. split.
  - rewrite Dn'. intros u Hu. cbn [dc_nw d']. rewrite (W1 u Hu). destruct (B2 u Hu) as [Ho _]. rewrite (Wt _ Ho). cbn [gvw newG]. rewrite isg_at by assumption. reflexivity.
  - split; [exact Rk|]. split; [exact Ds|]. split; [exact Ed|]. split; [apply (pedges_length (dc_nodes (d q)) (dc_edges (d q)) (o2n q) (n2o q) A1 A2 A3 B2)|]. split; [exact CA'|].
    split; [exact Dn'|]. split; [exact Dk'|]. split; [exact LW|]. split; [|split; [exact W2|split; [|exact Tr]]].
    + exact (proj2 (proj2 (proj2 (pew_ok (dc_nodes (d q)) (dc_edges (d q)) (dc_ew (d q)) (o2n q) (n2o q) je jw A0 A1 A2 A3 A4 L1 L2 B1 B2 Hj Hjw)))).
    + intros u Hu. exact (pdegree (dc_nodes (d q)) (dc_edges (d q)) (dc_ew (d q)) (o2n q) (n2o q) je jw A0 A1 A2 A3 A4 L1 L2 B1 B2 Hj Hjw u Hu).
Qed.
End Rank.
End System.
