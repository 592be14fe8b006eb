(* Heavy edge matching: one round on all ranks. *)
From Verif Require Import Lib.Prelude Model.GridModel Model.DistGraphModel Model.RearrangeModel Model.HemModel Spec.Graph Spec.DistGraphSpec Spec.ReplicateSpec Spec.RearrangeSpec Spec.ColoringSpec
  Proofs.DistViewProofs Proofs.ColoringFinal Proofs.HemLocal Proofs.HemFacts.

Section Round.
Variables (P : nat) (G : graph) (dist edist : list nat) (d : nat -> dcsr).
Hypothesis HDs : distributed P G dist edist d.
Hypothesis HC : closed_graph G.
Hypothesis HS : symmetric_adjacency G.
Hypothesis HW : ghost_weights P G d.
Variables (maxw : Z) (ignore : bool).
Variable color : nat -> nat.
Hypothesis HP : proper_coloring G color.
Notation from r := (nth r dist 0).
Notation own := (find_owner dist).
Notation tot := (tot d).

(** The entry of a node on its own rank. *)
Definition M (s : nat -> list cell) (g : nat) : cell := rd (s (own g)) (g - from (own g)).
Lemma M_own s r l : r < P -> l < dn (d r) -> M s (from r + l) = rd (s r) l.
Proof. intros Hr Hl. unfold M. destruct (f_at P G dist edist d HDs r l Hr Hl) as [_ ->]. f_equal. lia. Qed.

Definition fits (u v : nat) : Prop := (exists w, In (v, w) (gadj G u) /\ (0 < w)%Z) /\ (ignore = false -> (gvw G u + gvw G v <= maxw)%Z).
(** Colours below [c] have been visited. *)
Record inv (c : nat) (s : nat -> list cell) : Prop := {
  i_len : forall r, r < P -> length (s r) = tot r;
  i_cell : forall g, g < gn G -> M s g = Free \/ exists v, M s g = To v;
  i_to : forall g v, g < gn G -> M s g = To v -> v = g \/ (v < gn G /\ M s v = To v /\ color g < c /\ fits g v);
  i_pair : forall g g' v, g < gn G -> g' < gn G -> M s g = To v -> M s g' = To v -> g <> v -> g' <> v -> g = g';
  i_ghost : forall r l, r < P -> dn (d r) <= l < tot r -> rd (s r) l = M s (glob (d r) l) \/ (M s (glob (d r) l) = Free /\ rd (s r) l = To (glob (d r) l))
}.
(** What a round does: [np]: the new matches. *)
Record effect (c : nat) (s s' : nat -> list cell) (np : nat -> option nat) : Prop := {
  e_len : forall r, r < P -> length (s' r) = tot r;
  e_new : forall u v, np u = Some v -> u < gn G /\ v < gn G /\ color u = c /\ M s u = Free /\ M s v = Free /\ fits u v;
  e_inj : forall u u' v, np u = Some v -> np u' = Some v -> u = u';
  e_set : forall u v, np u = Some v -> M s' u = To v /\ M s' v = To v;
  e_rest : forall g, g < gn G -> M s' g = M s g \/ (exists v, np g = Some v) \/ (exists u, np u = Some g);
  e_ghost : forall r l, r < P -> dn (d r) <= l < tot r -> let g := glob (d r) l in
    rd (s' r) l = M s' g \/ (rd (s' r) l = rd (s r) l /\ M s' g = M s g) \/ (M s g = Free /\ M s' g = Free /\ rd (s' r) l = To g)
}.
Lemma effect_inv c s s' np : inv c s -> effect c s s' np -> inv (S c) s'.
Proof.
  intros [I1 I2 I3 I4 I5] [E1 E2 E3 E4 E5 E6].
  assert (Old : forall g v, g < gn G -> M s g = To v -> M s' g = To v).
  { intros g v Hg H. destruct (E5 g Hg) as [A|[[x A]|[x A]]]; [congruence| |]; destruct (E2 _ _ A) as (_ & _ & _ & B1 & B2 & _); congruence. }
  (* a node that is matched with another one was so before, or is new *)
  assert (Cases : forall g v, g < gn G -> M s' g = To v -> g <> v -> M s g = To v \/ np g = Some v).
  { intros g v Hg H N. destruct (E5 g Hg) as [A|[[x A]|[x A]]]; [left; congruence| |].
    - right. destruct (E4 _ _ A) as [B _]. congruence.
    - destruct (E4 _ _ A) as [_ B]. congruence. }
  split; [exact E1| | | |].
  - intros g Hg. destruct (E5 g Hg) as [A|[[x A]|[x A]]]; [rewrite A; exact (I2 g Hg)| |]; destruct (E4 _ _ A); right; eauto.
  - intros g v Hg H. destruct (Nat.eq_dec g v) as [->|N]; [left; reflexivity|right]. destruct (Cases g v Hg H N) as [A|A].
    + destruct (I3 g v Hg A) as [->|(B1 & B2 & B3 & B4)]; [congruence|]. split; [exact B1|]. split; [exact (Old v v B1 B2)|]. split; [lia|exact B4].
    + destruct (E2 _ _ A) as (_ & B1 & B2 & _ & _ & B3). split; [exact B1|]. split; [exact (proj2 (E4 _ _ A))|]. split; [lia|exact B3].
  - intros g g' v Hg Hg' H H' N N'. destruct (Cases g v Hg H N) as [A|A]; destruct (Cases g' v Hg' H' N') as [A'|A'].
    + exact (I4 g g' v Hg Hg' A A' N N').
    + destruct (I3 g v Hg A) as [->|(_ & B & _)]; [congruence|]. destruct (E2 _ _ A') as (_ & _ & _ & _ & C & _). congruence.
    + destruct (I3 g' v Hg' A') as [->|(_ & B & _)]; [congruence|]. destruct (E2 _ _ A) as (_ & _ & _ & _ & C & _). congruence.
    + exact (E3 g g' v A A').
  - intros r l Hr Hl. destruct (E6 r l Hr Hl) as [A|[[A B]|(A & B & C)]]; [left; exact A| |right; auto]. rewrite A, B. exact (I5 r l Hr Hl).
Qed.

Section Step.
Variables (c : nat) (class : nat -> list nat) (s s' : nat -> list cell).
Hypothesis HK : forall r, r < P -> NoDup (class r) /\ forall u, In u (class r) <-> u < dn (d r) /\ color (from r + u) = c.
Hypothesis HI : inv c s.
Variables (order : nat -> list nat) (hidden : nat -> nat -> nat -> bool) (fails : nat -> nat -> bool) (bids : nat -> list (req * bool)) (msgs : nat -> list (nat * (nat * cell))).
Definition s1 r := match_nodes (d r) maxw ignore (s r) (hidden r) (fails r) (order r).
Definition s2 r := place_bids (d r) (s1 r) (bids r).
Definition s3 r := normalize (d r) (s1 r) (s2 r) (incoming P d class s1 r).
Definition s4 r := unmatch (s3 r) (answers P d class s1 s2 r).
Hypothesis Hord : forall r, r < P -> Permutation (order r) (class r).
Hypothesis Hbid : forall r, r < P -> Permutation (map fst (bids r)) (incoming P d class s1 r).
Hypothesis Hmsg : forall r, r < P -> Permutation (msgs r) (sync_inbox P d class s1 s2 s4 r).
Hypothesis Hs' : forall r, r < P -> s' r = receive_cells (d r) (s4 r) (msgs r).

Lemma cls_own r u : r < P -> In u (class r) -> u < dn (d r) /\ color (from r + u) = c.
Proof. intros Hr Hu. exact (proj1 (proj2 (HK r Hr) u) Hu). Qed.
Lemma picks_exist : exists pick : nat -> nat -> option nat, forall r, r < P -> picked (d r) maxw ignore (s r) (class r) (pick r) (s1 r).
Proof.
  apply (finite_choice (fun r p => picked (d r) maxw ignore (s r) (class r) p (s1 r)) P (fun _ => None)). intros r Hr. destruct (HK r Hr) as [ND HKr]. apply match_nodes_ok.
  - intros u v w Hu Hv. destruct (cls_own r u Hr Hu) as [U1 U2]. destruct (f_row P G dist edist d HDs r u v w Hr U1 Hv) as [V1 V2]. rewrite (i_len c s HI r Hr). split; [unfold HemFacts.tot; lia|].
    split; [exact V1|]. intros Hin. destruct (cls_own r v Hr Hin) as [W1 W2]. rewrite (f_own P G dist edist d HDs r v Hr W1) in V2.
    destruct (f_at P G dist edist d HDs r u Hr U1) as [X _]. apply (HP _ _ _ X V2). congruence.
  - eapply Permutation_NoDup; [apply Permutation_sym; exact (Hord r Hr)|exact ND].
  - intros u Hu. eapply Permutation_in; [exact (Hord r Hr)|exact Hu].
Qed.

Section Picks.
Variable pick : nat -> nat -> option nat.
Hypothesis Hp : forall r, r < P -> picked (d r) maxw ignore (s r) (class r) (pick r) (s1 r).

Lemma pick_facts r u v : r < P -> pick r u = Some v -> u < dn (d r) /\ color (from r + u) = c /\ v < tot r /\ In u (class r) /\ rd (s r) u = Free /\ rd (s r) v = Free /\
  rd (s1 r) u = To (glob (d r) v) /\ rd (s1 r) v = To (glob (d r) v) /\ fits (from r + u) (glob (d r) v).
Proof.
  intros Hr H. destruct (pk_ok _ _ _ _ _ _ _ (Hp r Hr) u v H) as (A & B & (C1 & (w & C2 & C2') & C3) & D1 & D2). destruct (cls_own r u Hr A) as [U1 U2].
  destruct (f_row P G dist edist d HDs r u v w Hr U1 C2) as [V1 V2]. repeat (split; [assumption|]). split; [exists w; auto|]. intros E. specialize (C3 E).
  rewrite (f_wt P G dist edist d HDs HW r u Hr) in C3 by (unfold HemFacts.tot; lia). rewrite (f_wt P G dist edist d HDs HW r v Hr V1) in C3. rewrite (f_own P G dist edist d HDs r u Hr U1) in C3. exact C3.
Qed.
Lemma len1 r : r < P -> length (s1 r) = tot r.
Proof. intros Hr. rewrite (pk_len _ _ _ _ _ _ _ (Hp r Hr)). exact (i_len c s HI r Hr). Qed.
Lemma len2 r : r < P -> length (s2 r) = tot r.
Proof. intros Hr. unfold s2. rewrite (proj1 (bids_ok (d r) (s1 r) (bids r))). exact (len1 r Hr). Qed.
Lemma len3 r : r < P -> length (s3 r) = tot r.
Proof. intros Hr. unfold s3. rewrite normalize_put, puts_length. exact (len2 r Hr). Qed.
Lemma len4 r : r < P -> length (s4 r) = tot r.
Proof. intros Hr. unfold s4. rewrite unmatch_put, puts_length. exact (len3 r Hr). Qed.

(** ** The requests *)
Lemma inc_iff q x : q < P -> In x (incoming P d class s1 q) <-> rq_pe x < P /\ In (rq_theirs x) (class (rq_pe x)) /\ exists v, In (v, rq_w x) (row (d (rq_pe x)) (rq_theirs x)) /\
  dn (d (rq_pe x)) <= v < tot (rq_pe x) /\ own (glob (d (rq_pe x)) v) = q /\ rd (s1 (rq_pe x)) (rq_theirs x) = To (glob (d (rq_pe x)) v) /\ rq_mine x = glob (d (rq_pe x)) v - from q.
Proof.
  intros Hq. unfold incoming. rewrite in_flat_map. split.
  - intros (r & Hr & Hx). apply in_seq in Hr. assert (Hr' : r < P) by lia. unfold requests in Hx. apply in_flat_map in Hx. destruct Hx as (u & Hu & Hx). apply in_flat_map in Hx. destruct Hx as ([v w] & Hv & Hx). cbn [fst snd] in Hx.
    destruct (cls_own r u Hr' Hu) as [U1 _]. destruct (f_row P G dist edist d HDs r u v w Hr' U1 Hv) as [V1 _].
    destruct (dis_ghost (d r) v && owner_is (d r) q v && goes_to (rd (s1 r) u) (glob (d r) v)) eqn:E; [|destruct Hx]. destruct Hx as [<-|[]]. cbn [rq_pe rq_theirs rq_mine rq_w].
    apply andb_true_iff in E. destruct E as [E E3]. apply andb_true_iff in E. destruct E as [E1 E2]. unfold dis_ghost in E1. apply Nat.leb_le in E1.
    rewrite (f_owner_is P G dist edist d HDs HC r q v Hr' (conj E1 V1)) in E2. apply Nat.eqb_eq in E2. split; [exact Hr'|]. split; [exact Hu|]. exists v. split; [exact Hv|]. split; [auto|]. split; [exact E2|].
    rewrite (f_off P G dist edist d HDs r q Hr' Hq). split; [|reflexivity]. unfold goes_to in E3. destruct (rd (s1 r) u); try discriminate. apply Nat.eqb_eq in E3. congruence.
  - destruct x as [r u m w]. cbn [rq_pe rq_theirs rq_mine rq_w]. intros (Hr & Hu & v & Hv & HL & Ho & Ht & ->). exists r. split; [apply in_seq; lia|]. unfold requests. apply in_flat_map. exists u. split; [exact Hu|].
    apply in_flat_map. exists (v, w). split; [exact Hv|]. cbn [fst snd]. unfold dis_ghost at 1. rewrite (proj2 (Nat.leb_le _ _) (proj1 HL)), (f_owner_is P G dist edist d HDs HC r q v Hr HL), Ho, Nat.eqb_refl, Ht. cbn [goes_to andb]. rewrite Nat.eqb_refl.
    rewrite (f_off P G dist edist d HDs r q Hr Hq). left. reflexivity.
Qed.
(** Every request belongs to a match of this round. *)
Lemma inc_pick q x : q < P -> In x (incoming P d class s1 q) -> rq_pe x < P /\ exists v, pick (rq_pe x) (rq_theirs x) = Some v /\ dn (d (rq_pe x)) <= v < tot (rq_pe x) /\
  own (glob (d (rq_pe x)) v) = q /\ rq_mine x < dn (d q) /\ from q + rq_mine x = glob (d (rq_pe x)) v /\ rq_pe x <> q.
Proof.
  intros Hq Hx. apply (inc_iff q x Hq) in Hx. destruct Hx as (Hr & Hu & v & Hv & HL & Ho & Ht & Hm). set (r := rq_pe x) in *. set (u := rq_theirs x) in *. split; [exact Hr|]. exists v.
  destruct (cls_own r u Hr Hu) as [U1 U2]. destruct (f_ghost P G dist edist d HDs HC r v Hr HL) as (_ & N & _). destruct (f_glob P G dist edist d HDs HC r v Hr (proj2 HL)) as [Lg _].
  assert (Pk : pick r u = Some v).
  { destruct (pk_rest _ _ _ _ _ _ _ (Hp r Hr) u) as [A|[[v' A]|[u' A]]].
    - exfalso. rewrite Ht in A. symmetry in A. rewrite <- (M_own s r u Hr U1) in A. destruct (f_at P G dist edist d HDs r u Hr U1) as [Lu Ou].
      destruct (i_to c s HI _ _ Lu A) as [B|(_ & _ & B & _)]; [|lia]. rewrite B in N. exact (N Ou).
    - destruct (pick_facts r u v' Hr A) as (_ & _ & V1 & _ & _ & _ & V2 & _). rewrite A. f_equal. apply (f_inj P G dist edist d HDs r v' v Hr V1 (proj2 HL)). congruence.
    - exfalso. destruct (pick_facts r u' u Hr A) as (_ & _ & _ & _ & _ & _ & _ & V2 & _). rewrite Ht in V2. injection V2 as V2. rewrite V2, (f_own P G dist edist d HDs r u Hr U1) in N.
      exact (N (proj2 (f_at P G dist edist d HDs r u Hr U1))). }
  split; [exact Pk|]. split; [exact HL|]. split; [exact Ho|]. destruct (f_node P G dist edist d HDs _ Lg) as (_ & B & C). rewrite Ho in B, C. rewrite Hm. split; [exact B|]. split; [exact C|]. congruence.
Qed.
Lemma pick_inc r u v : r < P -> pick r u = Some v -> dn (d r) <= v -> exists x, In x (incoming P d class s1 (own (glob (d r) v))) /\ rq_pe x = r /\ rq_theirs x = u /\ rq_mine x = glob (d r) v - from (own (glob (d r) v)).
Proof.
  intros Hr H L. destruct (pick_facts r u v Hr H) as (U1 & _ & V1 & U3 & _ & _ & T1 & _). destruct (pk_ok _ _ _ _ _ _ _ (Hp r Hr) u v H) as (_ & _ & (_ & (w & C2 & _) & _) & _).
  destruct (f_glob P G dist edist d HDs HC r v Hr V1) as [Lg _]. destruct (f_node P G dist edist d HDs _ Lg) as (Q & _). exists (Req r u (glob (d r) v - from (own (glob (d r) v))) w). split; [|auto].
  apply inc_iff; [exact Q|]. cbn [rq_pe rq_theirs rq_mine rq_w]. split; [exact Hr|]. split; [exact U3|]. exists v. auto.
Qed.
Lemma their_ok q x : q < P -> In x (incoming P d class s1 q) -> let l := their_node (d q) x in dn (d q) <= l < tot q /\ glob (d q) l = from (rq_pe x) + rq_theirs x.
Proof.
  intros Hq Hx. destruct (inc_pick q x Hq Hx) as (Hr & v & Pk & HL & Ho & Hm & Hg & N). destruct (pick_facts _ _ _ Hr Pk) as (U1 & _ & _ & _ & _ & _ & _ & _ & (w & W & _) & _).
  destruct (f_known P G dist edist d HDs HC HS (rq_pe x) (rq_theirs x) q _ w Hr U1 Hq (fun e => N (eq_sym e)) W Ho) as (l & L1 & L2). unfold their_node. rewrite (f_off P G dist edist d HDs q _ Hq Hr), Nat.add_comm, <- L2.
  rewrite (f_loc P G dist edist d HDs q l Hq (proj2 L1)). auto.
Qed.
Definition wins (q : nat) (x : req) : Prop := In x (incoming P d class s1 q) /\ won (d q) (s1 q) (s2 q) x = true.
Lemma wins_free q x : wins q x -> rd (s1 q) (rq_mine x) = Free /\ exists w, rd (s2 q) (rq_mine x) = Bid w (their_node (d q) x).
Proof.
  intros [_ W]. unfold won in W. apply andb_true_iff in W. destruct W as [A B]. unfold accepted in A. apply negb_true_iff, free_iff in A. split; [exact A|].
  destruct (rd (s2 q) (rq_mine x)) as [| |w l]; try discriminate. apply Nat.eqb_eq in B. subst l. eauto.
Qed.
Lemma same_origin q x y : q < P -> In x (incoming P d class s1 q) -> In y (incoming P d class s1 q) -> their_node (d q) x = their_node (d q) y -> rq_pe x = rq_pe y /\ rq_theirs x = rq_theirs y.
Proof.
  intros Hq Hx Hy E. destruct (their_ok q x Hq Hx) as [_ A]. destruct (their_ok q y Hq Hy) as [_ B]. rewrite E, B in A.
  destruct (inc_pick q x Hq Hx) as (Hr & v & Pk & _). destruct (inc_pick q y Hq Hy) as (Hr' & v' & Pk' & _). destruct (pick_facts _ _ _ Hr Pk) as (U1 & _). destruct (pick_facts _ _ _ Hr' Pk') as (U1' & _).
  destruct (f_at P G dist edist d HDs _ _ Hr U1) as [_ O1]. destruct (f_at P G dist edist d HDs _ _ Hr' U1') as [_ O2]. rewrite A in O2. assert (F : rq_pe x = rq_pe y) by congruence. split; [exact F|]. rewrite F in A. lia.
Qed.
Lemma wins_unique q x y : q < P -> wins q x -> wins q y -> rq_mine x = rq_mine y -> rq_pe x = rq_pe y /\ rq_theirs x = rq_theirs y.
Proof.
  intros Hq Hx Hy E. destruct (wins_free q x Hx) as [_ [w A]]. destruct (wins_free q y Hy) as [_ [w' B]]. rewrite E, B in A. injection A as _ A. apply (same_origin q x y Hq (proj1 Hx) (proj1 Hy)). congruence.
Qed.
(** Requests of the same node for the same node have the same outcome. *)
Lemma won_same q x y : rq_pe x = rq_pe y -> rq_theirs x = rq_theirs y -> rq_mine x = rq_mine y -> won (d q) (s1 q) (s2 q) x = won (d q) (s1 q) (s2 q) y.
Proof. intros A B C. unfold won, accepted, their_node. rewrite A, B, C. reflexivity. Qed.

(** ** After the requests *)
Lemma s3_won q x : q < P -> wins q x -> rd (s3 q) (rq_mine x) = To (glob (d q) (rq_mine x)).
Proof.
  intros Hq [Hx W]. unfold s3. rewrite normalize_put. destruct (inc_pick q x Hq Hx) as (_ & v & _ & _ & _ & Hm & _). apply puts_same.
  - exists x. split; [exact Hx|]. rewrite W. reflexivity.
  - intros y c' Hy. destruct (won (d q) (s1 q) (s2 q) y); [|discriminate]. intros E. injection E as E1 E2. congruence.
  - rewrite (len2 q Hq). unfold HemFacts.tot. lia.
Qed.
Lemma no_bid r l w b : r < P -> l < tot r -> rd (s1 r) l <> Bid w b.
Proof.
  intros Hr Hl E. destruct (pk_rest _ _ _ _ _ _ _ (Hp r Hr) l) as [A|[[v A]|[u A]]].
  - rewrite E in A. symmetry in A. destruct (Nat.lt_ge_cases l (dn (d r))) as [L|L].
    + rewrite <- (M_own s r l Hr L) in A. destruct (i_cell c s HI _ (proj1 (f_at P G dist edist d HDs r l Hr L))) as [B|[v B]]; congruence.
    + destruct (i_ghost c s HI r l Hr (conj L Hl)) as [B|[_ B]]; [|congruence]. destruct (i_cell c s HI _ (proj1 (f_glob P G dist edist d HDs HC r l Hr Hl))) as [C|[v C]]; congruence.
  - destruct (pick_facts r l v Hr A) as (_ & _ & _ & _ & _ & _ & B & _). congruence.
  - destruct (pick_facts r u l Hr A) as (_ & _ & _ & _ & _ & _ & _ & B & _). congruence.
Qed.
Lemma s3_rest q t : q < P -> t < tot q -> (forall x, wins q x -> rq_mine x <> t) -> rd (s3 q) t = rd (s1 q) t.
Proof.
  intros Hq Ht H. unfold s3. rewrite normalize_put. rewrite puts_other.
  - unfold s2. destruct (proj2 (bids_ok (d q) (s1 q) (bids q)) t) as [A|(A & x & b & Hx & Hm & B)]; [exact A|]. exfalso. apply (H x); [|exact Hm]. split.
    + eapply Permutation_in; [exact (Hbid q Hq)|]. apply in_map_iff. exists (x, b). auto.
    + unfold won, accepted. rewrite Hm, A. cbn [taken negb andb]. unfold s2. rewrite B. apply Nat.eqb_refl.
  - intros x i c' Hx E. destruct (won (d q) (s1 q) (s2 q) x) eqn:W; [|discriminate]. injection E as <- _. apply H. split; assumption.
Qed.
Lemma ans_iff r u b : r < P -> In (u, b) (answers P d class s1 s2 r) <-> exists q x, q < P /\ In x (incoming P d class s1 q) /\ rq_pe x = r /\ rq_theirs x = u /\ won (d q) (s1 q) (s2 q) x = b.
Proof.
  intros Hr. unfold answers. rewrite in_flat_map. split.
  - intros (q & Hq & H). apply in_seq in Hq. apply in_map_iff in H. destruct H as (x & E & H). injection E as E1 E2. apply filter_In in H. destruct H as [H1 H2]. apply Nat.eqb_eq in H2. exists q, x. repeat (split; [auto; lia|]). exact E2.
  - intros (q & x & Hq & Hx & H1 & H2 & H3). exists q. split; [apply in_seq; lia|]. apply in_map_iff. exists x. split; [congruence|]. apply filter_In. split; [exact Hx|apply Nat.eqb_eq; exact H1].
Qed.
Lemma s4_fail q x : q < P -> In x (incoming P d class s1 q) -> won (d q) (s1 q) (s2 q) x = false -> rd (s4 (rq_pe x)) (rq_theirs x) = Free.
Proof.
  intros Hq Hx W. destruct (inc_pick q x Hq Hx) as (Hr & v & Pk & _). unfold s4. rewrite unmatch_put. apply puts_same.
  - exists (rq_theirs x, false). split; [|reflexivity]. apply (ans_iff _ _ _ Hr). exists q, x. auto.
  - intros [u b] c' _. cbn [fst snd]. destruct b; [discriminate|]. intros E. congruence.
  - rewrite (len3 _ Hr). destruct (pick_facts _ _ _ Hr Pk) as (U & _). unfold HemFacts.tot. lia.
Qed.
Lemma s4_rest r l : r < P -> (forall q x, q < P -> In x (incoming P d class s1 q) -> rq_pe x = r -> rq_theirs x = l -> won (d q) (s1 q) (s2 q) x = true) -> rd (s4 r) l = rd (s3 r) l.
Proof.
  intros Hr H. unfold s4. rewrite unmatch_put. apply puts_other. intros [u b] i c' Hin. cbn [fst snd]. destruct b; [discriminate|]. intros E. injection E as <- _. intros ->.
  apply (ans_iff _ _ _ Hr) in Hin. destruct Hin as (q & x & Hq & Hx & H1 & H2 & H3). rewrite (H q x Hq Hx H1 H2) in H3. discriminate.
Qed.
Lemma s4_unpicked r l : r < P -> pick r l = None -> rd (s4 r) l = rd (s3 r) l.
Proof. intros Hr H. apply (s4_rest r l Hr). intros q x Hq Hx <- <-. destruct (inc_pick q x Hq Hx) as (_ & v & Pk & _). congruence. Qed.

(** ** The matches that remain *)
Definition np (g : nat) : option nat :=
  if g <? gn G then
    match pick (own g) (g - from (own g)) with
    | None => None
    | Some v => let h := glob (d (own g)) v in
        if (own h =? own g) || existsb (fun x => won (d (own h)) (s1 (own h)) (s2 (own h)) x && (rq_pe x =? own g) && (rq_theirs x =? g - from (own g))) (incoming P d class s1 (own h)) then Some h else None
    end
  else None.
Lemma np_iff r u h : r < P -> u < dn (d r) -> np (from r + u) = Some h <->
  exists v, pick r u = Some v /\ h = glob (d r) v /\ (own h = r \/ exists x, wins (own h) x /\ rq_pe x = r /\ rq_theirs x = u).
Proof.
  intros Hr Hu. destruct (f_at P G dist edist d HDs r u Hr Hu) as [A B]. unfold np. rewrite B, (proj2 (Nat.ltb_lt _ _) A). replace (from r + u - from r) with u by lia.
  destruct (pick r u) as [v|] eqn:E; [|split; [discriminate|intros (v & X & _); discriminate]]. cbv zeta.
  destruct ((own (glob (d r) v) =? r) || _) eqn:F.
  - split; [|intros (v' & X & -> & _); injection X as <-; reflexivity]. intros X. injection X as <-. exists v. split; [reflexivity|]. split; [reflexivity|]. apply orb_true_iff in F. destruct F as [F|F].
    + left. apply Nat.eqb_eq. exact F.
    + right. apply existsb_exists in F. destruct F as (x & F1 & F2). apply andb_true_iff in F2. destruct F2 as [F2 F4]. apply andb_true_iff in F2. destruct F2 as [F2 F3]. apply Nat.eqb_eq in F3, F4. exists x. split; [split; assumption|auto].
  - split; [discriminate|]. intros (v' & X & -> & Y). injection X as <-. apply orb_false_iff in F. destruct F as [F1 F2]. apply Nat.eqb_neq in F1. destruct Y as [Y|(x & [Y1 Y2] & Y3 & Y4)]; [contradiction|].
    exfalso. assert (T : existsb (fun x => won (d (own (glob (d r) v))) (s1 (own (glob (d r) v))) (s2 (own (glob (d r) v))) x && (rq_pe x =? r) && (rq_theirs x =? u)) (incoming P d class s1 (own (glob (d r) v))) = true).
    { apply existsb_exists. exists x. split; [exact Y1|]. rewrite Y2, Y3, Y4, !Nat.eqb_refl. reflexivity. } congruence.
Qed.
Lemma np_split g h : np g = Some h -> exists r u, r < P /\ u < dn (d r) /\ g = from r + u /\ r = own g /\ exists v, pick r u = Some v /\ h = glob (d r) v /\ (own h = r \/ exists x, wins (own h) x /\ rq_pe x = r /\ rq_theirs x = u).
Proof.
  intros H. assert (Hg : g < gn G) by (unfold np in H; destruct (Nat.ltb_spec g (gn G)); [assumption|discriminate]). destruct (f_node P G dist edist d HDs g Hg) as (A & B & C).
  exists (own g), (g - from (own g)). split; [exact A|]. split; [exact B|]. split; [lia|]. split; [reflexivity|]. rewrite <- C in H. apply np_iff in H; assumption.
Qed.
Lemma pick_own r u v : r < P -> pick r u = Some v -> own (glob (d r) v) = r <-> v < dn (d r).
Proof.
  intros Hr H. destruct (pick_facts r u v Hr H) as (_ & _ & V & _). destruct (f_glob P G dist edist d HDs HC r v Hr V) as [_ E]. unfold dis_ghost in E. split; intros A.
  - rewrite A, Nat.eqb_refl in E. cbn [negb] in E. apply Nat.leb_gt in E. exact E.
  - rewrite (proj2 (Nat.leb_gt _ _) A) in E. destruct (Nat.eqb_spec (own (glob (d r) v)) r); [assumption|discriminate].
Qed.
Lemma taken1 r u v l : r < P -> pick r u = Some v -> l = u \/ l = v -> rd (s1 r) l <> Free.
Proof. intros Hr H. destruct (pick_facts r u v Hr H) as (_ & _ & _ & _ & _ & _ & A & B & _). intros [->| ->]; congruence. Qed.
Lemma target_unpicked r u v : r < P -> pick r u = Some v -> pick r v = None.
Proof.
  intros Hr H. destruct (pick r v) as [v'|] eqn:E; [|reflexivity]. exfalso. destruct (pick_facts r v v' Hr E) as (A & A' & B & _ & _ & _ & D & _). destruct (pick_facts r u v Hr H) as (Lu & Cu & Lv & _ & _ & _ & _ & F & (w & W & _) & _).
  rewrite (f_own P G dist edist d HDs r v Hr A) in W. destruct (f_at P G dist edist d HDs r u Hr Lu) as [X _]. apply (HP _ _ _ X W). congruence.
Qed.
Lemma new_set g h : np g = Some h -> M s4 g = To h /\ M s4 h = To h.
Proof.
  intros H. destruct (np_split g h H) as (r & u & Hr & Hu & -> & _ & v & Pk & -> & Y). rewrite (M_own s4 r u Hr Hu). destruct (pick_facts r u v Hr Pk) as (_ & _ & Lv & _ & _ & _ & T1 & T2 & _). split.
  - rewrite (s4_rest r u Hr).
    + rewrite (s3_rest r u Hr); [exact T1|unfold HemFacts.tot; lia|]. intros x Wx Hm. apply (taken1 r u v u Hr Pk (or_introl eq_refl)). rewrite <- Hm. exact (proj1 (wins_free r x Wx)).
    + intros q x Hq Hx H1 H2. destruct (inc_pick q x Hq Hx) as (_ & v' & Pk' & L' & O' & _ & G' & _). rewrite H1 in *. rewrite H2 in *. assert (v' = v) by congruence. subst v'. destruct Y as [Y|(y & Wy & Y1 & Y2)].
      * apply (pick_own r u v Hr Pk) in Y. lia.
      * rewrite O' in Wy. rewrite (won_same q x y); [exact (proj2 Wy)|congruence|congruence|]. destruct (inc_pick q y Hq (proj1 Wy)) as (_ & v'' & Pk'' & _ & _ & _ & G'' & _). rewrite Y1, Y2 in *. assert (v'' = v) by congruence. subst v''. lia.
  - destruct Y as [Y|(y & Wy & Y1 & Y2)].
    + pose proof (proj1 (pick_own r u v Hr Pk) Y) as L. rewrite (f_own P G dist edist d HDs r v Hr L), (M_own s4 r v Hr L). rewrite (s4_unpicked r v Hr (target_unpicked r u v Hr Pk)), (s3_rest r v Hr Lv); [rewrite T2, (f_own P G dist edist d HDs r v Hr L); reflexivity|].
      intros x Wx Hm. apply (taken1 r u v v Hr Pk (or_intror eq_refl)). rewrite <- Hm. exact (proj1 (wins_free r x Wx)).
    + destruct (f_glob P G dist edist d HDs HC r v Hr Lv) as [Lg _]. destruct (f_node P G dist edist d HDs _ Lg) as (Hq & _). set (q := own (glob (d r) v)) in *.
      destruct (inc_pick q y Hq (proj1 Wy)) as (_ & v'' & Pk'' & _ & _ & Hm & G'' & _). rewrite Y1, Y2 in *. assert (v'' = v) by congruence. subst v''. rewrite <- G'', (M_own s4 q _ Hq Hm).
      rewrite (s4_unpicked q _ Hq), (s3_won q y Hq Wy), (f_own P G dist edist d HDs q _ Hq Hm); [reflexivity|]. destruct (pick q (rq_mine y)) as [z|] eqn:Ez; [|reflexivity]. exfalso.
      exact (taken1 q _ z (rq_mine y) Hq Ez (or_introl eq_refl) (proj1 (wins_free q y Wy))).
Qed.
Lemma new_rest g : g < gn G -> M s4 g = M s g \/ (exists h, np g = Some h) \/ (exists u, np u = Some g).
Proof.
  intros Hg. destruct (f_node P G dist edist d HDs g Hg) as (Hr & Hl & E). set (r := own g) in *. set (l := g - from r) in *. rewrite <- E, (M_own s4 r l Hr Hl), (M_own s r l Hr Hl).
  assert (Lt : l < tot r) by (unfold HemFacts.tot; lia).
  destruct (pick r l) as [v|] eqn:Pk.
  - destruct (Nat.lt_ge_cases v (dn (d r))) as [L|L].
    + right. left. exists (glob (d r) v). apply (np_iff r l _ Hr Hl). exists v. split; [exact Pk|]. split; [reflexivity|]. left. apply (pick_own r l v Hr Pk). exact L.
    + destruct (pick_inc r l v Hr Pk L) as (x & Hx & X1 & X2 & X3). destruct (pick_facts r l v Hr Pk) as (_ & _ & Lv & _ & F & _). destruct (f_glob P G dist edist d HDs HC r v Hr Lv) as [Lg _].
      destruct (f_node P G dist edist d HDs _ Lg) as (Hq & _). destruct (won (d (own (glob (d r) v))) (s1 (own (glob (d r) v))) (s2 (own (glob (d r) v))) x) eqn:W.
      * right. left. exists (glob (d r) v). apply (np_iff r l _ Hr Hl). exists v. split; [exact Pk|]. split; [reflexivity|]. right. exists x. split; [split; assumption|auto].
      * left. pose proof (s4_fail _ x Hq Hx W) as S4. rewrite X1, X2 in S4. congruence.
  - destruct (pk_rest _ _ _ _ _ _ _ (Hp r Hr) l) as [A|[[v A]|[u A]]]; [|congruence|].
    + rewrite (s4_unpicked r l Hr Pk).
      destruct (existsb (fun x => won (d r) (s1 r) (s2 r) x && (rq_mine x =? l)) (incoming P d class s1 r)) eqn:X.
      * apply existsb_exists in X. destruct X as (x & Hx & X). apply andb_true_iff in X. destruct X as [X1 X2]. apply Nat.eqb_eq in X2. right. right. destruct (inc_pick r x Hr Hx) as (Hr' & v & Pk' & _ & O' & _ & G' & _).
        destruct (pick_facts _ _ _ Hr' Pk') as (U & _). exists (from (rq_pe x) + rq_theirs x). apply (np_iff _ _ _ Hr' U). exists v. split; [exact Pk'|]. split; [congruence|]. right. exists x. rewrite E. split; [split; assumption|auto].
      * left. rewrite (s3_rest r l Hr Lt); [exact A|]. intros x [Hx W] Hm. assert (T : existsb (fun x => won (d r) (s1 r) (s2 r) x && (rq_mine x =? l)) (incoming P d class s1 r) = true).
        { apply existsb_exists. exists x. split; [exact Hx|]. rewrite W, Hm, Nat.eqb_refl. reflexivity. } congruence.
    + right. right. destruct (pick_facts r u l Hr A) as (U & _). exists (from r + u). apply (np_iff r u _ Hr U). exists l. split; [exact A|]. split; [rewrite (f_own P G dist edist d HDs r l Hr Hl); reflexivity|].
      left. rewrite E. reflexivity.
Qed.
Lemma new_facts u v : np u = Some v -> u < gn G /\ v < gn G /\ color u = c /\ M s u = Free /\ M s v = Free /\ fits u v.
Proof.
  intros H. destruct (np_split u v H) as (r & l & Hr & Hl & -> & _ & x & Pk & -> & Y). destruct (pick_facts r l x Hr Pk) as (_ & Cl & Lx & _ & F1 & F2 & _ & _ & Ft).
  destruct (f_glob P G dist edist d HDs HC r x Hr Lx) as [Lg _]. split; [exact (proj1 (f_at P G dist edist d HDs r l Hr Hl))|]. split; [exact Lg|]. split; [exact Cl|]. split; [rewrite (M_own s r l Hr Hl); exact F1|]. split; [|exact Ft].
  destruct Y as [Y|(y & Wy & Y1 & Y2)].
  - pose proof (proj1 (pick_own r l x Hr Pk) Y) as L. rewrite (f_own P G dist edist d HDs r x Hr L), (M_own s r x Hr L). exact F2.
  - destruct (f_node P G dist edist d HDs _ Lg) as (Hq & _). set (q := own (glob (d r) x)) in *. destruct (inc_pick q y Hq (proj1 Wy)) as (_ & v'' & Pk'' & _ & _ & Hm & G'' & _). rewrite Y1, Y2 in *.
    assert (v'' = x) by congruence. subst v''. rewrite <- G'', (M_own s q _ Hq Hm). pose proof (proj1 (wins_free q y Wy)) as Fr.
    destruct (pk_rest _ _ _ _ _ _ _ (Hp q Hq) (rq_mine y)) as [A|[[z A]|[z A]]]; [congruence| |]; exfalso; [exact (taken1 q _ z _ Hq A (or_introl eq_refl) Fr)|exact (taken1 q z _ _ Hq A (or_intror eq_refl) Fr)].
Qed.
Lemma new_inj u u' v : np u = Some v -> np u' = Some v -> u = u'.
Proof.
  intros H H'. destruct (np_split u v H) as (r & l & Hr & Hl & -> & _ & x & Pk & Ex & Y). destruct (np_split u' v H') as (r' & l' & Hr' & Hl' & -> & _ & x' & Pk' & Ex' & Y').
  destruct (pick_facts r l x Hr Pk) as (_ & _ & Lx & _). destruct (pick_facts r' l' x' Hr' Pk') as (_ & _ & Lx' & _).
  assert (Lg : v < gn G) by (rewrite Ex; exact (proj1 (f_glob P G dist edist d HDs HC r x Hr Lx))). destruct (f_node P G dist edist d HDs v Lg) as (Hq & _ & Nq).
  (* a granted request needs a free node, a local match takes it *)
  assert (Local : forall r0 l0 x0, r0 < P -> pick r0 l0 = Some x0 -> v = glob (d r0) x0 -> own v = r0 -> forall y, wins (own v) y -> from (own v) + rq_mine y = v -> False).
  { intros r0 l0 x0 H0 P0 E0 O0 y Wy Gy. rewrite O0 in *. destruct (pick_facts r0 l0 x0 H0 P0) as (_ & _ & L0 & _). assert (Lx0 : x0 < dn (d r0)) by (apply (pick_own r0 l0 x0 H0 P0); congruence).
    rewrite (f_own P G dist edist d HDs r0 x0 H0 Lx0) in E0. apply (taken1 r0 l0 x0 (rq_mine y) H0 P0); [right; lia|exact (proj1 (wins_free r0 y Wy))]. }
  assert (Mine : forall r0 l0 x0 y, pick r0 l0 = Some x0 -> v = glob (d r0) x0 -> wins (own v) y -> rq_pe y = r0 -> rq_theirs y = l0 -> from (own v) + rq_mine y = v).
  { intros r0 l0 x0 y P0 E0 Wy Y1 Y2. destruct (inc_pick (own v) y Hq (proj1 Wy)) as (_ & v0 & Pk0 & _ & _ & _ & G0 & _). rewrite Y1, Y2 in *. assert (v0 = x0) by congruence. subst v0. congruence. }
  destruct Y as [Y|(y & Wy & Y1 & Y2)]; destruct Y' as [Y'|(y' & Wy' & Y1' & Y2')].
  - assert (R : r = r') by congruence. clear Y Y'. subst r'. assert (x = x') by (apply (f_inj P G dist edist d HDs r x x' Hr Lx Lx'); congruence). subst x'. rewrite (pk_inj _ _ _ _ _ _ _ (Hp r Hr) l l' x Pk Pk'). reflexivity.
  - exfalso. exact (Local r l x Hr Pk Ex Y y' Wy' (Mine r' l' x' y' Pk' Ex' Wy' Y1' Y2')).
  - exfalso. exact (Local r' l' x' Hr' Pk' Ex' Y' y Wy (Mine r l x y Pk Ex Wy Y1 Y2)).
  - pose proof (Mine r l x y Pk Ex Wy Y1 Y2). pose proof (Mine r' l' x' y' Pk' Ex' Wy' Y1' Y2'). destruct (wins_unique (own v) y y' Hq Wy Wy' ltac:(lia)) as [A B]. congruence.
Qed.

(** ** The synchronisation *)
Definition synced (r : nat) : list nat := sync_nodes (d r) r (class r) (s4 r) (granted P d class s1 s2 r).
Lemma synced_own r x : r < P -> In x (synced r) -> x < dn (d r).
Proof.
  intros Hr H. unfold synced, sync_nodes in H. apply in_app_or in H. destruct H as [H|H].
  - apply in_flat_map in H. destruct H as (u & Hu & H). destruct (cls_own r u Hr Hu) as [U _]. destruct (rd (s4 r) u) as [|g|w b]; [destruct H| |destruct H as [<-|[]]; exact U]. destruct H as [<-|H]; [exact U|].
    rewrite (f_off P G dist edist d HDs r r Hr Hr) in H. destruct ((from r <=? g) && (g <? from r + dn (d r))) eqn:E; [|destruct H]. apply andb_true_iff in E. destruct E as [E1 E2]. apply Nat.leb_le in E1. apply Nat.ltb_lt in E2.
    destruct (u =? g - from r); [destruct H|]. destruct H as [<-|[]]. lia.
  - apply in_map_iff in H. destruct H as (y & <- & Hy). unfold granted in Hy. apply filter_In in Hy. destruct (inc_pick r y Hr (proj1 Hy)) as (_ & v & _ & _ & _ & Hm & _). exact Hm.
Qed.
Lemma box_iff q m : q < P -> In m (sync_inbox P d class s1 s2 s4 q) <-> fst m < P /\ In (fst (snd m)) (synced (fst m)) /\ snd (snd m) = rd (s4 (fst m)) (fst (snd m)) /\
  exists v w, In (v, w) (row (d (fst m)) (fst (snd m))) /\ dn (d (fst m)) <= v /\ own (glob (d (fst m)) v) = q.
Proof.
  intros Hq. unfold sync_inbox. rewrite in_flat_map. split.
  - intros (r & Hr & H). apply in_seq in Hr. assert (Hr' : r < P) by lia. apply in_map_iff in H. destruct H as ([x cc] & <- & H). cbn [fst snd]. unfold sync_messages in H. apply in_flat_map in H. destruct H as (y & Hy & H).
    fold (synced r) in Hy. pose proof (synced_own r y Hr' Hy) as Ly. destruct (existsb _ (row (d r) y)) eqn:E; [|destruct H]. destruct H as [H|[]]. injection H as <- <-. apply existsb_exists in E. destruct E as ([v w] & Hv & E). cbn [fst] in E.
    apply andb_true_iff in E. destruct E as [E1 E2]. unfold dis_ghost in E1. apply Nat.leb_le in E1. destruct (f_row P G dist edist d HDs r y v w Hr' Ly Hv) as [Lv _]. rewrite (f_owner_is P G dist edist d HDs HC r q v Hr' (conj E1 Lv)) in E2. apply Nat.eqb_eq in E2.
    split; [exact Hr'|]. split; [exact Hy|]. split; [reflexivity|]. exists v, w. auto.
  - destruct m as [r [x cc]]. cbn [fst snd]. intros (Hr & Hx & -> & v & w & Hv & Lv & Ov). exists r. split; [apply in_seq; lia|]. apply in_map_iff. exists (x, rd (s4 r) x). split; [reflexivity|]. unfold sync_messages. apply in_flat_map. exists x. split; [exact Hx|].
    pose proof (synced_own r x Hr Hx) as Lx. destruct (f_row P G dist edist d HDs r x v w Hr Lx Hv) as [Lv' _].
    replace (existsb _ (row (d r) x)) with true; [left; reflexivity|]. symmetry. apply existsb_exists. exists (v, w). split; [exact Hv|]. cbn [fst]. unfold dis_ghost at 1. rewrite (proj2 (Nat.leb_le _ _) Lv), (f_owner_is P G dist edist d HDs HC r q v Hr (conj Lv Lv')), Ov, Nat.eqb_refl. reflexivity.
Qed.
Lemma box_loc q m : q < P -> In m (sync_inbox P d class s1 s2 s4 q) -> let l := loc (d q) (offset (d q) (fst m) + fst (snd m)) in dn (d q) <= l < tot q /\ glob (d q) l = from (fst m) + fst (snd m).
Proof.
  intros Hq H. apply (box_iff q m Hq) in H. destruct H as (Hr & Hx & _ & v & w & Hv & Lv & Ov). pose proof (synced_own _ _ Hr Hx) as Lx. destruct (f_row P G dist edist d HDs _ _ v w Hr Lx Hv) as [Lv' Av].
  assert (N : q <> fst m) by (destruct (f_ghost P G dist edist d HDs HC _ v Hr (conj Lv Lv')) as (_ & N & _); congruence).
  destruct (f_known P G dist edist d HDs HC HS (fst m) (fst (snd m)) q _ w Hr Lx Hq N Av Ov) as (l & L1 & L2). rewrite (f_off P G dist edist d HDs q _ Hq Hr), <- L2, (f_loc P G dist edist d HDs q l Hq (proj2 L1)). auto.
Qed.
Lemma final_own r l : r < P -> l < dn (d r) -> rd (s' r) l = rd (s4 r) l.
Proof.
  intros Hr Hl. rewrite (Hs' r Hr), receive_put. apply puts_other. intros m i c' Hm E. injection E as <- _. apply (Permutation_in m (Hmsg r Hr)) in Hm. destruct (box_loc r m Hr Hm) as [A _]. cbv zeta in A. lia.
Qed.
Lemma final_M g : g < gn G -> M s' g = M s4 g.
Proof. intros Hg. destruct (f_node P G dist edist d HDs g Hg) as (A & B & C). rewrite <- C, (M_own s' _ _ A B), (M_own s4 _ _ A B). exact (final_own _ _ A B). Qed.
Lemma final_ghost r l : r < P -> dn (d r) <= l < tot r -> let g := glob (d r) l in
  (In (g - from (own g)) (synced (own g)) -> rd (s' r) l = M s4 g) /\ (~ In (g - from (own g)) (synced (own g)) -> rd (s' r) l = rd (s4 r) l).
Proof.
  intros Hr Hl g. destruct (f_ghost P G dist edist d HDs HC r l Hr Hl) as (Gh & No & _). destruct (f_glob P G dist edist d HDs HC r l Hr (proj2 Hl)) as [Lg _]. fold g in Gh, No, Lg. destruct (f_node P G dist edist d HDs g Lg) as (Q1 & Q2 & Q3).
  rewrite (Hs' r Hr), receive_put. split; intros Hsy.
  - apply puts_same; [| |rewrite (len4 r Hr); exact (proj2 Hl)].
    + exists (own g, (g - from (own g), M s4 g)). split.
      * apply (Permutation_in _ (Permutation_sym (Hmsg r Hr))). apply (box_iff r _ Hr). cbn [fst snd]. split; [exact Q1|]. split; [exact Hsy|]. split; [reflexivity|].
        destruct Gh as (_ & v & w & V1 & V2). destruct (proj1 HDs) as (_ & _ & _ & _). destruct (HS v g w (owns_lt P (gn G) dist (proj1 HDs) r v Hr V1) V2) as [w' V3]. rewrite <- Q3 in V3.
        destruct (f_row_of P G dist edist d HDs (own g) _ v w' Q1 Q2 V3) as (v' & A1 & A2 & A3). exists v', w'. split; [exact A3|]. rewrite A2. assert (Ov : own v = r).
        { destruct (find_owner_owns P (gn G) dist v (proj1 HDs) (owns_lt P (gn G) dist (proj1 HDs) r v Hr V1)) as [B1 B2]. exact (owns_unique P (gn G) dist (proj1 HDs) _ _ v B1 Hr B2 V1). }
        split; [|exact Ov]. destruct (Nat.lt_ge_cases v' (dn (d (own g)))) as [L|L]; [|exact L]. exfalso. rewrite (f_own P G dist edist d HDs _ v' Q1 L) in A2. apply No. rewrite <- Ov, <- A2. symmetry. exact (proj2 (f_at P G dist edist d HDs _ v' Q1 L)).
      * cbn [fst snd]. rewrite (f_off P G dist edist d HDs r _ Hr Q1), Q3. unfold g. rewrite (f_loc P G dist edist d HDs r l Hr (proj2 Hl)). reflexivity.
    + intros m c' Hm E. injection E as E1 E2. apply (Permutation_in m (Hmsg r Hr)) in Hm. destruct (box_loc r m Hr Hm) as [_ A]. cbv zeta in A. rewrite E1 in A. fold g in A. apply (box_iff r m Hr) in Hm. destruct Hm as (B1 & B2 & B3 & _).
      pose proof (synced_own _ _ B1 B2) as B4. rewrite <- E2, B3, A. symmetry. exact (M_own s4 _ _ B1 B4).
  - apply puts_other. intros m i c' Hm E. injection E as <- _. apply (Permutation_in m (Hmsg r Hr)) in Hm. destruct (box_loc r m Hr Hm) as [_ A]. cbv zeta in A. intros E. rewrite E in A. fold g in A. apply (box_iff r m Hr) in Hm. destruct Hm as (B1 & B2 & _).
    pose proof (synced_own _ _ B1 B2) as B4. apply Hsy. rewrite A. destruct (f_at P G dist edist d HDs _ _ B1 B4) as [_ ->]. replace (from (fst m) + fst (snd m) - from (fst m)) with (fst (snd m)) by lia. exact B2.
Qed.
Lemma ghost_s4 r l : r < P -> dn (d r) <= l < tot r -> rd (s4 r) l = rd (s1 r) l.
Proof.
  intros Hr Hl. assert (Np : pick r l = None). { destruct (pick r l) as [v|] eqn:E; [|reflexivity]. destruct (pick_facts r l v Hr E) as (A & _). lia. }
  rewrite (s4_unpicked r l Hr Np). apply (s3_rest r l Hr (proj2 Hl)). intros x [Hx _] Hm. destruct (inc_pick r x Hr Hx) as (_ & v & _ & _ & _ & B & _). lia.
Qed.
(** All new matches are announced. *)
Lemma new_synced u v : np u = Some v -> In (u - from (own u)) (synced (own u)) /\ In (v - from (own v)) (synced (own v)).
Proof.
  intros H. pose proof (new_set u v H) as [T1 T2]. destruct (np_split u v H) as (r & l & Hr & Hl & E & Eo & x & Pk & Ex & Y). destruct (pick_facts r l x Hr Pk) as (_ & _ & Lx & Kl & _). rewrite <- Eo. rewrite E in T1. rewrite (M_own s4 r l Hr Hl) in T1.
  replace (u - from r) with l by lia. split.
  - unfold synced, sync_nodes. apply in_or_app. left. apply in_flat_map. exists l. split; [exact Kl|]. rewrite T1. left. reflexivity.
  - assert (Lg : v < gn G) by (rewrite Ex; exact (proj1 (f_glob P G dist edist d HDs HC r x Hr Lx))). destruct (f_node P G dist edist d HDs v Lg) as (Q1 & Q2 & Q3). destruct Y as [Y|(y & Wy & Y1 & Y2)].
    + rewrite Y in *. unfold synced, sync_nodes. apply in_or_app. left. apply in_flat_map. exists l. split; [exact Kl|]. rewrite T1. rewrite (f_off P G dist edist d HDs r r Hr Hr).
      rewrite (proj2 (Nat.leb_le (from r) v)) by lia. rewrite (proj2 (Nat.ltb_lt v (from r + dn (d r)))) by lia. cbn [andb]. destruct (Nat.eqb_spec l (v - from r)) as [F|F]; [left; exact F|right; left; reflexivity].
    + unfold synced, sync_nodes. apply in_or_app. right. apply in_map_iff. exists y. destruct (inc_pick (own v) y Q1 (proj1 Wy)) as (_ & v0 & Pk0 & _ & _ & _ & G0 & _). rewrite Y1, Y2 in *. assert (v0 = x) by congruence. subst v0.
      split; [lia|]. unfold granted. apply filter_In. exact Wy.
Qed.
Lemma round_effect : effect c s s' np.
Proof.
  split.
  - intros r Hr. rewrite (Hs' r Hr), receive_put, puts_length. exact (len4 r Hr).
  - exact new_facts.
  - exact new_inj.
  - intros u v H. destruct (new_facts u v H) as (A & B & _). rewrite (final_M u A), (final_M v B). exact (new_set u v H).
  - intros g Hg. rewrite (final_M g Hg). exact (new_rest g Hg).
  - intros r l Hr Hl. cbv zeta. destruct (f_glob P G dist edist d HDs HC r l Hr (proj2 Hl)) as [Lg _]. destruct (final_ghost r l Hr Hl) as [F1 F2]. cbv zeta in F1, F2. set (g := glob (d r) l) in *. rewrite (final_M g Lg).
    destruct (in_dec Nat.eq_dec (g - from (own g)) (synced (own g))) as [S|S]; [left; exact (F1 S)|]. rewrite (F2 S), (ghost_s4 r l Hr Hl).
    assert (Same : M s4 g = M s g). { destruct (new_rest g Lg) as [A|[[h A]|[u A]]]; [exact A| |]; exfalso; apply S; [exact (proj1 (new_synced g h A))|exact (proj2 (new_synced u g A))]. }
    destruct (pk_rest _ _ _ _ _ _ _ (Hp r Hr) l) as [A|[[v A]|[u A]]].
    + right. left. split; [exact A|exact Same].
    + destruct (pick_facts r l v Hr A) as (B & _). lia.
    + destruct (pick_facts r u l Hr A) as (_ & _ & _ & _ & _ & B & _ & C & _). right. right. assert (Fr : M s g = Free) by (destruct (i_ghost c s HI r l Hr Hl) as [D|[D _]]; fold g in D; congruence). split; [exact Fr|]. split; [congruence|exact C].
Qed.
End Picks.
End Step.

End Round.
