(* The exchange between interface nodes and ghosts. *)
From Verif Require Import Lib.Prelude Model.GridModel Model.MathModel Model.DistGraphModel Spec.Graph Spec.DistGraphSpec
  Proofs.GridBase Proofs.MathProofs Proofs.ImportProofs Proofs.DistViewProofs Proofs.FillProofs Proofs.LpOrderProofs.

Lemma traverse_map {A B} (f : A -> option B) l : (forall x, In x l -> exists y, f x = Some y) ->
  exists r, traverse f l = Some r /\ length r = length l /\ forall i x, nth_error l i = Some x -> exists y, nth_error r i = Some y /\ f x = Some y.
Proof.
  induction l as [|a t IH]; intros H; cbn [traverse].
  - exists []. split; [reflexivity|]. split; [reflexivity|]. intros [|i] x C; discriminate.
  - destruct (H a (or_introl eq_refl)) as [y Ey]. destruct IH as (r & E & L & N); [intros x Hx; apply H; right; exact Hx|].
    exists (y :: r). rewrite Ey. cbn [bind]. rewrite E. cbn [bind]. split; [reflexivity|]. split; [cbn [length]; lia|]. intros [|i] x C; cbn [nth_error] in *.
    + injection C as <-. exists y. auto.
    + exact (N i x C).
Qed.

(** The ranges of the threads cover the range one after the other. *)
Lemma ranges_tile n p : 0 < p ->
  flat_map (fun t => let r := compute_local_range (N.of_nat n) (N.of_nat p) (N.of_nat t) in seq (N.to_nat (fst r)) (N.to_nat (snd r) - N.to_nat (fst r))) (seq 0 p) = seq 0 n.
Proof.
  intros Hp. set (L := fun t => N.to_nat (lr_from (N.of_nat n) (N.of_nat p) (N.of_nat t))).
  assert (E : forall q, q <= p -> flat_map (fun t => let r := compute_local_range (N.of_nat n) (N.of_nat p) (N.of_nat t) in seq (N.to_nat (fst r)) (N.to_nat (snd r) - N.to_nat (fst r))) (seq 0 q) = seq 0 (L q)).
  { induction q as [|q IH]; intros Hq.
    - unfold L. cbn [N.of_nat]. rewrite lr_from_0. reflexivity.
    - rewrite seq_S, flat_map_app, IH by lia. cbn [flat_map Nat.add]. rewrite app_nil_r. rewrite lr_unfold by lia. cbn [fst snd].
      assert (M : L q <= L (S q)).
      { unfold L. pose proof (lr_from_mono (N.of_nat n) (N.of_nat p) (N.of_nat q) (N.of_nat (S q)) ltac:(lia)). lia. }
      replace (N.of_nat q + 1)%N with (N.of_nat (S q)) by lia. fold (L (S q)). fold (L q).
      replace (L (S q)) with (L q + (L (S q) - L q)) at 2 by lia. rewrite seq_app. reflexivity. }
  rewrite (E p) by lia. f_equal. unfold L. rewrite lr_from_size by lia. apply Nat2N.id.
Qed.
Lemma seq_shift_add a b n : seq (a + b) n = map (fun x => a + x) (seq b n).
Proof. revert b. induction n as [|n IH]; intros b; [reflexivity|]. cbn [seq map]. f_equal. rewrite <- IH. f_equal. lia. Qed.

Section Ranks.
Variables (P : nat) (G : graph) (dist : list nat).
Hypothesis HD : distribution P (gn G) dist.

(** The data of a rank agree with the graph. *)
Record rank_ok (r : nat) (d : dcsr) : Prop := {
  ro_view : local_view G dist r (dn d) (dghost_n d) (dlocal_to_global d) (dglobal_to_local d) (dghost_owner d) (dcontains d) (dadj d);
  ro_rank : dc_rank d = r;
  ro_dist : dc_dist d = dist }.
(** Rank [pe] has a neighbour of the node [u] of rank [r]. *)
Definition wanted (r u pe : nat) : Prop := pe < P /\ pe <> r /\ exists v w, owns dist pe v /\ In (v, w) (gadj G (nth r dist 0 + u)).

Lemma targets_of_ok d nbs : (forall v w, In (v, w) nbs -> dis_ghost d v = true -> exists q, dghost_owner d v = Some q) -> forall marked,
  exists l, targets_of d nbs marked = Some l /\ NoDup l /\
    forall pe, In pe l <-> ~ In pe marked /\ exists v w, In (v, w) nbs /\ dis_ghost d v = true /\ dghost_owner d v = Some pe.
Proof.
  induction nbs as [|[v w] t IH]; intros H marked; cbn [targets_of].
  - exists []. split; [reflexivity|]. split; [constructor|]. intros pe. split; [intros []|]. intros [_ (v & w & [] & _)].
  - assert (H' : forall v w, In (v, w) t -> dis_ghost d v = true -> exists q, dghost_owner d v = Some q) by (intros v' w' Hin; apply (H v' w'); right; exact Hin).
    destruct (dis_ghost d v) eqn:Gv.
    + destruct (H v w (or_introl eq_refl) Gv) as [q Eq]. rewrite Eq. cbn [bind]. destruct (existsb (Nat.eqb q) marked) eqn:Ex.
      * destruct (IH H' marked) as (l & E & N & M). exists l. split; [exact E|]. split; [exact N|]. intros pe. rewrite M. split; intros [A (v' & w' & B & C)]; (split; [exact A|]).
        -- exists v', w'. split; [right; exact B|exact C].
        -- destruct B as [[= <- <-]|B]; [|exists v', w'; split; assumption]. exfalso. apply A. destruct C as [_ C]. rewrite Eq in C. injection C as <-.
           apply existsb_exists in Ex. destruct Ex as [x [X1 X2]]. apply Nat.eqb_eq in X2. congruence.
      * assert (Nq : ~ In q marked) by (intros C; assert (existsb (Nat.eqb q) marked = true) by (apply existsb_exists; exists q; rewrite Nat.eqb_refl; auto); congruence).
        destruct (IH H' (q :: marked)) as (l & E & N & M). rewrite E. cbn [bind]. exists (q :: l). split; [reflexivity|]. split.
        -- constructor; [|exact N]. intros C. apply M in C. destruct C as [C _]. apply C. left. reflexivity.
        -- intros pe. cbn [In]. rewrite M. split.
           ++ intros [<-|[A (v' & w' & B & C)]]; [split; [exact Nq|]; exists v, w; auto|]. split; [intros D; apply A; right; exact D|]. exists v', w'. auto.
           ++ intros [A (v' & w' & B & C & D)]. destruct (Nat.eq_dec pe q) as [->|Hne]; [left; reflexivity|]. right. split; [intros [F|F]; [congruence|exact (A F)]|].
              destruct B as [[= <- <-]|B]; [congruence|]. exists v', w'. auto.
    + destruct (IH H' marked) as (l & E & N & M). exists l. split; [exact E|]. split; [exact N|]. intros pe. rewrite M. split; intros [A (v' & w' & B & C)]; (split; [exact A|]); exists v', w'.
      * split; [right; exact B|exact C].
      * destruct B as [[= <- <-]|B]; [destruct C; congruence|auto].
Qed.

Lemma in_row d r u nbs v w : r < P -> rank_ok r d -> u < dn d -> dadj d u = Some nbs ->
  (In (v, w) nbs -> exists g, dlocal_to_global d v = Some g /\ In (g, w) (gadj G (nth r dist 0 + u))) /\
  (forall g, In (g, w) (gadj G (nth r dist 0 + u)) -> exists v, In (v, w) nbs /\ dlocal_to_global d v = Some g).
Proof.
  intros Hr [V _ _] Hu E. destruct V as (V1 & V2 & V3 & V4 & V5 & V6 & V7 & V8). destruct (V8 u Hu) as (nbs' & E' & M). assert (nbs' = nbs) by congruence. subst nbs'. split.
  - intros Hin. assert (C : In (dlocal_to_global d v, w) (map (fun e => (dlocal_to_global d (fst e), snd e)) nbs)) by (apply in_map_iff; exists (v, w); auto).
    rewrite M in C. apply in_map_iff in C. destruct C as [[g w'] [[= <- <-] C]]. exists g. auto.
  - intros g Hin. assert (C : In (Some g, w) (map (fun e => (Some (fst e), snd e)) (gadj G (nth r dist 0 + u)))) by (apply in_map_iff; exists (g, w); auto).
    rewrite <- M in C. apply in_map_iff in C. destruct C as [[v' w'] [[= C1 <-] C2]]. exists v'. auto.
Qed.

Lemma targets_ok r d u : r < P -> rank_ok r d -> u < dn d -> closed_graph G ->
  exists l, targets d u = Some l /\ NoDup l /\ forall pe, In pe l <-> wanted r u pe.
Proof.
  intros Hr RO Hu HC. pose proof RO as [V _ _]. destruct V as (V1 & V2 & V3 & V4 & V5 & V6 & V7 & V8). destruct (V8 u Hu) as (nbs & E & M).
  unfold targets. rewrite E. cbn [bind].
  assert (Own : owns dist r (nth r dist 0 + u)) by (unfold owns; lia).
  pose proof (owns_lt P (gn G) dist HD r _ Hr Own) as Hlt.
  assert (Gh : forall v w, In (v, w) nbs -> dis_ghost d v = true -> exists g q, dlocal_to_global d v = Some g /\ In (g, w) (gadj G (nth r dist 0 + u)) /\
     ghost_of G dist r g /\ dghost_owner d v = Some q /\ owns dist q g).
  { intros v w Hin Hg. destruct (proj1 (in_row d r u nbs v w Hr RO Hu E) Hin) as (g & Eg & Hgw). unfold dis_ghost in Hg. apply Nat.leb_le in Hg.
    destruct (Nat.lt_ge_cases v (dn d + dghost_n d)) as [L|L]; [|rewrite V4 in Eg by exact L; discriminate].
    destruct (V3 v (conj Hg L)) as (g' & q & A & B & C & D). exists g, q. assert (g' = g) by congruence. subst g'. auto. }
  destruct (targets_of_ok d nbs) with (marked := @nil nat) as (l & El & N & Mem).
  { intros v w Hin Hg. destruct (Gh v w Hin Hg) as (g & q & _ & _ & _ & Q & _). exists q. exact Q. }
  exists l. split; [exact El|]. split; [exact N|]. intros pe. rewrite Mem. split.
  - intros [_ (v & w & Hin & Hg & Ho)]. destruct (Gh v w Hin Hg) as (g & q & A & B & C & D & F). assert (q = pe) by congruence. subst q.
    assert (Hgl : g < gn G) by exact (HC _ _ _ Hlt B).
    assert (Hpe : pe < P).
    { destruct (find_owner_owns P (gn G) dist g HD Hgl) as [X1 X2]. destruct (Nat.lt_ge_cases pe P) as [H|H]; [exact H|]. exfalso.
      destruct F as [_ F]. rewrite nth_overflow in F by (destruct HD as (L & _); lia). lia. }
    split; [exact Hpe|]. split; [intros ->; destruct C as [C _]; exact (C F)|]. exists g, w. auto.
  - intros (Hpe & Hne & g & w & Og & Hin). split; [intros []|]. destruct (proj2 (in_row d r u nbs 0 w Hr RO Hu E) g Hin) as (v & Hv & Ev). exists v, w. split; [exact Hv|].
    assert (Hg : dis_ghost d v = true).
    { unfold dis_ghost. apply Nat.leb_le. destruct (Nat.lt_ge_cases v (dn d)) as [L|L]; [|exact L]. exfalso. rewrite V2 in Ev by exact L. injection Ev as <-.
      apply Hne. apply (owns_unique P (gn G) dist HD pe r _ Hpe Hr Og). unfold owns. lia. }
    split; [exact Hg|]. destruct (Gh v w Hv Hg) as (g' & q & A & B & C & D & F). assert (g' = g) by congruence. subst g'.
    rewrite D. f_equal. assert (Hq : q < P).
    { destruct (Nat.lt_ge_cases q P) as [H|H]; [exact H|]. exfalso. destruct F as [_ F]. rewrite nth_overflow in F by (destruct HD as (L & _); lia). lia. }
    exact (owns_unique P (gn G) dist HD q pe g Hq Hpe F Og).
Qed.

Section Messages.
Context {X : Type}.
Variables (mapper : nat -> nat) (filter_ : nat -> nat -> bool) (builder : nat -> nat -> nat -> X).

(** What the nodes of the list [l] of positions send to [pe], one after the other. *)
Lemma node_messages_ok r d s : r < P -> rank_ok r d -> closed_graph G -> mapper s < dn d ->
  exists m, node_messages d mapper filter_ builder s = Some m /\
    (forall pe x, In (pe, x) m -> pe < P) /\
    forall pe, (filter_ s (mapper s) = true /\ wanted r (mapper s) pe /\ picks pe m = [builder s (mapper s) pe]) \/
               (~ (filter_ s (mapper s) = true /\ wanted r (mapper s) pe) /\ picks pe m = []).
Proof.
  intros Hr RO HC Hm. unfold node_messages. destruct (filter_ s (mapper s)) eqn:F.
  - destruct (targets_ok r d (mapper s) Hr RO Hm HC) as (l & E & N & M). rewrite E. cbn [bind]. eexists. split; [reflexivity|]. split.
    + intros pe x Hin. apply in_map_iff in Hin. destruct Hin as [q [[= <- _] Hq]]. apply M in Hq. exact (proj1 Hq).
    + assert (Pk : forall pe, picks pe (map (fun pe => (pe, builder s (mapper s) pe)) l) = if existsb (Nat.eqb pe) l then [builder s (mapper s) pe] else []).
      { intros pe. clear E M. induction l as [|q t IH]; [reflexivity|]. inversion_clear N as [|? ? N1 N2]. cbn [map existsb]. destruct (Nat.eqb_spec pe q) as [->|Hne].
        - rewrite picks_same. cbn [orb]. f_equal. rewrite (IH N2). destruct (existsb (Nat.eqb q) t) eqn:C; [|reflexivity]. exfalso. apply N1.
          apply existsb_exists in C. destruct C as [y [C1 C2]]. apply Nat.eqb_eq in C2. congruence.
        - rewrite picks_other by congruence. cbn [orb]. exact (IH N2). }
      intros pe. rewrite Pk. destruct (existsb (Nat.eqb pe) l) eqn:C.
      * left. split; [reflexivity|]. split; [|reflexivity]. apply existsb_exists in C. destruct C as [y [C1 C2]]. apply Nat.eqb_eq in C2. subst y. apply M. exact C1.
      * right. split; [|reflexivity]. intros [_ W]. apply M in W. assert (existsb (Nat.eqb pe) l = true) by (apply existsb_exists; exists pe; rewrite Nat.eqb_refl; auto). congruence.
  - exists []. split; [reflexivity|]. split; [intros pe x []|]. intros pe. right. split; [intros [C _]; discriminate|reflexivity].
Qed.

Lemma all_messages_ok r d threads a b : r < P -> rank_ok r d -> closed_graph G -> 0 < threads -> (forall s, a <= s < b -> mapper s < dn d) ->
  exists ms, all_messages d mapper filter_ builder threads a b = Some ms /\ length ms = threads /\
    (forall m, In m ms -> forall pe x, In (pe, x) m -> pe < P) /\
    forall pe, exists senders, NoDup senders /\ (forall s, In s senders <-> a <= s < b /\ filter_ s (mapper s) = true /\ wanted r (mapper s) pe) /\
      Permutation (flat_map (fun m => rev (picks pe m)) ms) (map (fun s => builder s (mapper s) pe) senders).
Proof.
  intros Hr RO HC Ht Hmap.
  pose (h := fun s => match node_messages d mapper filter_ builder s with Some m => m | None => [] end).
  assert (Hh : forall s, a <= s < b -> node_messages d mapper filter_ builder s = Some (h s)).
  { intros s Hs. destruct (node_messages_ok r d s Hr RO HC (Hmap s Hs)) as (m & E & _). unfold h. rewrite E. reflexivity. }
  set (p := Nat.min threads (b - a)).
  set (rg := fun t => let rr := compute_local_range (N.of_nat (b - a)) (N.of_nat p) (N.of_nat t) in seq (N.to_nat (fst rr)) (N.to_nat (snd rr) - N.to_nat (fst rr))).
  assert (Tile : 0 < p -> flat_map rg (seq 0 p) = seq 0 (b - a)) by (intros Hp; apply ranges_tile; exact Hp).
  set (tm := fun t => if t <? p then flat_map h (map (fun x => a + x) (rg t)) else []).
  assert (Ht' : forall t, thread_messages d mapper filter_ builder threads a b t = Some (tm t)).
  { intros t. unfold thread_messages, tm. fold p. destruct (Nat.ltb_spec t p) as [L|L]; [|reflexivity]. cbn zeta.
    assert (Er : forall x, In x (rg t) -> x < b - a).
    { intros x Hx. assert (C : In x (flat_map rg (seq 0 p))) by (apply in_flat_map; exists t; split; [apply in_seq; lia|exact Hx]). rewrite Tile in C by lia. apply in_seq in C. lia. }
    match goal with |- bind (traverse _ (seq (a + ?lo) (a + ?hi - (a + ?lo)))) _ = _ => replace (a + hi - (a + lo)) with (hi - lo) by lia; rewrite (seq_shift_add a lo) end.
    fold (rg t). rewrite (traverse_ok _ h).
    - cbn [bind]. rewrite flat_map_concat_map. reflexivity.
    - intros s Hs. apply in_map_iff in Hs. destruct Hs as [x [<- Hx]]. apply Hh. specialize (Er x Hx). lia. }
  assert (Cat : flat_map tm (seq 0 threads) = flat_map h (seq a (b - a))).
  { assert (E1 : flat_map tm (seq 0 threads) = flat_map tm (seq 0 p)).
    { replace threads with (p + (threads - p)) by lia. rewrite seq_app, flat_map_app. rewrite <- (app_nil_r (flat_map tm (seq 0 p))) at 2. f_equal.
      assert (Z0 : forall l, (forall t, In t l -> p <= t) -> flat_map tm l = []).
      { induction l as [|t l IH]; intros H; [reflexivity|]. cbn [flat_map]. rewrite IH by (intros x Hx; apply H; right; exact Hx). unfold tm.
        destruct (Nat.ltb_spec t p); [specialize (H t (or_introl eq_refl)); lia|reflexivity]. }
      apply Z0. intros t Hin. apply in_seq in Hin. lia. }
    rewrite E1. destruct (Nat.eq_dec p 0) as [Hp|Hp].
    - rewrite Hp. replace (b - a) with 0 by lia. reflexivity.
    - replace (seq a (b - a)) with (map (fun x => a + x) (seq 0 (b - a))) by (rewrite <- seq_shift_add; f_equal; lia).
      rewrite <- (Tile ltac:(lia)). assert (Z1 : forall l, (forall t, In t l -> t < p) -> flat_map tm l = flat_map h (map (fun x => a + x) (flat_map rg l))).
      { induction l as [|t l IH]; intros H; [reflexivity|]. cbn [flat_map]. rewrite map_app, flat_map_app. rewrite IH by (intros x Hx; apply H; right; exact Hx). f_equal. unfold tm.
        destruct (Nat.ltb_spec t p); [reflexivity|specialize (H t (or_introl eq_refl)); lia]. }
      apply Z1. intros t Hin. apply in_seq in Hin. lia. }
  exists (map tm (seq 0 threads)). split; [unfold all_messages; apply traverse_ok; intros t _; apply Ht'|]. split; [rewrite map_length, seq_length; reflexivity|]. split.
  - intros m Hm pe x Hin. apply in_map_iff in Hm. destruct Hm as [t [<- Hin2]].
    assert (C : In (pe, x) (flat_map h (seq a (b - a)))) by (rewrite <- Cat; apply in_flat_map; exists t; auto).
    apply in_flat_map in C. destruct C as [s [Hs C]]. apply in_seq in Hs. destruct (node_messages_ok r d s Hr RO HC (Hmap s ltac:(lia))) as (m' & E & B & _).
    apply (B pe x). rewrite Hh in E by lia. injection E as <-. exact C.
  - intros pe.
    assert (Pm : Permutation (flat_map (fun m => rev (picks pe m)) (map tm (seq 0 threads))) (picks pe (flat_map h (seq a (b - a))))).
    { rewrite <- Cat. generalize (seq 0 threads) as l. induction l as [|t l IH]; [constructor|]. cbn [map flat_map]. rewrite picks_app. apply Permutation_app; [symmetry; apply Permutation_rev|exact IH]. }
    assert (Q : forall l, NoDup l -> (forall s, In s l -> a <= s < b) -> exists senders, NoDup senders /\
       (forall s, In s senders <-> In s l /\ filter_ s (mapper s) = true /\ wanted r (mapper s) pe) /\
       picks pe (flat_map h l) = map (fun s => builder s (mapper s) pe) senders).
    { induction l as [|s l IH]; intros N Hl.
      - exists []. split; [constructor|]. split; [|reflexivity]. intros s. cbn [In]. tauto.
      - inversion_clear N as [|? ? N1 N2]. destruct (IH N2) as (sn & S1 & S2 & S3); [intros x Hx; apply Hl; right; exact Hx|].
        destruct (node_messages_ok r d s Hr RO HC (Hmap s (Hl s (or_introl eq_refl)))) as (m & E & _ & Pk). rewrite Hh in E by (apply Hl; left; reflexivity). injection E as <-.
        cbn [flat_map]. rewrite picks_app, S3. destruct (Pk pe) as [(F & W & Ep)|(NW & Ep)]; rewrite Ep.
        + exists (s :: sn). split; [constructor; [|exact S1]; intros C; apply S2 in C; exact (N1 (proj1 C))|]. split; [|reflexivity].
          intros x. cbn [In]. rewrite S2. split; [intros [<-|C]; [auto|tauto]|]. intros [[<-|C] D]; [left; reflexivity|right; auto].
        + exists sn. split; [exact S1|]. split; [|reflexivity]. intros x. cbn [In]. rewrite S2. split; [tauto|]. intros [[<-|C] D]; [destruct (NW D)|auto]. }
    destruct (Q (seq a (b - a)) (seq_NoDup _ _)) as (sn & S1 & S2 & S3); [intros s Hs; apply in_seq in Hs; lia|].
    exists sn. split; [exact S1|]. split; [|rewrite <- S3; exact Pm]. intros s. rewrite S2, in_seq. split; intros [A B]; (split; [lia|exact B]).
Qed.

(** The send buffers. *)
Theorem buffers_ok r d threads a b : r < P -> rank_ok r d -> closed_graph G -> 0 < threads -> (forall s, a <= s < b -> mapper s < dn d) ->
  forall bufs, buffers_outcome P d mapper filter_ builder threads a b bufs -> length bufs = P /\
  forall pe, pe < P -> exists senders, NoDup senders /\
    (forall s, In s senders <-> a <= s < b /\ filter_ s (mapper s) = true /\ wanted r (mapper s) pe) /\
    Permutation (nth pe bufs []) (map (fun s => builder s (mapper s) pe) senders).
Proof.
  intros Hr RO HC Ht Hmap bufs (ms & s0 & sched & s & E1 & E2 & E3 & E4 & E5).
  destruct (all_messages_ok r d threads a b Hr RO HC Ht Hmap) as (ms' & A1 & A2 & A3 & A4). assert (ms' = ms) by congruence. subst ms'.
  destruct (fill_deterministic P ms A3) as (s0' & B1 & B2). assert (s0' = s0) by congruence. subst s0'.
  destruct (B2 sched s E3) as (_ & _ & B3). destruct (B3 E4) as [_ B4]. rewrite E5 in B4.
  assert (Eb : bufs = map (fun pe => flat_map (fun m => rev (picks pe m)) ms) (seq 0 P)).
  { assert (Inj : forall (l l' : list (list X)), map (map Some) l = map (map Some) l' -> l = l').
    { assert (I1 : forall (x y : list X), map Some x = map Some y -> x = y).
      { induction x as [|h t IH]; intros [|h' t'] C; try discriminate; [reflexivity|]. injection C as -> C. f_equal. exact (IH t' C). }
      induction l as [|x l IH]; intros [|x' l'] C; try discriminate; [reflexivity|]. injection C as C1 C2. f_equal; [exact (I1 _ _ C1)|exact (IH _ C2)]. }
    apply Inj. rewrite map_map. exact B4. }
  split; [rewrite Eb, map_length, seq_length; reflexivity|]. intros pe Hpe. destruct (A4 pe) as (sn & S1 & S2 & S3). exists sn. split; [exact S1|]. split; [exact S2|].
  rewrite Eb, nth_map_seq0 by exact Hpe. exact S3.
Qed.

(** There is such an outcome, and the buffers are always complete in the end. *)
Theorem buffers_exist r d threads a b : r < P -> rank_ok r d -> closed_graph G -> 0 < threads -> (forall s, a <= s < b -> mapper s < dn d) ->
  exists ms s0, all_messages d mapper filter_ builder threads a b = Some ms /\ fill_start P ms = Some s0 /\
  forall sched s, fill_run sched s0 = Some s -> length sched <= length (concat ms) /\
    ((exists t s', fill_step t s = Some s') \/
     exists bufs, buffers_outcome P d mapper filter_ builder threads a b bufs /\ f_bufs s = map (map Some) bufs).
Proof.
  intros Hr RO HC Ht Hmap. destruct (all_messages_ok r d threads a b Hr RO HC Ht Hmap) as (ms & A1 & A2 & A3 & A4).
  destruct (fill_deterministic P ms A3) as (s0 & B1 & B2). exists ms, s0. split; [exact A1|]. split; [exact B1|]. intros sched s E.
  destruct (B2 sched s E) as (L & Pr & Fin). split; [exact L|].
  assert (D : (exists t todo, nth_error (f_todo s) t = Some todo /\ todo <> []) \/ (forall todo, In todo (f_todo s) -> todo = [])).
  { generalize (f_todo s) as l. induction l as [|x l [(t & td & IH1 & IH2)|IH]].
    - right. intros todo [].
    - left. exists (S t), td. auto.
    - destruct x as [|y x]; [right; intros todo [<-|C]; [reflexivity|exact (IH todo C)]|]. left. exists 0, (y :: x). split; [reflexivity|discriminate]. }
  destruct D as [(t & td & D1 & D2)|D].
  - left. destruct (Pr t td D1 D2) as [s' Es]. exists t, s'. exact Es.
  - right. destruct (Fin D) as [_ Eb]. exists (map (fun pe => flat_map (fun m => rev (picks pe m)) ms) (seq 0 P)).
    assert (Eb' : f_bufs s = map (map Some) (map (fun pe => flat_map (fun m => rev (picks pe m)) ms) (seq 0 P))) by (rewrite map_map; exact Eb).
    split; [|exact Eb']. exists ms, s0, sched, s. auto.
Qed.
End Messages.

(** ** Synchronisation *)
Section Sync.
Context {V : Type}.
Variable f : nat -> V.   (* the value of every node *)

Lemma receive_all d q (arr : list V) msgs : rank_ok q d -> q < P ->
  (forall r u x, In (r, (u, x)) msgs -> r <= P /\ x = f (nth r dist 0 + u) /\ exists l, dglobal_to_local d (nth r dist 0 + u) = Some l /\ l < length arr) ->
  exists arr', receive_values d arr msgs = Some arr' /\ length arr' = length arr /\
    forall l dflt, l < length arr -> nth l arr' dflt = nth l arr dflt /\ (forall r u x, In (r, (u, x)) msgs -> dglobal_to_local d (nth r dist 0 + u) <> Some l) \/
      exists g, dlocal_to_global d l = Some g /\ nth l arr' dflt = f g.
Proof.
  intros [Vw Rk Ds] Hq. destruct Vw as (_ & _ & _ & _ & V5 & _). unfold receive_values. induction msgs as [|[r [u x]] t IH] using rev_ind; intros H.
  - exists arr. split; [reflexivity|]. split; [reflexivity|]. intros l dflt Hl. left. split; [reflexivity|]. intros r u x [].
  - destruct IH as (arr1 & E & L & A); [intros r' u' x' Hin; apply (H r' u' x'); rewrite in_app_iff; left; exact Hin|].
    destruct (H r u x) as (Hr & Hx & l0 & El & Ll); [rewrite in_app_iff; right; left; reflexivity|].
    rewrite fold_left_app, E. cbn [fold_left receive_value bind fst snd]. unfold doffset. rewrite Ds. rewrite (nth_error_nth' dist 0) by (destruct HD as (Ld & _); lia). cbn [bind].
    rewrite El. cbn [bind]. rewrite store_ok by lia. eexists. split; [reflexivity|]. rewrite upd_length. split; [exact L|]. intros l dflt Hl.
    rewrite upd_nth. rewrite (proj2 (Nat.ltb_lt l0 (length arr1))) by lia. rewrite andb_true_r. destruct (Nat.eqb_spec l0 l) as [->|Hne].
    + right. exists (nth r dist 0 + u). split; [apply V5; exact El|]. exact Hx.
    + destruct (A l dflt Hl) as [[A1 A2]|A1]; [left|right; exact A1]. split; [exact A1|]. intros r' u' x' Hin. apply in_app_iff in Hin. destruct Hin as [Hin|[[= <- <- <-]|[]]]; [exact (A2 _ _ _ Hin)|].
      rewrite El. intros [= C]. congruence.
Qed.

Theorem sync_ok (d : nat -> dcsr) (arr : nat -> list V) (dflt : V) (threads : nat -> nat) (bufs : nat -> list (list (nat * V))) :
  closed_graph G -> symmetric_adjacency G -> (forall r, r < P -> rank_ok r (d r)) -> (forall r, r < P -> 0 < threads r) ->
  (forall r, r < P -> dn (d r) = 0 \/ dn (d r) + dghost_n (d r) <= length (arr r)) ->
  (forall r u, r < P -> u < dn (d r) -> nth u (arr r) dflt = f (nth r dist 0 + u)) ->
  (forall r, r < P -> buffers_outcome P (d r) (fun u => u) (fun _ _ => true) (value_message (arr r) dflt) (threads r) 0 (dn (d r)) (bufs r)) ->
  forall q msgs, q < P -> Permutation msgs (inbox P bufs q) ->
  exists arr', receive_values (d q) (arr q) msgs = Some arr' /\ length arr' = length (arr q) /\
    forall l g, dlocal_to_global (d q) l = Some g -> nth_error arr' l = Some (f g).
Proof.
  intros HC HS RO Ht Hlen Hval Hbuf q msgs Hq Hp.
  assert (Dn : forall r, r < P -> dn (d r) = nth (S r) dist 0 - nth r dist 0) by (intros r Hr; destruct (RO r Hr) as [[Vn _] _ _]; exact Vn).
  (* what is in the inbox *)
  assert (Box : forall r u x, In (r, (u, x)) msgs <-> r < P /\ u < dn (d r) /\ wanted r u q /\ x = f (nth r dist 0 + u)).
  { intros r u x. assert (E : In (r, (u, x)) msgs <-> In (r, (u, x)) (inbox P bufs q)) by (split; apply Permutation_in; [exact Hp|symmetry; exact Hp]).
    rewrite E. unfold inbox. rewrite in_flat_map.
    assert (Bf : forall r', r' < P -> forall u' x', In (u', x') (nth q (bufs r') []) <-> u' < dn (d r') /\ wanted r' u' q /\ x' = f (nth r' dist 0 + u')).
    { intros r' Hr' u' x'. destruct (buffers_ok (fun u => u) (fun _ _ => true) (value_message (arr r') dflt) r' (d r') (threads r') 0 (dn (d r')) Hr' (RO r' Hr') HC (Ht r' Hr')) with (bufs := bufs r') as [_ B]; [intros s Hs; lia|exact (Hbuf r' Hr')|].
      destruct (B q Hq) as (sn & S1 & S2 & S3). split.
      - intros Hin. apply (Permutation_in _ S3) in Hin. apply in_map_iff in Hin. destruct Hin as [s [[= <- <-] Hs]]. apply S2 in Hs. destruct Hs as (R & _ & W).
        split; [lia|]. split; [exact W|]. apply Hval; [exact Hr'|lia].
      - intros (L & W & ->). apply (Permutation_in _ (Permutation_sym S3)). apply in_map_iff. exists u'. split; [unfold value_message; rewrite Hval by assumption; reflexivity|].
        apply S2. split; [lia|]. auto. }
    split.
    - intros [r' [Hr' Hin]]. apply in_seq in Hr'. apply in_map_iff in Hin. destruct Hin as [[u' x'] [[= <- <- <-] Hin]]. split; [lia|]. apply Bf; [lia|exact Hin].
    - intros (Hr & B). exists r. split; [apply in_seq; lia|]. apply in_map_iff. exists (u, x). split; [reflexivity|]. apply Bf; [exact Hr|exact B]. }
  destruct (RO q Hq) as [Vq Rkq Dsq]. pose proof Vq as (V1 & V2 & V3 & V4 & V5 & V6 & V7 & V8).
  (* the receiver of a message has the ghost *)
  assert (Gh : forall r u, r < P -> u < dn (d r) -> wanted r u q -> ghost_of G dist q (nth r dist 0 + u)).
  { intros r u Hr Hu (_ & Hne & v & w & Ov & Hin). assert (Or : owns dist r (nth r dist 0 + u)) by (rewrite (Dn r Hr) in Hu; unfold owns; lia). split.
    - intros C. apply Hne. exact (owns_unique P (gn G) dist HD q r _ Hq Hr C Or).
    - destruct (HS _ _ _ (owns_lt P (gn G) dist HD r _ Hr Or) Hin) as [w' Hw]. exists v, w'. auto. }
  destruct (receive_all (d q) q (arr q) msgs (RO q Hq) Hq) as (arr' & E & L & A).
  { intros r u x Hin. apply Box in Hin. destruct Hin as (Hr & Hu & W & Hx). split; [lia|]. split; [exact Hx|].
    destruct (V6 _ (Gh r u Hr Hu W)) as (l & Rl & El). exists l. split; [exact El|]. destruct (Hlen q Hq) as [Z|B]; [|lia].
    exfalso. destruct W as (_ & _ & v & w & Ov & _). unfold owns in Ov. rewrite (Dn q Hq) in Z. lia. }
  exists arr'. split; [exact E|]. split; [exact L|].
  assert (W : (forall l g, dlocal_to_global (d q) l = Some g -> l < length (arr q)) /\ forall l g, dlocal_to_global (d q) l = Some g -> nth l arr' dflt = f g).
  2: { intros l g Hl. destruct W as [W1 W2]. rewrite <- (W2 l g Hl). apply nth_error_nth'. rewrite L. exact (W1 l g Hl). }
  split.
  { intros l g Hl. destruct (Hlen q Hq) as [Z|B].
    - exfalso. destruct (Nat.lt_ge_cases l (dn (d q) + dghost_n (d q))) as [Lk|Lk]; [|rewrite V4 in Hl by exact Lk; discriminate].
      assert (L0 : dn (d q) <= l) by lia.
      destruct (V3 l (conj L0 Lk)) as (g' & o & B1 & [_ (v & w & Ov & _)] & _). rewrite (Dn q Hq) in Z. unfold owns in Ov. lia.
    - destruct (Nat.lt_ge_cases l (dn (d q) + dghost_n (d q))) as [Lk|Lk]; [lia|rewrite V4 in Hl by exact Lk; discriminate]. }
  intros l g Hl.
  destruct (Nat.lt_ge_cases l (dn (d q))) as [Ll|Ll].
  - (* an own node *)
    rewrite V2 in Hl by exact Ll. injection Hl as <-. assert (Hla : l < length (arr q)) by (destruct (Hlen q Hq); lia).
    destruct (A l dflt Hla) as [[A1 _]|(g & Eg & A1)]; [rewrite A1; apply Hval; assumption|]. rewrite V2 in Eg by exact Ll. injection Eg as <-. exact A1.
  - destruct (Nat.lt_ge_cases l (dn (d q) + dghost_n (d q))) as [Lk|Lk]; [|rewrite V4 in Hl by exact Lk; discriminate].
    destruct (V3 l (conj Ll Lk)) as (g' & o & B1 & B2 & B3 & B4). assert (g' = g) by congruence. subst g'.
    assert (Hq0 : dn (d q) <> 0).
    { destruct B2 as [_ (v & w & Ov & _)]. rewrite (Dn q Hq). unfold owns in Ov. lia. }
    assert (Hla : l < length (arr q)) by (destruct (Hlen q Hq); lia).
    destruct (A l dflt Hla) as [[_ A2]|(g' & Eg & A1)]; [|assert (g' = g) by congruence; subst g'; exact A1]. exfalso.
    destruct B2 as [Nq (v & w & Ov & Hin)]. assert (Hvl : v < gn G) by exact (owns_lt P (gn G) dist HD q v Hq Ov). pose proof (HC _ _ _ Hvl Hin) as Hg.
    destruct (find_owner_owns P (gn G) dist g HD Hg) as [Hr Or]. set (r := find_owner dist g) in *.
    assert (Eg : nth r dist 0 + (g - nth r dist 0) = g) by (unfold owns in Or; lia).
    apply (A2 r (g - nth r dist 0) (f g)); [|rewrite Eg; apply V5; exact Hl].
    apply Box. rewrite Eg. split; [exact Hr|]. split; [rewrite (Dn r Hr); unfold owns in Or; lia|]. split; [|reflexivity].
    split; [exact Hq|]. split; [intros C; subst q; exact (Nq Or)|]. destruct (HS _ _ _ Hvl Hin) as [w' Hw]. exists v, w'. rewrite Eg. auto.
Qed.
End Sync.
End Ranks.
