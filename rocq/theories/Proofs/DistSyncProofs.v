(* The exchange of the values that changed. *)
From Verif Require Import Lib.Prelude Model.GridModel Model.MathModel Model.DistGraphModel Spec.Graph Spec.DistGraphSpec
  Proofs.GridBase Proofs.ImportProofs Proofs.DistViewProofs Proofs.FillProofs Proofs.ExchangeProofs.

Section Some_values.
Variables (P : nat) (G : graph) (dist : list nat).
Hypothesis HD : distribution P (gn G) dist.
Context {V : Type}.
Variables f0 f : nat -> V.   (* the values before and after *)

Theorem sync_some (d : nat -> dcsr) (arr : nat -> list V) (dflt : V) (flt : nat -> nat -> nat -> bool) (threads lo hi : nat -> nat) (bufs : nat -> list (list (nat * V))) :
  closed_graph G -> symmetric_adjacency G -> (forall r, r < P -> rank_ok G dist r (d r)) ->
  (forall r, r < P -> lo r <= hi r <= dn (d r) /\ 0 < threads r) ->
  (forall r u, r < P -> u < dn (d r) -> nth_error (arr r) u = Some (f (nth r dist 0 + u))) ->
  (forall r l g, r < P -> dn (d r) <= l -> dlocal_to_global (d r) l = Some g -> nth_error (arr r) l = Some (f0 g)) ->
  (forall r u, r < P -> u < dn (d r) -> ~ (lo r <= u < hi r /\ flt r u u = true) -> f (nth r dist 0 + u) = f0 (nth r dist 0 + u)) ->
  (forall r, r < P -> buffers_outcome P (d r) (fun u => u) (flt r) (value_message (arr r) dflt) (threads r) (lo r) (hi r) (bufs r)) ->
  forall q msgs, q < P -> Permutation msgs (inbox P bufs q) ->
  exists arr', receive_values (d q) (arr q) msgs = Some arr' /\ length arr' = length (arr q) /\
    forall l g, dlocal_to_global (d q) l = Some g -> nth_error arr' l = Some (f g).
Proof.
  intros HC HS RO Hrg Hown Hgh Hun Hbuf q msgs Hq Hp.
  assert (Dn : forall r, r < P -> dn (d r) = nth (S r) dist 0 - nth r dist 0) by (intros r Hr; destruct (RO r Hr) as [[Vn _] _ _]; exact Vn).
  assert (Box : forall r u x, In (r, (u, x)) msgs <-> r < P /\ lo r <= u < hi r /\ flt r u u = true /\ wanted P G dist r u q /\ x = f (nth r dist 0 + u)).
  { intros r u x. assert (E : In (r, (u, x)) msgs <-> In (r, (u, x)) (inbox P bufs q)) by (split; apply Permutation_in; [exact Hp|symmetry; exact Hp]).
    rewrite E. unfold inbox. rewrite in_flat_map.
    assert (Bf : forall r', r' < P -> forall u' x', In (u', x') (nth q (bufs r') []) <-> lo r' <= u' < hi r' /\ flt r' u' u' = true /\ wanted P G dist r' u' q /\ x' = f (nth r' dist 0 + u')).
    { intros r' Hr' u' x'. destruct (Hrg r' Hr') as [Rg Th].
      destruct (buffers_ok P G dist HD (fun u => u) (flt r') (value_message (arr r') dflt) r' (d r') (threads r') (lo r') (hi r') Hr' (RO r' Hr') HC Th) with (bufs := bufs r') as [_ B]; [intros s Hs; lia|exact (Hbuf r' Hr')|].
      destruct (B q Hq) as (sn & S1 & S2 & S3). split.
      - intros Hin. apply (Permutation_in _ S3) in Hin. apply in_map_iff in Hin. destruct Hin as [s [[= <- <-] Hs]]. apply S2 in Hs. destruct Hs as (R & F & W).
        split; [exact R|]. split; [exact F|]. split; [exact W|]. apply nth_error_nth. apply Hown; [exact Hr'|lia].
      - intros (L & F & W & ->). apply (Permutation_in _ (Permutation_sym S3)). apply in_map_iff. exists u'. split; [|apply S2; auto].
        unfold value_message. rewrite (nth_error_nth (arr r') u' dflt (Hown r' u' Hr' ltac:(lia))). reflexivity. }
    split.
    - intros [r' [Hr' Hin]]. apply in_seq in Hr'. apply in_map_iff in Hin. destruct Hin as [[u' x'] [[= <- <- <-] Hin]]. split; [lia|]. apply Bf; [lia|exact Hin].
    - intros (Hr & B). exists r. split; [apply in_seq; lia|]. apply in_map_iff. exists (u, x). split; [reflexivity|]. apply Bf; [exact Hr|exact B]. }
  destruct (RO q Hq) as [Vq Rkq Dsq]. pose proof Vq as (V1 & V2 & V3 & V4 & V5 & V6 & V7 & V8).
  assert (Gh : forall r u, r < P -> u < dn (d r) -> wanted P G dist r u q -> ghost_of G dist q (nth r dist 0 + u)).
  { intros r u Hr Hu (_ & Hne & v & w & Ov & Hin). assert (Or : owns dist r (nth r dist 0 + u)) by (rewrite (Dn r Hr) in Hu; unfold owns; lia). split.
    - intros C. apply Hne. exact (owns_unique P (gn G) dist HD q r _ Hq Hr C Or).
    - destruct (HS _ _ _ (owns_lt P (gn G) dist HD r _ Hr Or) Hin) as [w' Hw]. exists v, w'. auto. }
  assert (Len : forall l g, dlocal_to_global (d q) l = Some g -> l < length (arr q)).
  { intros l g Hl. apply nth_error_Some. destruct (Nat.lt_ge_cases l (dn (d q))) as [C|C]; [rewrite (Hown q l Hq C)|rewrite (Hgh q l g Hq C Hl)]; discriminate. }
  destruct (receive_all P G dist HD f (d q) q (arr q) msgs (RO q Hq) Hq) as (arr' & E & L & A).
  { intros r u x Hin. apply Box in Hin. destruct Hin as (Hr & Hu & F & W & Hx). split; [lia|]. split; [exact Hx|].
    assert (Hu' : u < dn (d r)) by (destruct (Hrg r Hr); lia).
    destruct (V6 _ (Gh r u Hr Hu' W)) as (l & Rl & El). exists l. split; [exact El|]. apply V5 in El. exact (Len l _ El). }
  exists arr'. split; [exact E|]. split; [exact L|]. intros l g Hl. pose proof (Len l g Hl) as Hla.
  rewrite (nth_error_nth' arr' dflt) by lia. f_equal.
  destruct (Nat.lt_ge_cases l (dn (d q))) as [Ll|Ll].
  - pose proof (Hown q l Hq Ll) as Ho. rewrite V2 in Hl by exact Ll. injection Hl as <-.
    destruct (A l dflt Hla) as [[A1 _]|(g & Eg & A1)]; [rewrite A1; exact (nth_error_nth _ _ dflt Ho)|]. rewrite V2 in Eg by exact Ll. injection Eg as <-. exact A1.
  - destruct (Nat.lt_ge_cases l (dn (d q) + dghost_n (d q))) as [Lk|Lk]; [|rewrite V4 in Hl by exact Lk; discriminate].
    destruct (V3 l (conj Ll Lk)) as (g' & o & B1 & B2 & B3 & B4). assert (g' = g) by congruence. subst g'.
    destruct (A l dflt Hla) as [[A1 A2]|(g' & Eg & A1)]; [|assert (g' = g) by congruence; subst g'; exact A1].
    rewrite A1, (nth_error_nth _ _ dflt (Hgh q l g Hq Ll Hl)).
    destruct B2 as [Nq (v & w & Ov & Hin)]. assert (Hvl : v < gn G) by exact (owns_lt P (gn G) dist HD q v Hq Ov). pose proof (HC _ _ _ Hvl Hin) as Hg.
    destruct (find_owner_owns P (gn G) dist g HD Hg) as [Hr Or]. set (r := find_owner dist g) in *.
    assert (Eg : nth r dist 0 + (g - nth r dist 0) = g) by (unfold owns in Or; lia).
    assert (Hu : g - nth r dist 0 < dn (d r)) by (rewrite (Dn r Hr); unfold owns in Or; lia).
    rewrite <- Eg at 1 2. symmetry. apply (Hun r (g - nth r dist 0) Hr Hu). intros [R F].
    apply (A2 r (g - nth r dist 0) (f g)); [|rewrite Eg; apply V5; exact Hl].
    apply Box. rewrite Eg. split; [exact Hr|]. split; [exact R|]. split; [exact F|]. split; [|reflexivity].
    split; [exact Hq|]. split; [intros C; rewrite C in Nq; exact (Nq Or)|]. destruct (HS _ _ _ Hvl Hin) as [w' Hw]. exists v, w'. rewrite Eg. auto.
Qed.
End Some_values.
