(* The gain of a move is the decrease of the edge cut; how a move changes the connections of other nodes. *)
From Verif Require Import Lib.Prelude Spec.Graph Spec.Gain Proofs.GraphFacts.

Lemma block_conn_if g p u b :
  block_conn g p u b = zsum (map (fun e => if p (fst e) =? b then snd e else 0%Z) (gadj g u)).
Proof. unfold block_conn. apply zsum_filter. Qed.

Lemma block_conn_by_conn g p u b : closed_graph g -> u < gn g ->
  block_conn g p u b = sumn (gn g) (fun v => if p v =? b then conn g u v else 0%Z).
Proof.
  intros Hc Hu. rewrite block_conn_if.
  pose proof (adj_weight_by_conn g u (fun v => if Nat.eqb (p v) b then 1 else 0)%Z Hc Hu) as E.
  transitivity (zsum (map (fun e => ((if Nat.eqb (p (fst e)) b then 1 else 0) * snd e)%Z) (gadj g u))).
  - apply zsum_map_ext. intros e _. destruct (p (fst e) =? b); lia.
  - rewrite E. apply sumn_ext. intros v _. destruct (p v =? b); lia.
Qed.
Lemma block_conn_ext g p q u b : closed_graph g -> u < gn g -> (forall v, v < gn g -> p v = q v) ->
  block_conn g p u b = block_conn g q u b.
Proof.
  intros Hc Hu H. rewrite !block_conn_if. apply zsum_map_ext. intros [v w] Hv. cbn [fst snd].
  rewrite H; auto. eapply Hc; eauto.
Qed.

(** Moving [u] changes the connection of [v] only by the weight between them. *)
Lemma block_conn_relabel g p u a v b : closed_graph g -> u < gn g -> v < gn g ->
  block_conn g (relabel p u a) v b =
  (block_conn g p v b + (if Nat.eqb a b then conn g v u else 0) - (if Nat.eqb (p u) b then conn g v u else 0))%Z.
Proof.
  intros Hc Hu Hv. rewrite !block_conn_by_conn by auto.
  rewrite (sumn_change (gn g) u (fun x => if relabel p u a x =? b then conn g v x else 0%Z)
             (fun x => if p x =? b then conn g v x else 0%Z)); auto.
  - unfold relabel. rewrite Nat.eqb_refl. lia.
  - intros i Hi Hne. unfold relabel. destruct (Nat.eqb_spec i u); [contradiction|reflexivity].
Qed.

Theorem gain_is_cut_decrease g p u b : closed_graph g -> undirected g -> u < gn g -> conn g u u = 0%Z ->
  (cut_weight g p - cut_weight g (relabel p u b))%Z = (block_conn g p u b - block_conn g p u (p u))%Z.
Proof.
  intros Hc Hs Hu Hl.
  pose proof (dcut_cut g p Hc Hs) as E1. pose proof (dcut_cut g (relabel p u b) Hc Hs) as E2.
  rewrite dcut_conn in E1, E2 by auto. set (q := relabel p u b) in *.
  set (F := fun r x => sumn (gn g) (fun y => if r x =? r y then 0%Z else conn g x y)) in *.
  assert (Eq : forall x, x <> u -> q x = p x) by (intros x Hx; unfold q, relabel; destruct (Nat.eqb_spec x u); [contradiction|reflexivity]).
  assert (Equ : q u = b) by (unfold q, relabel; rewrite Nat.eqb_refl; reflexivity).
  set (G := (block_conn g p u b - block_conn g p u (p u))%Z).
  assert (HR : (F p u - F q u = G)%Z).
  { unfold F, G. rewrite !block_conn_by_conn by auto. rewrite <- !sumn_sub. apply sumn_ext. intros y Hy.
    rewrite Equ. destruct (Nat.eq_dec y u) as [->|Hne]; [rewrite !Hl; repeat destruct (_ =? _); lia|].
    rewrite (Eq y Hne), (Nat.eqb_sym (p y) b), (Nat.eqb_sym (p y) (p u)).
    destruct (p u =? p y), (b =? p y); lia. }
  assert (HX : forall x, x < gn g -> x <> u ->
    (F p x - F q x = (if Nat.eqb (p x) b then conn g u x else 0) - (if Nat.eqb (p x) (p u) then conn g u x else 0))%Z).
  { intros x Hx Hne. unfold F.
    rewrite (sumn_change (gn g) u (fun y => if p x =? p y then 0%Z else conn g x y)
               (fun y => if q x =? q y then 0%Z else conn g x y)); auto.
    - rewrite Equ, (Eq x Hne), (Hs x u Hx Hu). destruct (p x =? p u), (p x =? b); lia.
    - intros y Hy Hyn. rewrite (Eq x Hne), (Eq y Hyn). reflexivity. }
  assert (HT : (sumn (gn g) (F p) - sumn (gn g) (F q) = 2 * G)%Z).
  { rewrite <- sumn_sub.
    rewrite (sumn_change (gn g) u (fun x => F p x - F q x)%Z
      (fun x => (if Nat.eqb (p x) b then conn g u x else 0) - (if Nat.eqb (p x) (p u) then conn g u x else 0))%Z); auto.
    rewrite HR, Hl. rewrite sumn_sub, <- !block_conn_by_conn by auto. fold G. repeat destruct (_ =? _); lia. }
  change (sumn (gn g) (F p) = (2 * cut_weight g p)%Z) in E1.
  change (sumn (gn g) (F q) = (2 * cut_weight g q)%Z) in E2. lia.
Qed.

(** Bounds. *)
Lemma block_conn_bounds g p u b : positive_edges g -> u < gn g ->
  (0 <= block_conn g p u b <= weighted_degree g u)%Z.
Proof.
  intros Hp Hu. rewrite block_conn_if. unfold weighted_degree.
  assert (H : forall l, (forall v w, In (v, w) l -> 0 < w)%Z ->
    (0 <= zsum (map (fun e => if Nat.eqb (p (fst e)) b then snd e else 0%Z) l) <= zsum (map snd l))%Z).
  { induction l as [|[v w] l IH]; intros H; cbn [map zsum fst snd]; [lia|].
    pose proof (H v w (or_introl eq_refl)). destruct IH as [H1 H2]; [intros; eapply H; right; eauto|].
    destruct (p v =? b); lia. }
  apply H. intros v w Hin. eapply Hp; eauto.
Qed.

(** A node whose whole weighted degree is the connection to its block has no neighbour elsewhere. *)
Lemma border_iff g p u : positive_edges g -> u < gn g ->
  weighted_degree g u <> block_conn g p u (p u) <-> exists v w, In (v, w) (gadj g u) /\ p v <> p u.
Proof.
  intros Hp Hu. rewrite block_conn_if. unfold weighted_degree.
  assert (H : forall l, (forall v w, In (v, w) l -> 0 < w)%Z ->
    (zsum (map (fun e => if Nat.eqb (p (fst e)) (p u) then snd e else 0%Z) l) <= zsum (map snd l))%Z /\
    (zsum (map snd l) <> zsum (map (fun e => if Nat.eqb (p (fst e)) (p u) then snd e else 0%Z) l) <->
     exists v w, In (v, w) l /\ p v <> p u)).
  { induction l as [|[v w] l IH]; intros H; cbn [map zsum fst snd].
    - split; [lia|]. split; [lia|]. intros (v & w & [] & _).
    - pose proof (H v w (or_introl eq_refl)). destruct IH as [H1 H2]; [intros; eapply H; right; eauto|].
      destruct (Nat.eqb_spec (p v) (p u)) as [E|E].
      + split; [lia|]. split.
        * intros Hn. destruct (proj1 H2 ltac:(lia)) as (x & y & Hin & Hx). exists x, y. split; [right|]; auto.
        * intros (x & y & [Hin|Hin] & Hx); [inversion Hin; subst; contradiction|].
          assert (zsum (map snd l) <> zsum (map (fun e => if Nat.eqb (p (fst e)) (p u) then snd e else 0%Z) l)); [|lia].
          apply H2. exists x, y. auto.
      + split; [lia|]. split; [|lia]. intros _. exists v, w. split; [left|]; auto. }
  apply H. intros v w Hin. eapply Hp; eauto.
Qed.
