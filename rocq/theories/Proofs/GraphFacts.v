(* Facts about the graph specification. *)
From Verif Require Import Lib.Prelude Spec.Graph.

(** Sum over all directed edges between different blocks. *)
Definition dcut (g : graph) (p : nat -> nat) : Z :=
  sumn (gn g) (fun u => zsum (map (fun e => if p u =? p (fst e) then 0%Z else snd e) (gadj g u))).

Lemma sum_by_target n (l : list (nat * Z)) (f : nat -> Z -> Z) :
  (forall v w, In (v, w) l -> v < n) ->
  (forall v, f v 0%Z = 0%Z) -> (forall v a b, f v (a + b)%Z = (f v a + f v b)%Z) ->
  zsum (map (fun e => f (fst e) (snd e)) l)
  = sumn n (fun v => f v (zsum (map snd (filter (fun e => fst e =? v) l)))).
Proof.
  intros H f0 fa. induction l as [|[v w] l IH]; simpl.
  - symmetry. rewrite sumn_zero_ext; auto.
  - rewrite IH by (intros; eapply H; right; eauto).
    transitivity (sumn n (fun x => (if Nat.eqb x v then f v w else 0) +
       f x (zsum (map snd (filter (fun e => Nat.eqb (fst e) x) l))))%Z).
    + rewrite sumn_add. rewrite sumn_indicator; auto. eapply H; left; eauto.
    + apply sumn_ext. intros i Hi. rewrite (Nat.eqb_sym v i). destruct (Nat.eqb_spec i v); simpl; subst; [rewrite fa|]; auto.
Qed.

Lemma adj_weight_by_conn g u (f : nat -> Z) :
  closed_graph g -> u < gn g ->
  zsum (map (fun e => (f (fst e) * snd e)%Z) (gadj g u)) = sumn (gn g) (fun v => (f v * conn g u v)%Z).
Proof.
  intros Hc Hu.
  rewrite (sum_by_target (gn g) (gadj g u) (fun v w => (f v * w)%Z)); auto; try (intros; lia).
  intros; eapply Hc; eauto.
Qed.

Lemma dcut_conn g p : closed_graph g ->
  dcut g p = sumn (gn g) (fun u => sumn (gn g) (fun v => if p u =? p v then 0%Z else conn g u v)).
Proof.
  intros Hc. unfold dcut. apply sumn_ext. intros u Hu.
  pose proof (adj_weight_by_conn g u (fun v => if Nat.eqb (p u) (p v) then 0 else 1)%Z Hc Hu) as E.
  transitivity (zsum (map (fun e => ((if Nat.eqb (p u) (p (fst e)) then 0 else 1) * snd e)%Z) (gadj g u))).
  - apply zsum_map_ext. intros e _. destruct (p u =? p (fst e)); lia.
  - rewrite E. apply sumn_ext. intros v _. destruct (p u =? p v); lia.
Qed.

Lemma sumn_square_tri n (f : nat -> nat -> Z) :
  (forall i, f i i = 0%Z) ->
  sumn n (fun u => sumn n (f u)) = (sumn n (fun u => sumn u (f u)) + sumn n (fun u => sumn u (fun v => f v u)))%Z.
Proof.
  intros Hd. induction n; simpl.
  - rewrite !sumn_0. reflexivity.
  - rewrite !sumn_S. 
    transitivity (sumn n (fun u => sumn n (f u) + f u n) + (sumn n (f n) + f n n))%Z.
    + f_equal. apply sumn_ext. intros; apply sumn_S.
    + rewrite sumn_add, IHn, Hd. lia.
Qed.

Lemma dcut_cut g p : closed_graph g -> undirected g -> dcut g p = (2 * cut_weight g p)%Z.
Proof.
  intros Hc Hs. rewrite dcut_conn by auto.
  rewrite sumn_square_tri by (intros; rewrite Nat.eqb_refl; auto).
  unfold cut_weight.
  enough (sumn (gn g) (fun u => sumn u (fun v => if p v =? p u then 0%Z else conn g v u)) =
          sumn (gn g) (fun u => sumn u (fun v => if p u =? p v then 0%Z else conn g u v))) by lia.
  apply sumn_ext. intros u Hu. apply sumn_ext. intros v Hv.
  rewrite (Nat.eqb_sym (p v)). destruct (p u =? p v); auto. apply Hs; lia.
Qed.

Lemma dcut_ext g p q : closed_graph g -> (forall u, u < gn g -> p u = q u) -> dcut g p = dcut g q.
Proof.
  intros Hc H. unfold dcut. apply sumn_ext. intros u Hu. apply zsum_map_ext. intros [v w] Hv.
  simpl. rewrite H by auto. rewrite (H v); auto. eapply Hc; eauto.
Qed.

Lemma cut_weight_ext g p q : (forall u, u < gn g -> p u = q u) -> cut_weight g p = cut_weight g q.
Proof.
  intros H. apply sumn_ext. intros u Hu. apply sumn_ext. intros v Hv. rewrite !H by lia. auto.
Qed.

Lemma block_weight_ext g p q b : (forall u, u < gn g -> p u = q u) -> block_weight g p b = block_weight g q b.
Proof. intros H. apply sumn_ext. intros u Hu. rewrite H; auto. Qed.

Lemma iso_closed f g h : isomorphic_by f g h -> closed_graph g -> closed_graph h.
Proof.
  intros (Hn & Hm & Hi & Hw & Ha) Hc u v w Hu Hin. rewrite Hn in Hu.
  destruct (inj_surj (gn g) f Hm Hi u Hu) as (x & Hx & <-).
  eapply Permutation_in in Hin; [|apply Ha; auto].
  apply in_map_iff in Hin as ([v' w'] & E & Hin). injection E as <- <-. rewrite Hn. apply Hm. eapply Hc; eauto.
Qed.

Lemma iso_dcut f g h p : isomorphic_by f g h -> dcut h p = dcut g (fun u => p (f u)).
Proof.
  intros (Hn & Hm & Hi & Hw & Ha). unfold dcut. rewrite Hn.
  rewrite <- (sumn_reindex (gn g) f) by auto. apply sumn_ext. intros u Hu.
  etransitivity; [apply zsum_perm, Permutation_map, Ha; auto|]. rewrite map_map. simpl. reflexivity.
Qed.

Lemma iso_conn f g h u v : isomorphic_by f g h -> closed_graph g -> u < gn g -> v < gn g -> conn h (f u) (f v) = conn g u v.
Proof.
  intros (Hn & Hm & Hi & Hw & Ha) Hc Hu Hv. unfold conn.
  rewrite zsum_filter. etransitivity; [apply zsum_perm, Permutation_map, Ha; auto|].
  rewrite zsum_filter, map_map. simpl.
  apply zsum_map_ext. intros [x w] Hin. simpl. 
  assert (x < gn g) by exact (Hc u x w Hu Hin).
  destruct (Nat.eqb_spec x v); subst; [rewrite Nat.eqb_refl; auto|].
  destruct (Nat.eqb_spec (f x) (f v)); auto. exfalso; apply n; apply Hi; auto.
Qed.

Lemma iso_undirected f g h : isomorphic_by f g h -> closed_graph g -> undirected g -> undirected h.
Proof.
  intros Hiso Hc Hs u v Hu Hv. pose proof Hiso as (Hn & Hm & Hi & Hw & Ha). rewrite Hn in *.
  destruct (inj_surj (gn g) f Hm Hi u Hu) as (x & Hx & <-).
  destruct (inj_surj (gn g) f Hm Hi v Hv) as (y & Hy & <-).
  rewrite !(iso_conn f g h) by auto. apply Hs; auto.
Qed.

Lemma iso_cut f g h p : isomorphic_by f g h -> closed_graph g -> undirected g ->
  cut_weight h p = cut_weight g (fun u => p (f u)).
Proof.
  intros Hiso Hc Hs.
  pose proof (dcut_cut g (fun u => p (f u)) Hc Hs).
  pose proof (dcut_cut h p (iso_closed _ _ _ Hiso Hc) (iso_undirected _ _ _ Hiso Hc Hs)).
  pose proof (iso_dcut f g h p Hiso). lia.
Qed.

Lemma iso_block_weight f g h p b : isomorphic_by f g h ->
  block_weight h p b = block_weight g (fun u => p (f u)) b.
Proof.
  intros (Hn & Hm & Hi & Hw & Ha). unfold block_weight. rewrite Hn.
  rewrite <- (sumn_reindex (gn g) f) by auto. apply sumn_ext. intros u Hu. rewrite Hw; auto.
Qed.

Lemma iso_total_weight f g h : isomorphic_by f g h -> total_weight h = total_weight g.
Proof.
  intros (Hn & Hm & Hi & Hw & Ha). unfold total_weight. rewrite Hn.
  rewrite <- (sumn_reindex (gn g) f) by auto. apply sumn_ext. intros u Hu. rewrite Hw; auto.
Qed.

Lemma iso_refl g : isomorphic_by (fun u => u) g g.
Proof.
  split; [auto|]. split; [intros i Hi; auto|]. split; [intros i j; auto|]. split; [auto|].
  intros u Hu. erewrite map_ext; [rewrite map_id; auto|]. intros []; auto.
Qed.

Lemma iso_trans f1 f2 g1 g2 g3 : isomorphic_by f1 g1 g2 -> isomorphic_by f2 g2 g3 ->
  isomorphic_by (fun u => f2 (f1 u)) g1 g3.
Proof.
  intros (Hn & Hm & Hi & Hw & Ha) (Hn2 & Hm2 & Hi2 & Hw2 & Ha2). rewrite Hn in *.
  split; [congruence|]. split; [intros u Hu; auto|]. split; [|split].
  - intros i j H1 H2 E. apply Hi; auto.
  - intros u Hu. rewrite Hw2; auto.
  - intros u Hu. etransitivity; [apply Ha2; auto|].
    etransitivity; [apply Permutation_map, Ha; auto|]. rewrite map_map. simpl. auto.
Qed.

Lemma block_weights_total g p k :
  (forall u, u < gn g -> p u < k) -> sumn k (block_weight g p) = total_weight g.
Proof.
  intros H. unfold block_weight, total_weight. rewrite sumn_swap. apply sumn_ext. intros u Hu.
  transitivity (sumn k (fun j => if j =? p u then gvw g u else 0%Z)).
  - apply sumn_ext. intros j _. rewrite Nat.eqb_sym. auto.
  - apply sumn_indicator; auto.
Qed.
