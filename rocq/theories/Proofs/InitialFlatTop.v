(* The flat initial bipartitioners: bipartitions and their balance. *)
From Verif Require Import Lib.Prelude Spec.Graph Spec.InitialSpec Model.InitialFmModel Model.InitialFlatModel Proofs.GraphFacts
  Proofs.InitialFlatProofs.

Section Top.
Variable g : graph.
Variables limit perfect : nat -> Z.
Hypothesis Hcl : closed_graph g.

Definition complete (fs : fstate) : Prop := forall u, u < gn g -> nth u (fst fs) None <> None.

Lemma fill_ok a : 0 < gn g -> exists fs, fill g limit perfect a (repeat None (gn g), [0; 0]%Z) = Some fs /\ flat_ok g fs /\ complete fs.
Proof using All.
  intros Hn. destruct a as [st iters rnd|rnd|rnd]; cbn [fill].
  - destruct (far_away_ok g limit perfect Hcl rnd iters Hn 0 (Some 0) (0, 0)) as (a & b & E & Ha & Hb); auto. rewrite E.
    apply (bfs_fill_ok g limit perfect Hcl st a b Ha Hb).
  - rewrite (ggg_fill_grow g limit perfect Hcl rnd Hn).
    destruct (grow_ok0 g limit perfect Hcl rnd (S (gn g)) Hn 0 (repeat false (gn g)) (repeat (Some 0) (gn g), upd 0 (sumn (gn g) (gvw g)) [0; 0]%Z))
      as (fs & m & E & (F & _ & _ & C)).
    + apply ggg_init; auto.
    + rewrite marks_repeat. lia.
    + exists fs. split; auto. split; auto. intros u Hu. rewrite C by exact Hu. discriminate.
  - destruct (random_fill_ok g limit perfect Hcl rnd (seq 0 (gn g)) (repeat None (gn g), [0; 0]%Z)) as (fs & E & F & A & _).
    + apply flat_init; auto.
    + apply seq_NoDup.
    + intros u Hu. apply in_seq in Hu. cbn [fst]. rewrite nth_repeat. split; [lia|reflexivity].
    + exists fs. split; auto. split; auto. intros u Hu. apply A. apply in_seq. lia.
Qed.

Lemma flat_bipartition_ok a : exists lab bw, flat_bipartition g limit perfect a = Some (lab, bw) /\ bipartition g lab bw.
Proof using All.
  unfold flat_bipartition. destruct (Nat.eqb_spec (gn g) 0) as [E|E].
  - exists [], [0; 0]%Z. split; auto. split; auto. split; [cbn; congruence|]. split; [intros u Hu; lia|].
    intros b Hb. unfold block_weight. rewrite E. destruct b as [|[|b]]; [reflexivity|reflexivity|cbn in Hb; lia].
  - destruct (fill_ok a ltac:(lia)) as ([p bw] & Ef & F & C). rewrite Ef.
    destruct (flat_complete g limit perfect Hcl (p, bw) F C) as (l & El & B & _). cbn [fst snd] in *. rewrite El. eauto.
Qed.

Lemma flat_nonempty a lab bw : gn g <> 0 -> flat_bipartition g limit perfect a = Some (lab, bw) ->
  exists p, fill g limit perfect a (repeat None (gn g), [0; 0]%Z) = Some (p, bw) /\ flat_ok g (p, bw) /\
    forall u, u < gn g -> nth u p None = Some (nth u lab 0).
Proof using All.
  intros Hn. unfold flat_bipartition. rewrite (proj2 (Nat.eqb_neq _ _) Hn).
  destruct (fill_ok a ltac:(lia)) as ([p bw'] & Ef & F & C). rewrite Ef.
  destruct (flat_complete g limit perfect Hcl (p, bw') F C) as (l & El & B & K). cbn [fst snd] in *. rewrite El. intros [= <- <-].
  exists p. auto.
Qed.
Lemma bip_weight lab bw b : bipartition g lab bw -> b < 2 -> block_weight g (fun u => nth u lab 0) b = nth b bw 0%Z.
Proof using All. intros (L & _ & _ & E) Hb. symmetry. apply E. lia. Qed.
Lemma flat_weight a lab bw b : flat_bipartition g limit perfect a = Some (lab, bw) -> b < 2 ->
  block_weight g (fun u => nth u lab 0) b = nth b bw 0%Z.
Proof using All.
  intros E Hb. destruct (flat_bipartition_ok a) as (l & w & E' & B). rewrite E in E'. injection E' as -> ->. apply bip_weight; auto.
Qed.
Lemma empty_weight a lab bw b : gn g = 0 -> flat_bipartition g limit perfect a = Some (lab, bw) -> nth b bw 0%Z = 0%Z.
Proof using All.
  intros E. unfold flat_bipartition. rewrite E. intros [= <- <-]. destruct b as [|[|[|b]]]; reflexivity.
Qed.

Lemma bfs_balance M st iters rnd lab bw : (forall v, v < gn g -> (0 <= gvw g v <= M)%Z) -> (0 < M)%Z ->
  (0 <= limit 0)%Z -> (0 <= limit 1)%Z -> (total_weight g <= limit 0 + limit 1)%Z ->
  flat_bipartition g limit perfect (ABfs st iters rnd) = Some (lab, bw) ->
  forall b, b < 2 -> (block_weight g (fun u => nth u lab 0%nat) b < limit b + M)%Z.
Proof using All.
  intros Hw HM L0 L1 Ht E b Hb. rewrite (flat_weight _ _ _ _ E Hb). destruct (Nat.eq_dec (gn g) 0) as [Hn|Hn].
  - rewrite (empty_weight _ _ _ _ Hn E). destruct b as [|[|b]]; lia.
  - destruct (flat_nonempty _ _ _ Hn E) as (p & Ef & F & _). cbn [fill] in Ef.
    destruct (far_away_ok g limit perfect Hcl rnd iters ltac:(lia) 0 (Some 0) (0, 0)) as (x & y & E' & Ha & Hb'); auto; try (cbn; lia). rewrite E' in Ef.
    refine (bfs_fill_below g limit perfect Hcl M st x y (p, bw) Hw HM Ht Ha Hb' _ Ef b Hb).
    intros c Hc. destruct c as [|[|c]]; cbn [snd nth]; lia.
Qed.

Lemma random_balance M rnd lab bw : (forall v, v < gn g -> (0 <= gvw g v <= M)%Z) -> (0 <= M)%Z ->
  (0 <= perfect 0)%Z -> (0 <= perfect 1)%Z -> (total_weight g <= perfect 0 + perfect 1)%Z ->
  flat_bipartition g limit perfect (ARandom rnd) = Some (lab, bw) ->
  forall b, b < 2 -> (2 * (block_weight g (fun u => nth u lab 0%nat) b - perfect b) <= M)%Z.
Proof using All.
  intros Hw HM L0 L1 Ht E b Hb. rewrite (flat_weight _ _ _ _ E Hb). destruct (Nat.eq_dec (gn g) 0) as [Hn|Hn].
  - rewrite (empty_weight _ _ _ _ Hn E). destruct b as [|[|b]]; lia.
  - destruct (flat_nonempty _ _ _ Hn E) as (p & Ef & F & _). cbn [fill] in Ef.
    refine (random_fill_balance g limit perfect Hcl M rnd (seq 0 (gn g)) Hw HM Ht _ (p, bw) (flat_init g limit perfect Hcl) (seq_NoDup _ _) _ _ Ef b Hb).
    + intros u Hu. apply in_seq in Hu. cbn [fst]. rewrite nth_repeat. split; [lia|reflexivity].
    + intros c Hc. destruct c as [|[|c]]; cbn [snd nth]; lia.
Qed.

Lemma ggg_balance rnd lab bw : gn g <> 0 -> (forall v, v < gn g -> (0 <= gvw g v)%Z) -> (perfect 1 <= total_weight g)%Z ->
  flat_bipartition g limit perfect (AGgg rnd) = Some (lab, bw) ->
  (perfect 1 <= block_weight g (fun u => nth u lab 0%nat) 1)%Z /\
  exists u, u < gn g /\ nth u lab 0 = 1 /\
    ((block_weight g (fun u => nth u lab 0%nat) 1 - gvw g u < perfect 1)%Z \/ forall v, v < gn g -> nth v lab 0 = 1 -> v = u).
Proof using All.
  intros Hn Hw Ht E. rewrite (flat_weight _ _ _ 1 E) by lia.
  destruct (flat_nonempty _ _ _ Hn E) as (p & Ef & F & K). cbn [fill] in Ef.
  rewrite (ggg_fill_grow g limit perfect Hcl rnd ltac:(lia)) in Ef.
  destruct (grow_ok g limit perfect Hcl rnd (S (gn g)) ltac:(lia) 0 (repeat false (gn g)) (repeat (Some 0) (gn g), upd 0 (sumn (gn g) (gvw g)) [0; 0]%Z))
    as (fs & m & E' & G & A & u & Hu & Tu & Bu).
  - apply ggg_init; auto.
  - rewrite marks_repeat. lia.
  - exact Hw.
  - left. split; auto. apply two_empty; auto.
  - rewrite E' in Ef. injection Ef as ->. unfold two in *. cbn [fst snd] in *. split.
    + destruct A as [A|A]; [exact A|]. pose proof (proj2 (proj2 (proj2 F)) 1 ltac:(lia)) as Q. cbn [fst snd] in Q. rewrite Q.
      rewrite (fweight_all g limit perfect Hcl p 1 A). exact Ht.
    + exists u. split; auto. rewrite K in Tu by exact Hu. split; [congruence|]. destruct Bu as [Bu|Bu]; [left; exact Bu|right].
      intros v Hv Ev. apply Bu; auto. rewrite K, Ev by exact Hv. reflexivity.
Qed.
End Top.

(** ** Greedy graph growing does not look at the edges *)
Section Edges.
Variables g1 g2 : graph.
Variables limit perfect : nat -> Z.
Hypothesis Hn : gn g1 = gn g2.
Hypothesis Hw : forall u, gvw g1 u = gvw g2 u.

Lemma start_same t rnd m : forall i, ggg_start g1 t rnd i m = ggg_start g2 t rnd i m.
Proof using All. induction t as [|t IH]; intros i; cbn [ggg_start]; rewrite Hn; [reflexivity|]. rewrite IH. reflexivity. Qed.
Lemma grow_same rnd f : forall i m fs, grow g1 perfect f rnd i m fs = grow g2 perfect f rnd i m fs.
Proof using All.
  induction f as [|f IH]; intros i m fs; cbn [grow]; auto. cbv zeta. rewrite start_same, Hn.
  assert (E : forall s, flat_change g1 s 1 fs = flat_change g2 s 1 fs) by (intros s; unfold flat_change; destruct fs; rewrite Hw; reflexivity).
  rewrite E. destruct (_ <=? _); auto. destruct (flat_change g2 _ 1 fs); auto. destruct (_ <? _)%Z; auto.
Qed.
Lemma ggg_same rnd : closed_graph g1 -> closed_graph g2 ->
  flat_bipartition g1 limit perfect (AGgg rnd) = flat_bipartition g2 limit perfect (AGgg rnd).
Proof using All.
  intros C1 C2. unfold flat_bipartition. rewrite Hn. destruct (Nat.eqb_spec (gn g2) 0) as [E|E]; auto. cbn [fill].
  rewrite (ggg_fill_grow g2 limit perfect C2 rnd) by lia. rewrite <- Hn.
  rewrite (ggg_fill_grow g1 limit perfect C1 rnd) by lia. rewrite grow_same.
  replace (sumn (gn g1) (gvw g2)) with (sumn (gn g1) (gvw g1)); [reflexivity|]. apply sumn_ext. auto.
Qed.
End Edges.
