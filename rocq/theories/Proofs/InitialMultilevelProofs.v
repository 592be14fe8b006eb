(* Multilevel bipartitioning. *)
From Verif Require Import Lib.Prelude Spec.Graph Spec.Quotient Spec.InitialSpec Spec.InitialPoolSpec Spec.InitialCoarsenSpec
  Spec.InitialMultilevelSpec.
From Verif Require Import Model.InitialFmModel Model.InitialFlatModel Model.InitialPoolModel Model.InitialCoarsenModel
  Model.InitialMultilevelModel.
From Verif Require Import Proofs.GraphFacts Proofs.QuotientProofs Proofs.CsrProofs Proofs.InitialFmProofs Proofs.InitialFlatTop Proofs.InitialPoolProofs
  Proofs.InitialCoarsenTop.
From Verif Require Proofs.PipelineProofs.

Lemma last_graph_coarsest g levels : last_graph g levels = coarsest g levels.
Proof. revert g. induction levels as [|[m h] r IH]; intros g; cbn; auto. Qed.

Lemma quotient_loop_free g f h : is_quotient g f h -> loop_free h.
Proof.
  intros (Q1 & Q2 & Q3 & Q4 & Q5 & Q6) c w Hc Hin.
  assert (H : In c (map fst (gadj h c))) by (change c with (fst (c, w)) at 1; apply in_map; auto).
  apply (Q6 c c Hc) in H. destruct H as [H _]. congruence.
Qed.

Lemma quotient_nonneg g f h : is_quotient g f h -> closed_graph g -> nonneg_edges g -> nonneg_edges h.
Proof.
  intros Q Hc Hn c d w Hcn Hin. pose proof (quotient_closed g h f Q Hc c d w Hcn Hin) as Hd.
  pose proof (quotient_loop_free g f h Q c) as Hl.
  destruct Q as (Q1 & Q2 & Q3 & Q4 & Q5 & Q6).
  assert (Hne : c <> d) by (intros <-; apply (Hl w Hcn Hin)).
  rewrite <- (PipelineProofs.conn_single h c d w (Q5 c Hcn) Hin). rewrite Q4 by auto.
  unfold cluster_conn. apply sumn_nonneg. intros u Hu. destruct (f u =? c); [|lia]. apply sumn_nonneg. intros v Hv.
  destruct (f v =? d); [|lia]. apply conn_nonneg. intros x w' Hx. apply (Hn u x w' Hu Hx).
Qed.

Lemma project_labels_ok mapping coarse us :
  (forall u, In u us -> u < length mapping /\ nth u mapping 0 < length coarse) ->
  project_labels mapping coarse us = Some (map (fun u => nth (nth u mapping 0) coarse 0) us).
Proof.
  induction us as [|u r IH]; intros H; cbn [project_labels map]; auto.
  destruct (H u (or_introl eq_refl)) as [A B].
  rewrite (nth_error_nth' mapping 0 A), (nth_error_nth' coarse 0 B), IH; auto. intros v Hv. apply H. right. auto.
Qed.

Lemma add_weights_ok g lab : forall us bw, length bw = 2 -> (forall u, In u us -> u < length lab /\ nth u lab 0 < 2) ->
  exists bw', add_weights g us lab bw = Some bw' /\ length bw' = 2 /\
    forall b, b < 2 -> nth b bw' 0%Z = (nth b bw 0 + zsum (map (fun u => if (nth u lab 0 =? b)%nat then gvw g u else 0) us))%Z.
Proof.
  induction us as [|u r IH]; intros bw L H; cbn [add_weights].
  - exists bw. split; auto. split; auto. intros. cbn. lia.
  - destruct (H u (or_introl eq_refl)) as [A B]. rewrite (nth_error_nth' lab 0 A), (nth_error_nth' bw 0%Z) by lia.
    destruct (IH (upd (nth u lab 0) (nth (nth u lab 0%nat) bw 0 + gvw g u)%Z bw)) as (bw' & E & L' & V).
    + rewrite upd_length. auto.
    + intros v Hv. apply H. right. auto.
    + exists bw'. split; auto. split; auto. intros b Hb. rewrite V by auto. cbn [map zsum fold_right].
      destruct (Nat.eqb_spec (nth u lab 0) b) as [<-|Hne].
      * rewrite upd_nth_same by lia. lia.
      * rewrite upd_nth_other by auto. lia.
Qed.

Section Levels.
Variables limit perfect : nat -> Z.
Variable cfg : mconfig.
Variable env : menv.
Hypothesis Hro : forall n l k, legal_order n (rc_chunks (me_rounds env n l k)) (rc_perms (me_rounds env n l k)).
Hypothesis Hca : forall l, length (me_cached env l) <= 2.
Set Default Proof Using "All".

Definition good_graph (g : graph) : Prop := closed_graph g /\ undirected g /\ nonneg_edges g /\ loop_free g.

Lemma quotient_good g f h : is_quotient g f h -> good_graph g -> good_graph h.
Proof.
  intros Q (A & B & C & D). split; [exact (quotient_closed g h f Q A)|]. split; [exact (quotient_undirected g h f Q B)|].
  split; [exact (quotient_nonneg g f h Q A C)|exact (quotient_loop_free g f h Q)].
Qed.

Lemma level_refine_ok g lvl p : good_graph g -> bipartition g (fst p) (snd p) ->
  exists q, level_refine limit perfect cfg env g lvl p = Some q /\ bipartition g (fst q) (snd q) /\
    (overload limit g (fst q) <= overload limit g (fst p))%Z /\ (cut_of g (fst q) <= cut_of g (fst p))%Z.
Proof.
  intros (A & B & C & D) Hp. unfold level_refine. destruct (mc_fm cfg) as [iters|].
  - destruct (refine_ok g limit perfect A B C D iters (me_rounds env (gn g) lvl) (me_abort env lvl) (fst p) (snd p) Hp
      (Hro (gn g) lvl)) as (lab & bw & im & E & B' & O & S & _). rewrite E.
    exists (lab, bw). cbn [fst snd]. split; auto. split; auto. split; auto. destruct S as [-> |S]; lia.
  - exists p. split; auto. split; auto. lia.
Qed.

Lemma pop_ok g mapping h coarse bwc cached : length mapping = gn g -> is_quotient g (fun u => nth u mapping 0) h ->
  closed_graph g -> undirected g -> bipartition h coarse bwc -> length cached <= 2 ->
  exists q, pop g mapping coarse cached = Some q /\ bipartition g (fst q) (snd q) /\
    overload limit g (fst q) = overload limit h coarse /\ cut_of g (fst q) = cut_of h coarse.
Proof.
  intros Lm Q Hc Hu (L2 & Lc & Bc & Wc) Hl. unfold pop.
  pose proof Q as (Q1 & _).
  rewrite project_labels_ok.
  2:{ intros u Hin. apply in_seq in Hin. split; [lia|]. rewrite Lc. apply Q1. lia. }
  set (lab := map _ _).
  assert (Ll : length lab = gn g) by (unfold lab; rewrite map_length, seq_length; auto).
  assert (Nl : forall u, u < gn g -> nth u lab 0 = nth (nth u mapping 0) coarse 0).
  { intros u H. unfold lab. rewrite nth_map_seq by auto. reflexivity. }
  assert (Bl : forall u, u < gn g -> nth u lab 0 < 2).
  { intros u H. rewrite Nl by auto. rewrite <- L2. apply Bc. apply Q1. auto. }
  cbv zeta. match goal with |- context [add_weights g _ lab ?z] => set (zero := z) end.
  assert (Z2 : length zero = 2 /\ forall b, nth b zero 0%Z = 0%Z).
  { unfold zero. rewrite repeat_length. destruct (Nat.ltb_spec (length cached) 2) as [H|H].
    - split; auto. intros [|[|[|b]]]; auto.
    - replace (length cached) with 2 by lia. split; auto. intros [|[|[|b]]]; auto. }
  destruct Z2 as [Z2 Z0].
  destruct (add_weights_ok g lab (seq 0 (gn g)) zero Z2) as (bw & E & Lb & V).
  { intros u Hin. apply in_seq in Hin. split; [lia|apply Bl; lia]. }
  rewrite E. exists (lab, bw). cbn [fst snd]. split; auto.
  assert (Bw : forall b, block_weight g (fun u => nth u lab 0) b = block_weight h (fun c => nth c coarse 0) b).
  { intros b. rewrite (quotient_block_weight g h _ Q). apply block_weight_ext. intros u H. apply Nl. auto. }
  split; [|split].
  - split; auto. split; auto. split; [intros u H; rewrite Lb; auto|]. intros b Hb. rewrite Lb in Hb. rewrite V, Z0 by auto.
    unfold block_weight, sumn. lia.
  - unfold overload. rewrite !Bw. auto.
  - unfold cut_of. rewrite (quotient_cut g h _ Q Hc _ Hu). apply cut_weight_ext. intros u H. apply Nl. auto.
Qed.

Lemma coarsest_good mcw : forall levels g, good_graph g -> coarsening mcw g levels -> good_graph (coarsest g levels).
Proof.
  induction levels as [|[mapping h] rest IH]; intros g G C; cbn [coarsest]; auto.
  destruct C as (_ & Q & _ & _ & C). apply IH; auto. exact (quotient_good g _ h Q G).
Qed.

Lemma uncoarsen_ok mcw : forall levels g lvl p, good_graph g -> coarsening mcw g levels ->
  bipartition (coarsest g levels) (fst p) (snd p) ->
  exists q, uncoarsen limit perfect cfg env g lvl levels p = Some q /\ bipartition g (fst q) (snd q) /\
    (overload limit g (fst q) <= overload limit (coarsest g levels) (fst p))%Z /\
    (cut_of g (fst q) <= cut_of (coarsest g levels) (fst p))%Z.
Proof.
  induction levels as [|[mapping h] rest IH]; intros g lvl p G C B; cbn [uncoarsen coarsest] in *.
  - exists p. split; auto. split; auto. lia.
  - destruct C as (Lm & Q & _ & _ & C).
    destruct (IH h (S lvl) p (quotient_good g _ h Q G) C B) as ([coarse bwc] & E & B1 & O1 & C1). rewrite E. cbn [fst snd] in *.
    destruct (pop_ok g mapping h coarse bwc (me_cached env lvl) Lm Q (proj1 G) (proj1 (proj2 G)) B1 (Hca lvl)) as (q & E2 & B2 & O2 & C2).
    rewrite E2. destruct (level_refine_ok g lvl q G B2) as (r & E3 & B3 & O3 & C3). exists r. split; auto. split; auto. lia.
Qed.

Lemma coarsest_cut mcw emax : forall levels g, good_graph g -> coarsening mcw g levels ->
  (forall lab, (cut_of g lab < emax)%Z) -> forall lab, (cut_of (coarsest g levels) lab < emax)%Z.
Proof.
  induction levels as [|[mapping h] rest IH]; intros g G C Hcut lab; cbn [coarsest] in *; auto.
  destruct C as (_ & Q & _ & _ & C). apply IH; auto; [exact (quotient_good g _ h Q G)|].
  intros l. unfold cut_of. rewrite (quotient_cut g h _ Q (proj1 G) _ (proj1 (proj2 G))).
  specialize (Hcut (map (fun u => nth (nth u mapping 0) l 0) (seq 0 (gn g)))). unfold cut_of in Hcut.
  erewrite cut_weight_ext; [exact Hcut|]. intros u H. cbv beta. rewrite nth_map_seq by auto. reflexivity.
Qed.

Lemma coarsest_total mcw : forall levels g, closed_graph g -> coarsening mcw g levels ->
  total_weight (coarsest g levels) = total_weight g.
Proof.
  induction levels as [|[mapping h] rest IH]; intros g G C; cbn [coarsest] in *; auto.
  destruct C as (_ & Q & _ & _ & C). rewrite IH; auto; [exact (quotient_total g h _ Q)|exact (quotient_closed g h _ Q G)].
Qed.

(** Coarse nodes are not heavier than the maximum cluster weight or a node they stand for alone. *)
Lemma coarsest_weight mcw M : (mcw <= M)%Z -> forall levels g, coarsening mcw g levels ->
  (forall u, u < gn g -> (0 <= gvw g u <= M)%Z) ->
  forall c, c < gn (coarsest g levels) -> (0 <= gvw (coarsest g levels) c <= M)%Z.
Proof.
  intros Hm. induction levels as [|[mapping h] rest IH]; intros g C Hw c Hc; cbn [coarsest] in *; auto.
  destruct C as (_ & Q & _ & Hl & C). apply IH; auto. clear c Hc. intros c Hc.
  destruct Q as (Q1 & Q2 & Q3 & _). destruct (Q2 c Hc) as (u & Hu & Ef).
  assert (Hnn : (0 <= gvw h c)%Z).
  { rewrite Q3 by auto. apply sumn_nonneg. intros v Hv. destruct (_ =? _); [apply Hw; auto|lia]. }
  split; auto.
  destruct (existsb (fun v => negb (v =? u) && (nth v mapping 0 =? c)) (seq 0 (gn g))) eqn:Ex.
  - apply existsb_exists in Ex. destruct Ex as (v & Hv & Ev). apply in_seq in Hv. apply andb_true_iff in Ev. destruct Ev as [E1 E2].
    apply negb_true_iff, Nat.eqb_neq in E1. apply Nat.eqb_eq in E2.
    specialize (Hl u v Hu ltac:(lia) ltac:(congruence) ltac:(congruence)). rewrite Ef in Hl. lia.
  - rewrite Q3 by auto. rewrite (sumn_single (gn g) u); auto.
    + rewrite Ef, Nat.eqb_refl. apply Hw. auto.
    + intros v Hv Hne. destruct (Nat.eqb_spec (nth v mapping 0) c) as [E|E]; auto. exfalso.
      assert (K : existsb (fun v => negb (v =? u) && (nth v mapping 0 =? c)) (seq 0 (gn g)) = true).
      { apply existsb_exists. exists v. split; [apply in_seq; lia|]. apply andb_true_iff. split; [apply negb_true_iff, Nat.eqb_neq; auto|apply Nat.eqb_eq; auto]. }
      congruence.
Qed.
End Levels.

Lemma positive_nonneg g : positive_edges g -> nonneg_edges g.
Proof. intros H u v w Hu Hi. specialize (H u v w Hu Hi). lia. Qed.

Section Top.
Variable bits : Z.
Variables limit perfect : nat -> Z.
Variable imb : graph -> list Z -> Z.
Variable emax : Z.
Variable cfg : mconfig.
Variable env : menv.
Variable mcw : Z.
Variable g : graph.
Hypothesis Hbits : (1 <= bits)%Z.
Hypothesis Hmcw : (mcw < 2 ^ (bits - 1))%Z.
Hypothesis Hn : 0 < gn g.
Hypothesis Hcl : closed_graph g.
Hypothesis Hund : undirected g.
Hypothesis Hpos : positive_edges g.
Hypothesis Hlf : loop_free g.
Hypothesis Hfit : fits (2 ^ (bits - 1)) g.
Hypothesis Hcut : forall lab, (cut_of g lab < emax)%Z.
Hypothesis Henv : legal_menv (gn g) env.
Hypothesis Hcfg : usable cfg.
Set Default Proof Using "All".

Lemma good : good_graph g.
Proof. split; [auto|]. split; [auto|]. split; [apply positive_nonneg; auto|auto]. Qed.

(** Everything after coarsening. *)
Lemma multilevel_ok co old : idle co ->
  exists q best levels co' po, multilevel bits limit perfect imb emax cfg env mcw g co old = Some (q, best, levels, co') /\
    coarsening mcw g levels /\ idle co' /\
    pool_bipartition (coarsest g levels) limit perfect (imb (coarsest g levels)) emax (mc_pool cfg) (me_pool env (gn (coarsest g levels))) old = Some po /\
    best = po_best po /\
    bipartition (coarsest g levels) (fst best) (snd best) /\ bipartition g (fst q) (snd q) /\
    (overload limit g (fst q) <= overload limit (coarsest g levels) (fst best))%Z /\
    (cut_of g (fst q) <= cut_of (coarsest g levels) (fst best))%Z.
Proof.
  intros Hi. destruct Henv as (E1 & E2 & E3 & E4). destruct Hcfg as (S1 & S2 & S3).
  destruct (initial_coarsening_ok bits mcw Hbits Hmcw (me_coarsen env) (mc_limit cfg) g co Hn Hcl Hpos Hfit Hi E1)
    as (levels & co' & EL & CL & _ & Hi').
  unfold multilevel. rewrite EL, last_graph_coarsest.
  pose proof (coarsest_good limit perfect cfg env E3 E4 mcw levels g good CL) as GC.
  destruct GC as (A & B & C & D).
  destruct (pool_ok (coarsest g levels) limit perfect (imb (coarsest g levels)) emax (mc_pool cfg) A B C D
    (coarsest_cut limit perfect cfg env E3 E4 mcw emax levels g good CL Hcut) (me_pool env (gn (coarsest g levels))) old (E2 (gn (coarsest g levels))) S1 S2 S3)
    as (po & EP & BP & _). rewrite EP.
  assert (K : exists p, (if mc_refine_pool cfg then level_refine limit perfect cfg env (coarsest g levels) (length levels) (po_best po)
                         else Some (po_best po)) = Some p /\ bipartition (coarsest g levels) (fst p) (snd p) /\
     (overload limit (coarsest g levels) (fst p) <= overload limit (coarsest g levels) (fst (po_best po)))%Z /\
     (cut_of (coarsest g levels) (fst p) <= cut_of (coarsest g levels) (fst (po_best po)))%Z).
  { destruct (mc_refine_pool cfg); [|exists (po_best po); split; auto; split; auto; lia].
    apply (level_refine_ok limit perfect cfg env E3 E4 (coarsest g levels) (length levels) (po_best po)); auto. split; auto. }
  destruct K as (p & EK & BK & OK & CK). rewrite EK.
  destruct (uncoarsen_ok limit perfect cfg env E3 E4 mcw levels g 0 p good CL BK) as (q & EU & BU & OU & CU). rewrite EU.
  exists q, (po_best po), levels, co', po. split; auto. split; auto. split; auto. split; auto. split; auto. split; auto. split; auto. lia.
Qed.

Lemma multilevel_feasible co old M i : idle co -> i < pl_size (mc_pool cfg) -> (forall n, exists rnd', re_alg (me_pool env n 0 i) = ARandom rnd') ->
  (forall v, v < gn g -> (gvw g v <= M)%Z) -> (mcw <= M)%Z -> (0 <= perfect 0%nat)%Z -> (0 <= perfect 1%nat)%Z ->
  (total_weight g <= perfect 0%nat + perfect 1%nat)%Z -> (forall b, b < 2 -> (M <= 2 * (limit b - perfect b) + 1)%Z) ->
  exists q best levels co', multilevel bits limit perfect imb emax cfg env mcw g co old = Some (q, best, levels, co') /\
    bipartition g (fst q) (snd q) /\ feasible limit g (fst q).
Proof.
  intros Hi Hk Ha Hw HM P0 P1 Ht Hl. destruct (multilevel_ok co old Hi) as (q & best & levels & co' & po & E & CL & _ & EP & -> & BB & BQ & OQ & _).
  exists q, (po_best po), levels, co'. split; auto. split; auto.
  destruct Henv as (E1 & E2 & E3 & E4). destruct Hcfg as (S1 & S2 & S3).
  pose proof (coarsest_good limit perfect cfg env E3 E4 mcw levels g good CL) as (A & B & C & D).
  destruct (Ha (gn (coarsest g levels))) as (rnd' & Er).
  assert (Hw' : forall u, u < gn g -> (0 <= gvw g u <= M)%Z) by (intros u Hu; specialize (Hw u Hu); specialize (Hfit u Hu); lia).
  assert (M0 : (0 <= M)%Z) by (specialize (Hw' 0 Hn); lia).
  destruct (pool_random_feasible (coarsest g levels) limit perfect (imb (coarsest g levels)) emax (mc_pool cfg) A B C D
    (coarsest_cut limit perfect cfg env E3 E4 mcw emax levels g good CL Hcut) (me_pool env (gn (coarsest g levels))) old i rnd' M (E2 (gn (coarsest g levels))) S2 S3 Hk Er
    (coarsest_weight limit perfect cfg env E3 E4 mcw M HM levels g CL Hw') M0 P0 P1 ltac:(rewrite (coarsest_total limit perfect cfg env E3 E4 mcw levels g Hcl CL); auto) Hl) as (po' & EP' & F).
  rewrite EP in EP'. injection EP' as <-.
  apply (overload_feasible (coarsest g levels) limit perfect (imb (coarsest g levels)) emax (mc_pool cfg) A B C D (coarsest_cut limit perfect cfg env E3 E4 mcw emax levels g good CL Hcut)) in F.
  unfold feasible. unfold overload in *. intros [|[|b]] Hb; lia.
Qed.
End Top.
