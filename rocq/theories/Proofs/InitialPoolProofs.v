(* The pool returns the best of the bipartitions it tried. *)
From Verif Require Import Lib.Prelude Spec.Graph Spec.InitialSpec Spec.InitialPoolSpec.
From Verif Require Import Model.InitialFmModel Model.InitialFlatModel Model.InitialPoolModel.
From Verif Require Import Proofs.InitialFmProofs Proofs.InitialFlatTop.

Section PoolP.
Variable g : graph.
Variables limit perfect : nat -> Z.
Variable imb : list Z -> Z.
Variable emax : Z.
Variable cfg : pool_config.
Hypothesis Hcl : closed_graph g.
Hypothesis Hund : undirected g.
Hypothesis Hnn : nonneg_edges g.
Hypothesis Hlf : loop_free g.
Hypothesis Hcut : forall lab, (cut_of g lab < emax)%Z.
Set Default Proof Using "All".

Definition legal_run (e : run_env) : Prop :=
  forall r, legal_order (gn g) (rc_chunks (re_rounds e r)) (rc_perms (re_rounds e r)).

Lemma is_feasible_ok lab bw : bipartition g lab bw -> (is_feasible limit bw = true <-> feasible limit g lab).
Proof.
  intros (L & _ & _ & W). unfold is_feasible, feasible. cbn [forallb]. rewrite andb_true_r, andb_true_iff, !Z.leb_le.
  rewrite (W 0), (W 1) by lia. split.
  - intros [A B] [|[|b]] Hb; [exact A|exact B|lia].
  - intros H. split; apply H; lia.
Qed.

Lemma candidate_ok e : legal_run e -> exists lab bw,
  (exists lab0 bw0, flat_bipartition g limit perfect (re_alg e) = Some (lab0, bw0) /\
     pool_refine g limit perfect cfg e lab0 bw0 = Some (lab, bw)) /\ bipartition g lab bw.
Proof.
  intros He. destruct (flat_bipartition_ok g limit perfect Hcl (re_alg e)) as (lab0 & bw0 & E0 & B0).
  unfold pool_refine. destruct (pl_fm cfg) as [iters|].
  - destruct (refine_ok g limit perfect Hcl Hund Hnn Hlf iters (re_rounds e) (re_abort e) lab0 bw0 B0 He)
      as (lab & bw & im & E & B & _).
    exists lab, bw. split; auto. exists lab0, bw0. rewrite E. auto.
  - exists lab0, bw0. split; auto. exists lab0, bw0. auto.
Qed.

(** The result of a run under [e] was logged. *)
Definition contributed (e : run_env) (log : list (list nat * list Z)) : Prop :=
  exists lab0 bw0 lab bw, flat_bipartition g limit perfect (re_alg e) = Some (lab0, bw0) /\
    pool_refine g limit perfect cfg e lab0 bw0 = Some (lab, bw) /\ In (lab, bw) log.

(** The invariant: everything logged is a bipartition; nothing ran, or the best one was logged and beats the others. *)
Record pinv (old : list nat * list Z) (p : pool) : Prop := mkPinv {
  pi_log : forall a, In a (po_log p) -> bipartition g (fst a) (snd a);
  pi_empty : po_log p = [] -> po_best p = old /\ po_feasible p = false /\ po_cut p = emax;
  pi_best : po_log p <> [] -> In (po_best p) (po_log p) /\
            (po_feasible p = true <-> feasible limit g (fst (po_best p))) /\
            po_cut p = cut_of g (fst (po_best p)) /\ po_imb p = imb (snd (po_best p)) /\
            forall a, In a (po_log p) -> at_least_as_good limit imb g (po_best p) a }.

Lemma init_pinv old : pinv old (pool_init emax cfg old).
Proof. constructor; cbn; intros; [tauto|auto|congruence]. Qed.

Lemma good_trans a b c :
  at_least_as_good limit imb g a b -> at_least_as_good limit imb g b c -> at_least_as_good limit imb g a c.
Proof.
  intros [F1 K1] [F2 K2]. split; [auto|]. intros H.
  assert (H1 : feasible limit g (fst a) -> feasible limit g (fst b)) by (intros; apply F2; auto).
  assert (H2 : feasible limit g (fst b) -> feasible limit g (fst c)) by (intros; apply H; apply F1; auto).
  destruct (K1 H1) as [C1 I1]. destruct (K2 H2) as [C2 I2]. split; [lia|]. intros E.
  assert (cut_of g (fst a) = cut_of g (fst b)) by lia. assert (cut_of g (fst b) = cut_of g (fst c)) by lia.
  specialize (I1 H0). specialize (I2 H3). lia.
Qed.

Lemma good_refl a : at_least_as_good limit imb g a a.
Proof. split; auto. intros _. split; lia. Qed.

Lemma snoc_ne {A} (l : list A) x : l ++ [x] <> [].
Proof. destruct l; discriminate. Qed.

Lemma run_ok old i e p : pinv old p -> legal_run e -> exists p', run_bipartitioner g limit perfect imb cfg i e p = Some p' /\
  pinv old p' /\ (exists a, po_log p' = po_log p ++ [a]) /\ contributed e (po_log p').
Proof.
  intros I He. destruct (candidate_ok e He) as (lab & bw & (lab0 & bw0 & E0 & E1) & B).
  unfold run_bipartitioner. rewrite E0, E1. rewrite (edge_cut_seq_ok g limit perfect Hcl Hund Hnn Hlf).
  pose proof (is_feasible_ok lab bw B) as Fe. pose proof (Hcut lab) as Hc.
  assert (Lg : forall a, In a (po_log p ++ [(lab, bw)]) -> bipartition g (fst a) (snd a)).
  { intros a Ha. apply in_app_or in Ha. destruct Ha as [Ha|[<-|[]]]; [apply (pi_log _ _ I); auto|exact B]. }
  assert (Ln : (exists a, po_log p ++ [(lab, bw)] = po_log p ++ [a]) /\ contributed e (po_log p ++ [(lab, bw)])).
  { split; [eexists; reflexivity|]. exists lab0, bw0, lab, bw. split; auto. split; auto. apply in_or_app. right. left. auto. }
  unfold preferred.
  destruct (po_log p) as [|x l] eqn:El.
  - destruct (pi_empty _ _ I El) as (Eb & Ef & Ec). rewrite Ef, Ec. cbn [implb negb andb app] in *.
    assert (Hl : (cut_of g lab <? emax)%Z = true) by (apply Z.ltb_lt; lia).
    rewrite Hl, orb_true_r, orb_true_l. eexists. split; [reflexivity|]. split; [|exact Ln].
    constructor; cbn [po_log po_best po_feasible po_cut po_imb]; auto; [discriminate|].
    intros _. split; [left; auto|]. split; [exact Fe|]. split; auto. split; auto.
    intros a [<-|[]]. apply good_refl.
  - rewrite <- El in *. assert (Hne : po_log p <> []) by (rewrite El; discriminate).
    destruct (pi_best _ _ I Hne) as (Hin & Pf & Pc & Pim & Pg).
    destruct (implb (po_feasible p) (is_feasible limit bw) && _) eqn:Ep.
    + eexists. split; [reflexivity|]. split; [|exact Ln].
      constructor; cbn [po_log po_best po_feasible po_cut po_imb]; auto; [intros H; destruct (snoc_ne _ _ H)|].
      intros _. split; [apply in_or_app; right; left; auto|]. split; [exact Fe|]. split; auto. split; auto.
      assert (G : at_least_as_good limit imb g (lab, bw) (po_best p)).
      { apply andb_true_iff in Ep. destruct Ep as [Ei Ep]. split; cbn [fst snd].
        - intros H. apply Pf in H. rewrite H in Ei. cbn in Ei. apply Fe. exact Ei.
        - intros H. rewrite !orb_true_iff, !andb_true_iff, Z.ltb_lt, Z.eqb_eq, Z.ltb_lt in Ep.
          destruct Ep as [[[Nf Cf]|Lc]|[Ec Li]]; [|split; lia|split; lia].
          apply Fe in Cf. apply H in Cf. apply Pf in Cf. rewrite Cf in Nf. discriminate. }
      intros a Ha. apply in_app_or in Ha. destruct Ha as [Ha|[<-|[]]]; [|apply good_refl].
      eapply good_trans; [exact G|]. apply Pg; auto.
    + eexists. split; [reflexivity|]. split; [|exact Ln].
      constructor; cbn [po_log po_best po_feasible po_cut po_imb]; auto; [intros H; destruct (snoc_ne _ _ H)|].
      intros _. split; [apply in_or_app; left; auto|]. split; [exact Pf|]. split; auto. split; auto.
      intros a Ha. apply in_app_or in Ha. destruct Ha as [Ha|[<-|[]]]; [apply Pg; auto|].
      apply andb_false_iff in Ep. split; cbn [fst snd].
      * intros H. apply Fe in H. rewrite H in Ep. destruct Ep as [Ep|Ep]; [destruct (po_feasible p); discriminate|].
        destruct (po_feasible p); [apply Pf; auto|discriminate].
      * intros H. destruct Ep as [Ep|Ep].
        { destruct (po_feasible p); [|discriminate]. assert (K : feasible limit g (fst (po_best p))) by (apply Pf; auto).
          apply H in K. apply Fe in K. rewrite K in Ep. discriminate. }
        rewrite !orb_false_iff in Ep. destruct Ep as [[Ea Eb] Ec]. apply Z.ltb_ge in Eb. split; [lia|].
        intros Eq. rewrite Pc, <- Eq, Z.eqb_refl in Ec. apply Z.ltb_ge in Ec. lia.
Qed.

Lemma contributed_app e l r : contributed e l -> contributed e (l ++ r).
Proof.
  intros (lab0 & bw0 & lab & bw & A & B & C). exists lab0, bw0, lab, bw. split; auto. split; auto. apply in_or_app. auto.
Qed.

Lemma repetition_ok old rep env is p : pinv old p -> (forall i, legal_run (env i)) ->
  exists p', repetition g limit perfect imb cfg rep env is p = Some p' /\ pinv old p' /\
    (exists r, po_log p' = po_log p ++ r) /\
    ((Z.of_nat rep < pl_fixed cfg)%Z \/ pl_adaptive cfg = false -> forall i, In i is -> contributed (env i) (po_log p')).
Proof.
  intros I He. revert p I. induction is as [|i r IH]; intros p I; cbn [repetition].
  - exists p. split; auto. split; auto. split; [exists []; rewrite app_nil_r; auto|]. intros _ i [].
  - destruct (_ || _ || _) eqn:Eg.
    + destruct (run_ok old i (env i) p I (He i)) as (p1 & E1 & I1 & (a & L1) & C1). rewrite E1.
      destruct (IH p1 I1) as (p2 & E2 & I2 & (l & L2) & K2). exists p2. split; auto. split; auto. split.
      * exists ([a] ++ l). rewrite L2, L1, app_assoc. reflexivity.
      * intros H j [<-|Hj]; [|auto]. rewrite L2. apply contributed_app. auto.
    + destruct (IH p I) as (p2 & E2 & I2 & L2 & K2). exists p2. split; auto. split; auto. split; auto.
      intros H. rewrite !orb_false_iff in Eg. destruct Eg as [[A B] C]. apply Z.ltb_ge in A.
      destruct H as [H|H]; [lia|]. rewrite H in B. discriminate.
Qed.

Lemma repetitions_ok old env fuel : (forall r i, legal_run (env r i)) -> forall rep p, pinv old p ->
  exists p', repetitions g limit perfect imb cfg fuel rep env p = Some p' /\ pinv old p' /\
    (exists r, po_log p' = po_log p ++ r) /\
    forall r i, rep <= r < rep + fuel -> i < pl_size cfg -> (Z.of_nat r < pl_fixed cfg)%Z \/ pl_adaptive cfg = false ->
      contributed (env r i) (po_log p').
Proof.
  intros He. induction fuel as [|f IH]; intros rep p I; cbn [repetitions].
  - exists p. split; auto. split; auto. split; [exists []; rewrite app_nil_r; auto|]. intros; lia.
  - destruct (repetition_ok old rep (env rep) (seq 0 (pl_size cfg)) p I (He rep)) as (p1 & E1 & I1 & (l1 & L1) & K1). rewrite E1.
    destruct (IH (S rep) p1 I1) as (p2 & E2 & I2 & (l2 & L2) & K2). exists p2. split; auto. split; auto. split.
    + exists (l1 ++ l2). rewrite L2, L1, app_assoc. reflexivity.
    + intros r i Hr Hi H. destruct (Nat.eq_dec r rep) as [->|Hn]; [|apply K2; auto; lia].
      rewrite L2. apply contributed_app. apply K1; auto. apply in_seq. lia.
Qed.

Lemma pool_ok env old :
  (forall r i, legal_run (env r i)) -> 0 < pl_size cfg -> (1 <= pl_min cfg)%Z ->
  (1 <= pl_fixed cfg)%Z \/ pl_adaptive cfg = false ->
  exists p, pool_bipartition g limit perfect imb emax cfg env old = Some p /\
    bipartition g (fst (po_best p)) (snd (po_best p)) /\ In (po_best p) (po_log p) /\
    (forall a, In a (po_log p) -> bipartition g (fst a) (snd a) /\ at_least_as_good limit imb g (po_best p) a) /\
    forall r i, (Z.of_nat r < num_repetitions cfg)%Z -> i < pl_size cfg ->
      (Z.of_nat r < pl_fixed cfg)%Z \/ pl_adaptive cfg = false -> contributed (env r i) (po_log p).
Proof.
  intros He Hs Hm Hf. unfold pool_bipartition.
  destruct (repetitions_ok old env (Z.to_nat (num_repetitions cfg)) He 0 _ (init_pinv old)) as (p & E & I & _ & L).
  exists p. split; auto.
  assert (L' : forall r i, (Z.of_nat r < num_repetitions cfg)%Z -> i < pl_size cfg ->
      (Z.of_nat r < pl_fixed cfg)%Z \/ pl_adaptive cfg = false -> contributed (env r i) (po_log p)) by (intros; apply L; auto; lia).
  assert (Hne : po_log p <> []).
  { assert (K : contributed (env 0 0) (po_log p)).
    { apply L'; auto; [unfold num_repetitions; lia|destruct Hf; [left; lia|auto]]. }
    destruct K as (? & ? & ? & ? & _ & _ & K). intros H. rewrite H in K. destruct K. }
  destruct (pi_best _ _ I Hne) as (Hin & _ & _ & _ & Hg).
  split; [apply (pi_log _ _ I); auto|]. split; auto. split; auto.
  intros a Ha. split; [apply (pi_log _ _ I); auto|auto].
Qed.

(** A feasible breadth-first result makes the result of the pool feasible. *)
Lemma overload_feasible lab : (overload limit g lab <= 0)%Z <-> feasible limit g lab.
Proof.
  unfold overload, feasible. split.
  - intros H [|[|b]] Hb; lia.
  - intros H. pose proof (H 0 ltac:(lia)). pose proof (H 1 ltac:(lia)). lia.
Qed.

Lemma pool_feasible env old i :
  (forall r i, legal_run (env r i)) -> (1 <= pl_min cfg)%Z ->
  (1 <= pl_fixed cfg)%Z \/ pl_adaptive cfg = false -> i < pl_size cfg ->
  (forall lab bw, flat_bipartition g limit perfect (re_alg (env 0 i)) = Some (lab, bw) -> feasible limit g lab) ->
  exists p, pool_bipartition g limit perfect imb emax cfg env old = Some p /\ feasible limit g (fst (po_best p)).
Proof.
  intros He Hm Hf Hi B.
  destruct (pool_ok env old He ltac:(lia) Hm Hf) as (p & E & _ & _ & G & C). exists p. split; auto.
  destruct (C 0 i ltac:(unfold num_repetitions; lia) Hi ltac:(destruct Hf; [left; lia|auto])) as (lab0 & bw0 & lab & bw & E0 & E1 & Hin).
  apply (G _ Hin). cbn [fst]. apply overload_feasible.
  pose proof (B lab0 bw0 E0) as F0. apply overload_feasible in F0.
  unfold pool_refine in E1. destruct (pl_fm cfg) as [it|]; [|injection E1 as <- <-; auto].
  destruct (flat_bipartition_ok g limit perfect Hcl (re_alg (env 0 i))) as (l0 & b0 & E0' & B0). rewrite E0 in E0'. injection E0' as <- <-.
  destruct (refine_ok g limit perfect Hcl Hund Hnn Hlf it (re_rounds (env 0 i)) (re_abort (env 0 i)) lab0 bw0 B0 (He 0 i))
      as (lab' & bw' & im & E' & _ & O & _).
  rewrite E' in E1. injection E1 as <- <-. lia.
Qed.

Lemma pool_unit_feasible env old i st iters rnd :
  (forall r i, legal_run (env r i)) -> (1 <= pl_min cfg)%Z ->
  (1 <= pl_fixed cfg)%Z \/ pl_adaptive cfg = false ->
  i < pl_size cfg -> re_alg (env 0 i) = ABfs st iters rnd ->
  (forall v, v < gn g -> (0 <= gvw g v <= 1)%Z) -> (0 <= limit 0%nat)%Z -> (0 <= limit 1%nat)%Z ->
  (total_weight g <= limit 0%nat + limit 1%nat)%Z ->
  exists p, pool_bipartition g limit perfect imb emax cfg env old = Some p /\ feasible limit g (fst (po_best p)).
Proof.
  intros He Hm Hf Hi Ha Hw H0 H1 Ht. apply (pool_feasible env old i He Hm Hf Hi). rewrite Ha. intros lab0 bw0 E0.
  pose proof (bfs_balance g limit perfect Hcl 1 st iters rnd lab0 bw0 Hw ltac:(lia) H0 H1 Ht E0) as B.
  intros b Hb. specialize (B b Hb). lia.
Qed.

Lemma pool_random_feasible env old i rnd M :
  (forall r i, legal_run (env r i)) -> (1 <= pl_min cfg)%Z ->
  (1 <= pl_fixed cfg)%Z \/ pl_adaptive cfg = false ->
  i < pl_size cfg -> re_alg (env 0 i) = ARandom rnd ->
  (forall v, v < gn g -> (0 <= gvw g v <= M)%Z) -> (0 <= M)%Z -> (0 <= perfect 0%nat)%Z -> (0 <= perfect 1%nat)%Z ->
  (total_weight g <= perfect 0%nat + perfect 1%nat)%Z -> (forall b, b < 2 -> (M <= 2 * (limit b - perfect b) + 1)%Z) ->
  exists p, pool_bipartition g limit perfect imb emax cfg env old = Some p /\ feasible limit g (fst (po_best p)).
Proof.
  intros He Hm Hf Hi Ha Hw HM H0 H1 Ht Hl. apply (pool_feasible env old i He Hm Hf Hi). rewrite Ha. intros lab0 bw0 E0.
  pose proof (random_balance g limit perfect Hcl M rnd lab0 bw0 Hw HM H0 H1 Ht E0) as B.
  intros b Hb. specialize (B b Hb). specialize (Hl b Hb). lia.
Qed.
End PoolP.

Section PoolNone.
Variable g : graph.
Variables limit perfect : nat -> Z.
Variable imb : list Z -> Z.
Variable emax : Z.
Variable cfg : pool_config.
Hypothesis Ha : pl_adaptive cfg = true.
Hypothesis Hz : pl_fixed cfg = 0%Z.

Lemma none_repetition rep env is p : (forall i, nth i (po_counts p) 0 = 0) ->
  repetition g limit perfect imb cfg rep env is p = Some p.
Proof.
  intros H. induction is as [|i r IH]; cbn [repetition]; auto.
  rewrite Ha, Hz. unfold likely_to_improve. rewrite H. cbn [negb Nat.eqb andb orb].
  destruct (Z.ltb_spec (Z.of_nat rep) 0); [lia|]. cbn [orb]. exact IH.
Qed.

Lemma pool_none env old :
  pool_bipartition g limit perfect imb emax cfg env old = Some (pool_init emax cfg old).
Proof.
  unfold pool_bipartition. generalize 0 as rep. generalize (Z.to_nat (num_repetitions cfg)) as f.
  induction f as [|f IH]; intros rep; cbn [repetitions]; auto.
  rewrite none_repetition; [apply IH|]. intros i. cbn [pool_init po_counts].
  destruct (Nat.lt_ge_cases i (pl_size cfg)); [apply nth_repeat|rewrite nth_overflow; auto; rewrite repeat_length; lia].
Qed.
End PoolNone.
