(* Proofs about Model/VcycleModel.v. *)
From Verif Require Import Lib.Prelude Spec.Induced Spec.Level Spec.ExtendSpec Model.SubgraphModel Model.ExtendModel Model.DeepModel
  Model.VcycleModel Spec.VcycleSpec Proofs.CsrProofs Proofs.DeepProofs Proofs.ExtendCases Proofs.ExtendTop.

(** ** Projection of the communities *)

Lemma project_down_inv (fine cmap : list nat) nc (us : list nat) : forall (init : list nat), length init = nc ->
  (forall u, In u us -> nth u cmap 0 < nc) ->
  (forall u v, In u us -> In v us -> nth u cmap 0 = nth v cmap 0 -> nth u fine 0 = nth v fine 0) ->
  let r := fold_left (fun coarse u => upd (nth u cmap 0) (nth u fine 0) coarse) us init in
  length r = nc /\ forall u, In u us -> nth (nth u cmap 0) r 0 = nth u fine 0.
Proof.
  induction us as [|x us IH] using rev_ind; intros init L B W; cbn zeta.
  - split; [exact L|intros u []].
  - rewrite fold_left_app. cbn [fold_left].
    destruct (IH init L) as (Lr & H).
    { intros u I. apply B. apply in_or_app; left; exact I. }
    { intros u v I J. apply W; apply in_or_app; left; assumption. }
    split; [rewrite upd_length; exact Lr|].
    intros u I. rewrite upd_nth. assert (Hx : nth x cmap 0 < nc) by (apply B; apply in_or_app; right; left; reflexivity).
    destruct (Nat.eqb_spec (nth x cmap 0) (nth u cmap 0)) as [E|N]; cbn [andb].
    + rewrite (proj2 (Nat.ltb_lt _ _)) by (rewrite Lr; exact Hx). apply W; [apply in_or_app; right; left; reflexivity|exact I|exact E].
    + apply in_app_or in I as [I|[<-|[]]]; [exact (H u I)|congruence].
Qed.

Lemma project_down_ok st fine : length (c_map st) = length (c_g st) -> (forall x, In x (c_map st) -> x < c_nc st) ->
  Permutation (c_stores st) (seq 0 (length (c_g st))) ->
  (forall u v, u < length (c_g st) -> v < length (c_g st) -> nth u (c_map st) 0 = nth v (c_map st) 0 -> nth u fine 0 = nth v fine 0) ->
  length (project_down st fine) = c_nc st /\
  forall u, u < length (c_g st) -> nth (nth u (c_map st) 0) (project_down st fine) 0 = nth u fine 0.
Proof.
  intros L B P W. unfold project_down.
  assert (I : forall u, In u (c_stores st) <-> u < length (c_g st)).
  { intros u. split; intros H; [apply (Permutation_in _ P) in H; apply in_seq in H; lia|apply (Permutation_in _ (Permutation_sym P)); apply in_seq; lia]. }
  destruct (project_down_inv fine (c_map st) (c_nc st) (c_stores st) (repeat (c_junk st) (c_nc st))) as (Lr & H).
  - apply repeat_length.
  - intros u Hu. apply I in Hu. apply B, nth_In. lia.
  - intros u v Hu Hv. apply W; apply I; assumption.
  - split; [exact Lr|]. intros u Hu. apply H, I, Hu.
Qed.

Lemma comm_levels_length comm steps : length (comm_levels comm steps) = S (length steps).
Proof. revert comm. induction steps as [|st rest IH]; intros comm; [reflexivity|]. cbn [comm_levels length]. rewrite IH. reflexivity. Qed.

Lemma comm_levels_0 comm steps : nth 0 (comm_levels comm steps) [] = comm.
Proof. destruct steps; reflexivity. Qed.

Lemma comm_levels_step gc : forall steps comm i, steps_ok gc comm steps -> i < length steps ->
  let st := nth i steps (CStep [] [] 0 [] 0) in
  forall u, u < length (c_g st) -> nth u (nth i (comm_levels comm steps) []) 0 = nth (nth u (c_map st) 0) (nth (S i) (comm_levels comm steps) []) 0.
Proof.
  induction steps as [|st rest IH]; intros comm i H Hi; [cbn in Hi; lia|].
  destruct H as (L1 & L2 & L3 & L4 & L5 & L6 & L7 & L8). destruct i as [|i].
  - intros st0 u Hu. change (nth u comm 0 = nth (nth u (c_map st) 0) (nth 0 (comm_levels (project_down st comm) rest) []) 0).
    rewrite comm_levels_0. symmetry. apply (proj2 (project_down_ok st comm L2 L4 L6 L7)). exact Hu.
  - cbn [length] in Hi. exact (IH (project_down st comm) i L8 ltac:(lia)).
Qed.

Lemma comm_levels_len gc : forall steps comm i, steps_ok gc comm steps -> i <= length steps ->
  length (nth i (comm_levels comm steps) []) = length (nth i (map c_g steps) gc).
Proof.
  induction steps as [|st rest IH]; intros comm i H Hi.
  - cbn in Hi. assert (i = 0) by lia. subst. exact H.
  - destruct H as (L1 & L2 & L3 & L4 & L5 & L6 & L7 & L8). destruct i as [|i]; [exact L1|].
    cbn [length] in Hi. exact (IH (project_down st comm) i L8 ltac:(lia)).
Qed.

Lemma nth_in_comm gc : forall steps comm i x, steps_ok gc comm steps -> i <= length steps -> In x (nth i (comm_levels comm steps) []) -> In x comm.
Proof.
  induction steps as [|st rest IH]; intros comm i x H Hi I.
  - cbn in Hi. assert (i = 0) by lia. subst. exact I.
  - destruct H as (L1 & L2 & L3 & L4 & L5 & L6 & L7 & L8). destruct i as [|i]; [exact I|].
    cbn [length] in Hi. assert (J : In x (project_down st comm)) by exact (IH (project_down st comm) i x L8 ltac:(lia) I).
    destruct (project_down_ok st comm L2 L4 L6 L7) as (Lp & Hp). destruct (In_nth _ _ 0 J) as (y & Hy & <-). rewrite Lp in Hy.
    destruct (In_nth _ _ 0 (L5 y Hy)) as (u & Hu & <-). rewrite L2 in Hu. rewrite (Hp u Hu). apply nth_In. lia.
Qed.

(** ** Restricted refinement *)

(** Nodes of one block belong to one community. *)
Definition blocks_in (n : nat) (comm part : list nat) : Prop :=
  forall u v, u < n -> v < n -> nth u part 0 = nth v part 0 -> nth u comm 0 = nth v comm 0.

Lemma lg_adj_lt g u v x : lg_ok g -> u < length g -> In (v, x) (lg_adj g u) -> v < length g.
Proof.
  intros OK Hu I. unfold lg_adj in I. destruct (nth u g (0%Z, [])) as [w adj] eqn:E.
  assert (J : In (w, adj) g) by (rewrite <- E; apply nth_In; exact Hu).
  exact (proj1 (proj2 (OK _ _ J) _ _ I)).
Qed.

Lemma restricted_run_inv g comm part kp h p : lg_ok g -> labelled g kp part -> restricted_run g comm part h p ->
  In p h /\ forall q, In q h -> labelled g kp q /\
    forall u, u < length g -> exists w, w < length g /\ nth w part 0 = nth u q 0 /\ nth w comm 0 = nth u comm 0.
Proof.
  intros OK LP R. induction R as [|h p u v x q R IH Hu A C Iq].
  - split; [left; reflexivity|]. intros q [<-|[]]. split; [exact LP|]. intros u Hu. exists u. auto.
  - destruct IH as (Ip & H). split; [left; reflexivity|]. intros q' [<-|I]; [|exact (H _ I)].
    destruct (H _ Ip) as ((L & B) & W). destruct (H _ Iq) as ((Lq & Bq) & Wq). pose proof (lg_adj_lt g u v x OK Hu A) as Hv.
    split.
    + split; [rewrite upd_length; exact L|]. intros y Iy. destruct (In_nth _ _ 0 Iy) as (z & Hz & <-). rewrite upd_length in Hz.
      rewrite upd_nth. destruct (_ && _); [apply Bq, nth_In; lia|apply B, nth_In; exact Hz].
    + intros z Hz. rewrite upd_nth. destruct (Nat.eqb_spec u z) as [<-|N]; cbn [andb].
      * rewrite (proj2 (Nat.ltb_lt _ _)) by lia. destruct (Wq v Hv) as (w & W1 & W2 & W3). exists w. split; [exact W1|]. split; [exact W2|congruence].
      * exact (W z Hz).
Qed.

Lemma restricted_run_ok g comm part kp h p : lg_ok g -> labelled g kp part -> blocks_in (length g) comm part ->
  restricted_run g comm part h p -> labelled g kp p /\ blocks_in (length g) comm p.
Proof.
  intros OK LP BI R. destruct (restricted_run_inv g comm part kp h p OK LP R) as (I & H). destruct (H _ I) as (L & W).
  split; [exact L|]. intros u v Hu Hv E. destruct (W u Hu) as (x & X1 & X2 & X3). destruct (W v Hv) as (y & Y1 & Y2 & Y3).
  rewrite <- X3, <- Y3. apply BI; [exact X1|exact Y1|congruence].
Qed.

(** ** Uncoarsening with an invariant per level *)

Lemma level_pow k kp d : level_ok kp k -> d <= k -> kp < d -> exists l, kp = 2 ^ l.
Proof. intros (_ & _ & [H|H]) Hd Hlt; auto. lia. Qed.

Section Levels.
Context {M : Type}.
Variables (ext : nat -> lgraph -> M -> list nat -> nat -> nat -> option (M * list nat))
          (refine : nat -> nat -> lgraph -> nat -> list nat -> list nat) (c k : nat) (refine_after : bool).
Variables (J : lgraph -> M -> Prop) (next : lgraph -> lgraph -> Prop).
Variables (glv : nat -> lgraph) (top : nat) (Inv : nat -> nat -> list nat -> Prop).
Hypothesis Hk2 : 2 <= k.
Hypothesis Hk31 : (N.of_nat k < 2 ^ 31)%N.
Hypothesis Hc : 1 <= c.
Hypothesis Hnext : forall g g' mem, next g g' -> J g mem -> J g' mem.
Hypothesis Hrefine : forall lvl ph kp part, lvl <= top -> lg_ok (glv lvl) -> labelled (glv lvl) kp part -> Inv lvl kp part ->
  labelled (glv lvl) kp (refine lvl ph (glv lvl) kp part) /\ Inv lvl kp (refine lvl ph (glv lvl) kp part).
Hypothesis Hinv : forall lvl kp d part part', lvl <= top -> labelled (glv lvl) kp part -> Inv lvl kp part -> kp < d -> refines part part' d -> Inv lvl d part'.
Hypothesis Hext : ext_ok ext k J (fun _ => True).

Fixpoint numbered (lvs : list level) : Prop :=
  match lvs with
  | [] => True
  | lv :: rest => lv_g lv = glv (length rest) /\
      (forall kp part p, labelled (glv (S (length rest))) kp part -> Inv (S (length rest)) kp part ->
         length p = length (lv_map lv) -> (forall u, u < length (lv_map lv) -> nth u p 0 = nth (nth u (lv_map lv) 0) part 0) ->
         Inv (length rest) kp p) /\ numbered rest
  end.

Lemma loop_inv : forall lvs st, length lvs <= top -> levels_ok c next (glv (length lvs)) lvs -> numbered lvs ->
  st_ok k J (glv (length lvs)) st -> (let '(_, _, part, kp, _, _) := st in Inv (length lvs) kp part) ->
  exists st', uncoarsen_loop ext refine c k refine_after lvs st = Some st' /\ st_ok k J (glv 0) st' /\
    (let '(_, _, part, kp, _, _) := st' in Inv 0 kp part).
Proof using All.
  induction lvs as [|lv rest IH]; intros st Ht Hl Hn Hst Hi.
  - exists st. auto.
  - destruct Hl as (L1 & L2 & L3 & L4 & L5 & L6). destruct Hn as (Eg & Hproj & Hn). cbn [uncoarsen_loop length] in *.
    destruct st as [[[[[g' mem] part] kp] rf] tr]. destruct Hst as (-> & S1 & S2 & S3 & S4 & S5).
    unfold uncoarsen_step.
    destruct (project_ok ext (fun _ _ _ _ p => p) c k J next Hk2 Hk31 Hc Hnext (fun _ _ _ _ _ H => H) (glv (S (length rest))) part (lv_map lv) kp S3 L4) as (p1 & E1 & P1 & P2 & P3). rewrite E1.
    pose proof (Hproj kp part p1 S3 Hi P1 P3) as I1. rewrite Eg in *.
    assert (Lab1 : labelled (glv (length rest)) kp p1) by (split; [congruence|auto]).
    destruct (Hrefine (length rest) 0 kp p1 ltac:(lia) L1 Lab1 I1) as (Lab2 & I2). set (p2 := refine (length rest) 0 (glv (length rest)) kp p1) in *.
    destruct (k_for_n_ok (length (glv (length rest))) c k Hk2 Hk31 Hc L2) as (d & Ed & D1 & D2 & D3). rewrite Ed.
    assert (Jn : J (glv (length rest)) mem) by (eapply Hnext; eauto).
    destruct (Nat.ltb_spec kp d) as [Hlt|Hge].
    + destruct D2 as (D21 & D22 & D23). destruct (level_pow k kp d S4 D22 Hlt) as (l & ->).
      destruct (Hext (length rest) (glv (length rest)) mem p2 l d) as (m' & p3 & Ee & Jm & Rf); auto; try lia.
      { split; auto. }
      rewrite Ee.
      pose proof Rf as (R1 & R2 & _).
      assert (I3 : Inv (length rest) d p3) by (apply (Hinv (length rest) (2 ^ l) d p2 p3); auto; lia).
      assert (Lab3 : labelled (glv (length rest)) d p3) by (split; [destruct Lab2; congruence|auto]).
      assert (LD : level_ok d k) by (split; auto).
      destruct (Hrefine (length rest) 1 d p3 ltac:(lia) L1 Lab3 I3) as (Lab4 & I4).
      apply IH; auto; [lia| |].
      * split; [reflexivity|]. split; [exact L1|]. split; [exact Jm|]. split; [|split; [exact LD|]].
        -- destruct refine_after; assumption.
        -- intros x [<-|Hx]; auto.
      * destruct refine_after; assumption.
    + apply IH; auto; [lia|].
      split; [reflexivity|]. split; [exact L1|]. split; [exact Jn|]. split; [exact Lab2|]. split; [exact S4|exact S5].
Qed.

Lemma uncoarsen_inv lvs mem part kp : length lvs = top -> levels_ok c next (glv top) lvs -> numbered lvs -> lg_ok (glv top) -> J (glv top) mem ->
  labelled (glv top) kp part -> level_ok kp k -> Inv top kp part ->
  exists mem' part' tr, uncoarsen ext refine c k refine_after lvs (glv top) mem part kp = Some (glv 0, mem', part', k, true, tr) /\
    labelled (glv 0) k part' /\ Inv 0 k part' /\ forall x, In x tr -> level_ok x k.
Proof using All.
  intros Lt Hl Hn Hok Hj Hlab Hlv Hi.
  destruct (loop_inv lvs (glv top, mem, part, kp, false, [kp])) as (st' & E & S' & I'); rewrite ?Lt; auto.
  { split; [reflexivity|]. split; [exact Hok|]. split; [exact Hj|]. split; [exact Hlab|]. split; [exact Hlv|].
    intros x [<-|[]]; auto. }
  unfold uncoarsen. rewrite E. destruct st' as [[[[[g' m'] p'] kp'] rf] tr]. destruct S' as (-> & S1 & S2 & S3 & S4 & S5).
  destruct (Hrefine 0 2 kp' p' ltac:(lia) S1 S3 I') as (A1 & A2).
  set (p1 := if rf then p' else refine 0 2 (glv 0) kp' p').
  assert (Lab1 : labelled (glv 0) kp' p1) by (unfold p1; destruct rf; assumption).
  assert (I1 : Inv 0 kp' p1) by (unfold p1; destruct rf; assumption).
  destruct (Nat.ltb_spec kp' k) as [Hlt|Hge].
  - destruct (level_pow k kp' k S4 (le_n k) Hlt) as (l & ->).
    assert (LK : level_ok k k) by (split; [lia|split; [lia|right; auto]]).
    destruct (Hext 0 (glv 0) m' p1 l k) as (m2 & p2 & Ee & Jm & Rf); auto; try lia.
    rewrite Ee. pose proof Rf as (R1 & R2 & _).
    assert (I2 : Inv 0 k p2) by (apply (Hinv 0 (2 ^ l) k p1 p2); auto; lia).
    assert (Lab2 : labelled (glv 0) k p2) by (split; [destruct Lab1; congruence|auto]).
    destruct (Hrefine 0 3 k p2 ltac:(lia) S1 Lab2 I2) as (A3 & A4).
    do 3 eexists. split; [reflexivity|]. split; [exact A3|]. split; [exact A4|]. intros x [<-|Hx]; auto.
  - assert (kp' = k) by (destruct S4 as (_ & H & _); lia). subst kp'.
    do 3 eexists. split; [reflexivity|]. auto.
Qed.
End Levels.

(** ** The v-cycle *)

Lemma firstn_snoc {A} (d : A) : forall (l : list A) j, j < length l -> firstn (S j) l = firstn j l ++ [nth j l d].
Proof.
  induction l as [|x l IH]; intros j H; [cbn in H; lia|]. destruct j as [|j]; [reflexivity|].
  cbn [length] in H. change (firstn (S (S j)) (x :: l)) with (x :: firstn (S j) l). rewrite IH by lia. reflexivity.
Qed.

Lemma last_comm comm steps : last (comm_levels comm steps) [] = nth (length steps) (comm_levels comm steps) [].
Proof.
  revert comm. induction steps as [|st rest IH]; intros comm; [reflexivity|].
  cbn [comm_levels length]. rewrite last_cons. cbn [nth]. rewrite <- (IH (project_down st comm)).
  destruct rest; cbn [comm_levels]; [reflexivity|rewrite !last_cons; reflexivity].
Qed.

Theorem vcycle_ok ub k factor threads last_lvl nthreads choices tid inner ck c refine_after steps gc mems comm :
  2 <= k -> (N.of_nat k < 2 ^ 31)%N -> 1 <= c -> (factor = 0 \/ exists j, 1 <= j /\ factor = 2 ^ j) ->
  (forall lvl g kp, choice_ok g kp (choices lvl g kp)) -> (forall b, tid b < nthreads) -> length mems = nthreads ->
  (forall m, In m mems -> lazy_mem_ok (lg_is_nw gc) (lg_is_ew gc) m) ->
  lg_ok gc -> levels_ok c weights_carry gc (rev (map level_of steps)) ->
  steps_ok gc comm steps -> restricted steps gc comm inner -> level_ok ck k -> (forall x, In x comm -> x < ck) ->
  exists mems' part tr,
    vcycle (ext_lazy ub k factor threads last_lvl nthreads choices tid) inner ck c k refine_after steps gc mems comm =
      Some (nth 0 (map c_g steps) gc, mems', part, k, true, tr) /\
    refines comm part k /\ (ck = k -> part = comm).
Proof.
  intros Hk2 Hk31 Hc Hf Hch Ht Lm Hm Hok Hl Hs Hr Hlv Hck.
  set (glv := fun i => nth i (map c_g steps) gc). set (cm := fun i => nth i (comm_levels comm steps) []).
  set (Inv := fun lvl kp part => blocks_in (length (glv lvl)) (cm lvl) part /\ (kp = ck -> part = cm lvl) /\ ck <= kp).
  assert (Gt : glv (length steps) = gc) by (unfold glv; apply nth_overflow; rewrite map_length; lia).
  assert (Lr : length (rev (map level_of steps)) = length steps) by (rewrite rev_length, map_length; reflexivity).
  assert (CL : forall i, i <= length steps -> length (cm i) = length (glv i)) by (intros i Hi; apply (comm_levels_len gc steps comm i Hs Hi)).
  destruct (uncoarsen_inv (ext_lazy ub k factor threads last_lvl nthreads choices tid) (vrefine ck inner) c k refine_after
     (fun g ms => length ms = nthreads /\ forall m, In m ms -> lazy_mem_ok (lg_is_nw g) (lg_is_ew g) m) weights_carry glv (length steps) Inv
     Hk2 Hk31 Hc) with (lvs := rev (map level_of steps)) (mem := mems) (part := cm (length steps)) (kp := ck)
     as (mems' & part & tr & E & LP & (I1 & I2 & I3) & _).
  - intros g1 g2 ms (W1 & W2) (L & H). split; auto. intros m Hin. destruct (H m Hin) as (A & B). split; auto.
  - intros lvl ph kp part Hlvl OKg Lab (B & Eq & Ge). unfold vrefine. destruct (Nat.eqb_spec kp ck) as [Ek|Nk]; [split; [exact Lab|split; [exact B|split; [exact Eq|exact Ge]]]|].
    destruct (Hr lvl ph kp part Hlvl Lab) as (h & R).
    destruct (restricted_run_ok _ _ _ kp _ _ OKg Lab B R) as (L' & B'). split; [exact L'|]. split; [exact B'|]. split; [congruence|exact Ge].
  - intros lvl kp d part part' Hlvl (Lp & _) (B & Eq & Ge) Hlt (R1 & R2 & R3). split; [|split; [lia|lia]].
    intros u v Hu Hv Euv. apply B; auto. apply R3; [lia|lia|exact Euv].
  - intros lvl g1 ms p l desired _ Hok1 (L & H) (Lp & Bp) Hle Hd. unfold ext_lazy.
    destruct (extend_lazy_partition_ok ub g1 k factor threads (choices lvl g1) tid ms p l desired) as (ms' & p' & E & L' & H' & R); auto.
    { intros b. rewrite L. auto. }
    rewrite E. do 2 eexists. split; [reflexivity|]. split; auto.
    destruct (lvl =? last_lvl); [|split; [congruence|auto]].
    split; [apply repeat_length|]. intros m Hin. apply repeat_spec in Hin. subst m. split; intros _; cbn; lia.
  - exact Lr.
  - rewrite Gt. exact Hl.
  - (* numbered *)
    rewrite <- (firstn_all steps).
    assert (A : forall j, j <= length steps -> numbered glv Inv (rev (map level_of (firstn j steps)))).
    { induction j as [|j IH]; intros Hj; [exact I|].
      rewrite (firstn_snoc (CStep [] [] 0 [] 0) steps j) by lia. rewrite map_app, rev_app_distr. cbn [rev app map numbered].
      assert (Lj : length (rev (map level_of (firstn j steps))) = j) by (rewrite rev_length, map_length, firstn_length; lia).
      rewrite Lj. set (st := nth j steps (CStep [] [] 0 [] 0)).
      assert (Ej : glv j = c_g st).
      { unfold glv, st. rewrite (nth_indep _ gc (c_g (CStep [] [] 0 [] 0))) by (rewrite map_length; lia). apply map_nth. }
      assert (Lmap : length (c_map st) = length (c_g st)).
      { clear - Hs Hj. unfold st. clear st. revert comm j Hs Hj. induction steps as [|s0 rest IH]; intros comm j Hs Hj; [cbn in Hj; lia|].
        destruct Hs as (_ & L2 & _ & _ & _ & _ & _ & L8). destruct j as [|j]; [exact L2|]. cbn [nth length] in *. apply (IH _ j L8). lia. }
      split; [symmetry; exact Ej|]. split; [|apply IH; lia].
      intros kp part p (Lpart & _) (B & Eq & Ge) Lp Hp. cbn [level_of lv_map] in *.
      assert (Hstep : forall u, u < length (c_g st) -> nth u (cm j) 0 = nth (nth u (c_map st) 0) (cm (S j)) 0).
      { intros u Hu. exact (comm_levels_step gc steps comm j Hs ltac:(lia) u Hu). }
      split; [|split; [|exact Ge]].
      + rewrite Ej. intros u v Hu Hv Euv. rewrite (Hstep u Hu), (Hstep v Hv). rewrite !Hp in Euv by lia.
        assert (Bd : forall w, w < length (c_g st) -> nth w (c_map st) 0 < length (glv (S j))).
        { intros w Hw. clear - Hs Hj Hw Lmap. unfold st, glv in *. clear st.
          revert comm j Hs Hj Hw Lmap. induction steps as [|s0 rest IH]; intros comm j Hs Hj Hw Lmap; [cbn in Hj; lia|].
          destruct Hs as (_ & L2 & L3 & L4 & _ & _ & _ & L8). destruct j as [|j].
          - cbn [nth map] in *. assert (Q : w < length (c_map s0)) by (rewrite L2; exact Hw). specialize (L4 (nth w (c_map s0) 0) (nth_In _ 0 Q)). rewrite L3 in L4.
            destruct rest; cbn [map nth]; exact L4.
          - cbn [nth map length] in *. apply (IH _ j L8); [lia|exact Hw|exact Lmap]. }
        apply B; [apply Bd; exact Hu|apply Bd; exact Hv|exact Euv].
      + intros Ek. apply (list_ext 0); [rewrite Lp, Lmap, <- Ej; symmetry; apply CL; lia|].
        intros u Hu. rewrite Hp by lia. rewrite (Eq Ek). symmetry. apply Hstep. lia. }
    apply A. lia.
  - rewrite Gt. exact Hok.
  - rewrite Gt. split; [exact Lm|exact Hm].
  - split; [apply CL; lia|]. intros x Ix. apply Hck. exact (nth_in_comm gc steps comm (length steps) x Hs (le_n _) Ix).
  - exact Hlv.
  - split; [intros u v _ _ Euv; exact Euv|]. split; [reflexivity|lia].
  - exists mems', part, tr. unfold vcycle. rewrite last_comm. fold (cm (length steps)). rewrite <- Gt at 1. split; [exact E|].
    assert (C0 : cm 0 = comm) by apply comm_levels_0. rewrite C0 in *.
    assert (Lc : length comm = length (glv 0)) by (rewrite <- C0; apply CL; lia).
    destruct LP as (Lp & Bp). split; [|intros Ek; apply I2; congruence].
    split; [congruence|]. split; [exact Bp|]. intros u v Hu Hv. apply I1; lia.
Qed.

Lemma refines_trans p q r kq kr : refines p q kq -> refines q r kr -> refines p r kr.
Proof.
  intros (A1 & A2 & A3) (B1 & B2 & B3). split; [congruence|]. split; [exact B2|]. intros u v Hu Hv E. apply A3; auto. apply B3; [lia|lia|exact E].
Qed.

Theorem vcycles_ok c g refine_after cycles : 1 <= c -> forall ck comm, labelled g ck comm -> cycles_ok c g cycles ck ->
  exists part, vcycles c refine_after cycles comm ck = Some (part, last (map cy_k cycles) ck) /\ refines comm part (last (map cy_k cycles) ck).
Proof.
  intros Hc. induction cycles as [|cy rest IH]; intros ck comm Lab H.
  - exists comm. split; [reflexivity|]. destruct Lab as (L & B). split; [reflexivity|]. split; [exact B|auto].
  - destruct H as (H2 & H31 & Hlv & (ub & factor & threads & last_lvl & nthreads & choices & tid & Ee & Hf & Hch & Ht & Lm) & Hall & Hrest).
    destruct (Hall comm Lab) as (Hm & Hok & Hl & Hg & Hs & Hr). destruct Lab as (L & B).
    destruct (vcycle_ok ub (cy_k cy) factor threads last_lvl nthreads choices tid (cy_inner cy comm) ck c refine_after (cy_steps cy comm)
                (cy_gc cy comm) (cy_mem cy comm) comm H2 H31 Hc Hf Hch Ht (Lm comm) Hm Hok Hl Hs Hr Hlv B) as (mems' & part & tr & E & R & _).
    cbn [vcycles]. rewrite Ee, E.
    destruct (IH (cy_k cy) part) as (part' & E' & R'); [destruct R as (R1 & R2 & _); split; [congruence|exact R2]|exact Hrest|].
    assert (El : last (map cy_k (cy :: rest)) ck = last (map cy_k rest) (cy_k cy)) by (cbn [map]; apply last_cons).
    exists part'. rewrite El. split; [exact E'|]. exact (refines_trans _ _ _ _ _ R R').
Qed.
