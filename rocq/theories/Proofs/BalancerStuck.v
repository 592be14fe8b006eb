(* The balancer never returns if no node of an overloaded block fits into another block. *)
From Verif Require Import Lib.Prelude Spec.Graph Model.BlockWeightModel Model.BalancerModel Proofs.BlockWeightProofs Proofs.FmRoundProofs Proofs.BalancerProofs Proofs.BalancerTop.
Local Open Scope Z_scope.

Section A.
Variable g : graph.
Variable lim : nat -> Z.
Lemma add_nonempty b u gt s s' : (b < length (b_pq s))%nat -> add_to_pq g lim b u gt s = Some s' ->
  nth b (b_pq s') [] <> [] /\ (forall b', b' <> b -> nth b' (b_pq s') [] = nth b' (b_pq s) []) /\ b_mem s' = b_mem s /\ b_started s' = b_started s /\ b_thr s' = b_thr s /\
  length (b_pq s') = length (b_pq s).
Proof.
  intros Hb. unfold add_to_pq. destruct (in_list u _) eqn:Ei; [discriminate|]. apply in_list_false in Ei. cbv zeta.
  set (gt' := match gt with Some v => _ | None => None end).
  assert (Hgt : forall v, gt' = Some v -> v <> u).
  { intros v E. unfold gt' in E. destruct gt as [x|]; [|discriminate]. destruct (in_list x _) eqn:Ex; [|discriminate]. injection E as <-. apply in_list_spec in Ex.
    intros ->. apply Ei. apply in_concat_nth. exists b. auto. }
  clearbody gt'. assert (NE : forall q, In u q -> q <> []) by (intros q Hq ->; destruct Hq).
  assert (HU : In u (nth b (b_pq s) [] ++ [u])) by (apply in_app_iff; right; left; auto).
  destruct (_ || _ || _) eqn:E0.
  - destruct gt' as [v|]; [destruct (_ <=? _)|]; intros E; injection E as <-; cbn [set_pq b_pq b_mem b_started b_thr];
      (split; [rewrite upd_nth_same by auto; apply NE; auto|split; [intros b' Hb'; apply upd_nth_other; auto|rewrite ?upd_length; auto]]).
    apply in_in_remove; auto. intros ->. apply (Hgt v); auto.
  - intros E; injection E as <-. split; [|auto 10]. apply orb_false_iff in E0. destruct E0 as [E0 _]. apply orb_false_iff in E0. destruct E0 as [_ E0].
    intros C. rewrite C in E0. discriminate.
Qed.
Lemma merge_nonempty order a : forall s s', (a < length (b_pq s))%nat -> (forall u, In u (map fst order) -> (nth u (m_label (b_mem s)) 0 < length (b_pq s))%nat) ->
  (nth a (b_pq s) [] <> [] \/ exists u, In u (map fst order) /\ nth u (m_label (b_mem s)) 0%nat = a) ->
  merge_pqs g lim order s = Some s' -> nth a (b_pq s') [] <> [].
Proof.
  induction order as [|[u gt] order IH]; intros s s' Ha HL HE; cbn [merge_pqs].
  - intros E; injection E as <-. destruct HE as [|(u & [] & _)]; auto.
  - destruct (add_to_pq _ _ _ u gt s) as [s1|] eqn:E1; [|discriminate].
    destruct (add_nonempty _ _ _ _ _ (HL u (or_introl eq_refl)) E1) as (A1 & A2 & A3 & A4 & A5 & A6). apply IH; [lia| |].
    + intros v Hv. rewrite A3, A6. apply HL. right; auto.
    + rewrite A3. destruct (Nat.eq_dec a (nth u (m_label (b_mem s)) 0%nat)) as [->|Hne]; [left; auto|].
      rewrite A2 by auto. destruct HE as [HE|(v & Hv & Ev)]; [left; auto|]. cbn [map fst In] in Hv. destruct Hv as [<-|Hv]; [congruence|]. right. exists v; auto.
Qed.
End A.

Section B.
Variable g : graph.
Variable k : nat.
Variables (lim perf : nat -> Z).
Notation n := (gn g).
Notation vw := (gvw g).
Notation label s u := (nth u (m_label (b_mem s)) 0%nat).
Notation b_step := (b_step g k lim perf).
Notation b_run := (b_run g k lim perf).
Hypothesis Hcl : closed_graph g.
Hypothesis Hvw : forall u, (u < n)%nat -> 0 <= vw u.
Variable m : mem.
Variable a : nat.
Hypothesis Ha : (a < k)%nat.
Hypothesis Hov : 0 < overload lim m a.
Hypothesis Hfit : forall u to, (u < n)%nat -> 0 < overload lim m (nth u (m_label m) 0%nat) -> (to < k)%nat -> to <> nth u (m_label m) 0%nat -> lim to < wt m to + vw u.
Notation INV := (INV g k lim (overload lim m) (m_label m)).

Definition stuck_ph (s : bal) (p : ph) : Prop :=
  match p with
  | TIdle => True
  | TFeas from _ _ | TLoop from _ => from = a -> nth a (b_pq s) [] <> []
  | TMove _ _ u p _ => match p with MLoad _ _ _ _ => True | MTest _ _ to mx nw => mx < nw + vw u | _ => False end
  | TAdj _ _ _ | TAddN _ _ _ _ => False
  | _ => True
  end.
Definition ST (s : bal) : Prop :=
  b_mem s = m /\ (nth a (b_started s) true = false -> nth a (b_pq s) [] <> []) /\
  (nth a (b_started s) true = true -> exists t th, nth_error (b_thr s) t = Some th /\ ph_from (t_ph th) = Some a) /\
  (forall t th, nth_error (b_thr s) t = Some th -> stuck_ph s (t_ph th)).
Lemma st_upd s s' t th th' : INV s -> ST s -> nth_error (b_thr s) t = Some th -> b_mem s' = m -> b_thr s' = upd t th' (b_thr s) -> b_started s' = b_started s ->
  (ph_from (t_ph th') = ph_from (t_ph th)) -> (ph_from (t_ph th) <> Some a -> nth a (b_pq s') [] = nth a (b_pq s) []) -> stuck_ph s' (t_ph th') -> ST s'.
Proof.
  intros HI (S1 & S2 & S3 & S4) Ht E1 E2 E3 Hp Hq Hs. assert (Hlt : (t < length (b_thr s))%nat) by (apply nth_error_Some; congruence).
  assert (DEC : ph_from (t_ph th) = Some a \/ ph_from (t_ph th) <> Some a).
  { destruct (ph_from (t_ph th)) as [f|]; [destruct (Nat.eq_dec f a) as [->|]; [auto|right; congruence]|right; discriminate]. }
  split; auto. rewrite E2, E3. split; [|split].
  - intros Hst. destruct DEC as [C|C]; [|rewrite Hq by auto; apply S2; auto]. exfalso.
    destruct HI as (_ & TI & _). pose proof (TI t th Ht) as (_ & H). unfold base in H. destruct (t_ph th); cbn [ph_from] in C; try discriminate; injection C as ->; intuition congruence.
  - intros Hst. destruct (S3 Hst) as (t1 & th1 & A1 & A2). destruct (Nat.eq_dec t1 t) as [->|Hne].
    + rewrite Ht in A1. injection A1 as <-. exists t, th'. rewrite ne_upd, Nat.eqb_refl by auto. split; auto. congruence.
    + exists t1, th1. rewrite ne_upd by auto. destruct (Nat.eqb_spec t1 t); [contradiction|]. auto.
  - intros t1 th1 E. rewrite ne_upd in E by auto. destruct (Nat.eqb_spec t1 t) as [->|Hne]; [injection E as <-; auto|]. pose proof (S4 t1 th1 E) as H.
    destruct DEC as [C|C].
    + destruct HI as (_ & _ & D & _). destruct (t_ph th1) eqn:Ep1; cbn [stuck_ph] in *; auto; intros ->; exfalso; apply Hne; eapply (D t1 th1 t th a); eauto; rewrite Ep1; reflexivity.
    + destruct (t_ph th1); cbn [stuck_ph] in *; auto; intros; rewrite Hq by auto; auto.
Qed.
Ltac loc HI HS Ht S1 Ep := eapply st_upd; [exact HI|exact HS|exact Ht|cbn [go set_thr b_mem]; exact S1|reflexivity|reflexivity|rewrite Ep; reflexivity|reflexivity|].
Lemma stuck_step e s s' : INV s -> ST s -> b_step e s = Some s' -> ST s'.
Proof.
  intros HI HS. destruct e as [t ac]. unfold BalancerModel.b_step. destruct (nth_error (b_thr s) t) as [th|] eqn:Ht; [|intros E; injection E as <-; auto].
  assert (HI' := HI). destruct HI' as (G & TI & D & O). pose proof (TI t th Ht) as (HFe & HT').
  destruct G as ((L1 & L2 & L3 & L4 & L5 & L6) & G1 & G2 & G3). assert (HS' := HS). destruct HS' as (S1 & S2 & S3 & S4). pose proof (S4 t th Ht) as HP.
  assert (Hlt : (t < length (b_thr s))%nat) by (apply nth_error_Some; congruence).
  destruct (t_ph th) eqn:Ep, ac; cbn [stuck_ph] in HP; try (intros E; injection E as <-; exact HS); try contradiction.
  - (* task *) destruct (Nat.ltb_spec from k) as [Hk|]; [|intros E; injection E as <-; auto].
    destruct (nth from (b_started s) true) eqn:Es; cbn [andb negb]; intros E; injection E as <-; auto.
    set (p := if _ : bool then _ else _). assert (Hp : ph_from p = Some from) by (unfold p; destruct (_ && _); reflexivity).
    split; [exact S1|]. cbn [b_started b_pq b_thr]. split; [|split].
    + intros Hst. apply S2. destruct (Nat.eq_dec a from) as [->|]; [auto|rewrite upd_nth_other in Hst by auto; auto].
    + intros Hst. destruct (Nat.eq_dec a from) as [->|Hne].
      * exists t. eexists. rewrite ne_upd, Nat.eqb_refl by auto. split; [reflexivity|exact Hp].
      * rewrite upd_nth_other in Hst by auto. destruct (S3 Hst) as (t1 & th1 & A1 & A2). exists t1, th1. rewrite ne_upd by auto.
        destruct (Nat.eqb_spec t1 t) as [->|]; [|auto]. rewrite Ht in A1. injection A1 as <-. rewrite Ep in A2. discriminate.
    + intros t1 th1 E. rewrite ne_upd in E by auto. destruct (Nat.eqb_spec t1 t) as [->|Hne].
      * injection E as <-. cbn [t_ph]. unfold p. destruct (_ && _); cbn [stuck_ph b_pq]; intros ->; apply S2; auto.
      * exact (S4 t1 th1 E).
  - destruct (_ <? _)%nat; intros E; injection E as <-; loc HI HS Ht S1 Ep; exact HP.
  - (* loop end *) destruct HT' as (B1 & B2 & B3 & B4 & B5). destruct (Z.ltb_spec 0 over) as [Ho|Ho]; cbn [andb].
    + destruct (length (nth from (b_pq s) [])) eqn:El; cbn [Nat.eqb negb]; intros E; injection E as <-; auto.
      assert (Hne : from <> a) by (intros ->; apply HP; auto; apply length_zero_iff_nil; auto).
      split; [exact S1|]. cbn [go set_thr b_started b_pq b_thr]. split; [auto|]. split.
      * intros Hst. destruct (S3 Hst) as (t1 & th1 & A1 & A2). exists t1, th1. rewrite ne_upd by auto. destruct (Nat.eqb_spec t1 t) as [->|]; [|auto].
        rewrite Ht in A1. injection A1 as <-. rewrite Ep in A2. cbn [ph_from] in A2. congruence.
      * intros t1 th1 E. rewrite ne_upd in E by auto. destruct (Nat.eqb_spec t1 t) as [->|]; [injection E as <-; exact I|exact (S4 t1 th1 E)].
    + intros E; injection E as <-. assert (Hne : from <> a) by (intros ->; rewrite S1 in B4; lia).
      split; [exact S1|]. cbn [go set_thr b_started b_pq b_thr]. split; [auto|]. split.
      * intros Hst. destruct (S3 Hst) as (t1 & th1 & A1 & A2). exists t1, th1. rewrite ne_upd by auto. destruct (Nat.eqb_spec t1 t) as [->|]; [|auto].
        rewrite Ht in A1. injection A1 as <-. rewrite Ep in A2. cbn [ph_from] in A2. congruence.
      * intros t1 th1 E. rewrite ne_upd in E by auto. destruct (Nat.eqb_spec t1 t) as [->|]; [injection E as <-; exact I|exact (S4 t1 th1 E)].
  - (* pop *) destruct (_ && _); intros E; injection E as <-; auto.
    eapply st_upd; [exact HI|exact HS|exact Ht|exact S1|reflexivity|reflexivity|rewrite Ep; reflexivity| |exact I].
    rewrite Ep. cbn [ph_from go set_thr set_pq b_pq]. intros H. apply upd_nth_other. congruence.
  - destruct fresh; [destruct (_ =? _)%nat; [|destruct (_ <? _)%nat]|]; intros E; injection E as <-; auto; loc HI HS Ht S1 Ep; exact I.
  - destruct (t_feas th) as [|f0 fr]; [intros E; injection E as <-; loc HI HS Ht S1 Ep; exact I|].
    destruct (nth_error _ i); intros E; injection E as <-; auto. loc HI HS Ht S1 Ep. exact I.
  - (* move *) destruct HT' as (HB & HC & HM). destruct HC as (C1 & C2 & C3 & C4 & C5). destruct HB as (B1 & B2 & B3 & B4 & B5).
    pose proof (Hvw u C2) as Hvu.
    destruct p as [|u' f to mx|u' f to mx nw|u' f to mx nw|u' f to|u' f to|u' f to|u' f to|u' f to mx|u' f to]; cbn [movep] in HM; try contradiction; cbn [thread_step pendov] in *.
    + destruct HM as (-> & -> & M1 & ->). intros E; injection E as <-. loc HI HS Ht S1 Ep. cbn [t_ph stuck_ph]. rewrite S1 in *.
      destruct (Nat.eq_dec to from) as [->|Hne]; [unfold overload, wt in B4; lia|].
      pose proof (Hfit u to C2) as HF. rewrite C3 in HF. unfold wt in HF. apply HF; auto. lia.
    + destruct HM as ((-> & -> & M1 & ->) & M2). destruct (Z.leb_spec (nw + vw u) (lim to)) as [Hle|Hgt]; [lia|].
      destruct rnd; intros E; injection E as <-; loc HI HS Ht S1 Ep; exact I.
  - (* add *) destruct HT' as (HB & HC). assert (Hk : (from < k)%nat) by apply HB. destruct (add_to_pq g lim from u gt s) as [s1|] eqn:Ea; [|discriminate].
    intros E; injection E as <-. destruct (add_nonempty g lim from u gt s s1 ltac:(lia) Ea) as (A1 & A2 & A3 & A4 & A5 & A6).
    eapply st_upd; [exact HI|exact HS|exact Ht|cbn [go set_thr b_mem]; congruence|cbn [go set_thr b_thr]; rewrite A5; reflexivity|exact A4|rewrite Ep; reflexivity| |].
    + rewrite Ep. cbn [ph_from go set_thr b_pq]. intros H. apply A2. congruence.
    + cbn [t_ph stuck_ph go set_thr b_pq]. intros <-. exact A1.
Qed.
Lemma stuck_run es : forall s s', INV s -> ST s -> b_run es s = Some s' -> INV s' /\ ST s'.
Proof.
  induction es as [|e es IH]; intros s s' HI HS; cbn [BalancerModel.b_run]; [intros E; injection E as <-; auto|].
  destruct (step_bal g k lim perf Hcl Hvw _ _ e s HI) as (s1 & E & H1). rewrite E. apply IH; [exact H1|exact (stuck_step e s s1 HI HS E)].
Qed.
Theorem balancer_stuck T order es s0 s : exact_block_weights g (m_label m) (m_weight m) -> length (m_weight m) = k ->
  Permutation (map fst order) (overloaded_nodes g lim m) -> (exists u, (u < n)%nat /\ nth u (m_label m) 0%nat = a) ->
  init_bal g k lim T m order = Some s0 -> b_run es s0 = Some s -> b_finished s = false.
Proof.
  intros (E1 & E2 & E3) HK HP (u & Hu & Eu) HI HR. destruct (init_ok g k lim T m order E1 HK) as (s0' & I1 & I2 & I3 & I4); auto; [intros; rewrite <- HK; auto|].
  rewrite HI in I1. injection I1 as <-.
  assert (HO : forall u, In u (map fst order) <-> (u < n)%nat /\ 0 < overload lim m (nth u (m_label m) 0%nat)).
  { intros v. split; [intros Hv; apply (Permutation_in _ HP) in Hv|intros Hv; apply (Permutation_in _ (Permutation_sym HP))]; unfold overloaded_nodes in *; rewrite filter_In, in_seq, Z.ltb_lt in *; lia. }
  assert (Q0 : nth a (b_pq s0) [] <> []).
  { unfold init_bal in HI. eapply (merge_nonempty g lim order a); [| | |exact HI]; cbn [b_pq b_mem]; rewrite ?repeat_length; auto.
    - intros v Hv. rewrite <- HK. apply E2, HO, Hv.
    - right. exists u. split; auto. apply HO. split; auto. rewrite Eu. auto. }
  assert (HS : ST s0).
  { split; auto. split; auto. split.
    - intros Hst. exfalso. destruct I2 as (_ & _ & _ & _). assert (Es : b_started s0 = repeat false k).
      { unfold init_bal in HI. destruct (merge_ok g k lim order (mkB m (map (fun u => 0 <? overload lim m (nth u (m_label m) 0%nat)) (seq 0 (gn g))) (repeat [] k) (repeat 0 k) (repeat 0 k) (repeat false k) (repeat (mkT TIdle []) T))) as (s1 & X1 & X2 & _).
        - cbn [b_pq]. apply repeat_length.
        - eapply Permutation_NoDup; [apply Permutation_sym; exact HP|]. apply NoDup_filter, seq_NoDup.
        - intros v Hv. cbn [b_mem b_pq]. split; [rewrite <- HK; apply E2, HO, Hv|]. rewrite in_concat_nth, repeat_length. intros (b & Hb & Hi). rewrite nth_repeat in Hi. destruct Hi.
        - rewrite HI in X1. injection X1 as <-. destruct X2 as (_ & _ & _ & X & _). exact X. }
      rewrite Es in Hst. rewrite (nth_indep _ true false) in Hst by (rewrite repeat_length; auto). rewrite nth_repeat in Hst. discriminate.
    - intros t th E. rewrite I4 in E. apply nth_error_In, repeat_spec in E. subst th. exact I. }
  destruct (stuck_run es s0 s I2 HS HR) as [HI2 (S1 & S2 & S3 & S4)].
  destruct (b_finished s) eqn:EF; auto. exfalso. unfold b_finished in EF. apply andb_true_iff in EF. destruct EF as [F1 F2]. rewrite forallb_forall in F1, F2.
  destruct HI2 as (((_ & _ & _ & _ & L5 & _) & _) & _). assert (Hst : nth a (b_started s) true = true) by (apply F1, nth_In; lia).
  destruct (S3 Hst) as (t & th & A1 & A2). apply nth_error_In in A1. specialize (F2 th A1). destruct (t_ph th); discriminate.
Qed.
End B.
