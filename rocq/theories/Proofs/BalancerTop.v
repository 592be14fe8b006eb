(* The greedy balancer: initial state, refinement to concurrent moves (C15), results. *)
From Verif Require Import Lib.Prelude Spec.Graph Model.BlockWeightModel Model.BalancerModel Proofs.BlockWeightProofs Proofs.FmRoundProofs Proofs.BalancerProofs.
Local Open Scope Z_scope.

Section B.
Variable g : graph.
Variable k : nat.
Variable lim : nat -> Z.
Notation n := (gn g).
Notation vw := (gvw g).
Notation label s u := (nth u (m_label (b_mem s)) 0%nat).

Lemma same_trans s1 s2 s3 : same_but_pq s1 s2 -> same_but_pq s2 s3 -> same_but_pq s1 s3.
Proof. intros (A1 & A2 & A3 & A4 & A5 & A6) (B1 & B2 & B3 & B4 & B5 & B6). unfold same_but_pq. rewrite B1, B2, B3, B4, B5, B6. auto 10. Qed.
Lemma merge_ok order : forall s, length (b_pq s) = k -> NoDup (map fst order) ->
  (forall u, In u (map fst order) -> (label s u < k)%nat /\ ~ In u (concat (b_pq s))) ->
  exists s', merge_pqs g lim order s = Some s' /\ same_but_pq s s' /\
    forall b v, In v (nth b (b_pq s') []) -> In v (nth b (b_pq s) []) \/ (b = label s v /\ In v (map fst order)).
Proof.
  induction order as [|[u gt] order IH]; intros s HL ND HU.
  - exists s. split; [reflexivity|]. split; [unfold same_but_pq; auto 10|auto].
  - cbn [map fst] in ND. apply NoDup_cons_iff in ND. destruct ND as [Hni ND']. destruct (HU u (or_introl eq_refl)) as [Hk Hu].
    destruct (add_ok g k lim (label s u) u gt s Hk HL Hu) as (s1 & E1 & SB & HQ). cbn [merge_pqs]. rewrite E1.
    assert (SB' := SB). destruct SB' as (S1 & S2 & S3 & S4 & S5 & S6).
    destruct (IH s1) as (s2 & E2 & SB2 & HQ2); [lia|auto| |].
    + intros v Hv. destruct (HU v (or_intror Hv)) as [Hk' Hv']. rewrite S1. split; auto. rewrite in_concat_nth in *. intros (b & Hb & Hi).
      apply HQ in Hi. destruct Hi as [Hi|[-> ->]]; [|contradiction]. apply Hv'. exists b. split; [lia|auto].
    + exists s2. split; auto. split; [eapply same_trans; eauto|]. intros b v Hv. apply HQ2 in Hv. rewrite S1 in Hv. cbn [map fst In].
      destruct Hv as [Hv|[-> Hv]]; [|auto]. apply HQ in Hv. destruct Hv as [|[-> ->]]; auto.
Qed.
Lemma init_ok T m order : length (m_label m) = n -> length (m_weight m) = k -> (forall u, (u < n)%nat -> (nth u (m_label m) 0 < k)%nat) ->
  Permutation (map fst order) (overloaded_nodes g lim m) ->
  exists s0, init_bal g k lim T m order = Some s0 /\ INV g k lim (overload lim m) (m_label m) s0 /\ b_mem s0 = m /\ b_thr s0 = repeat (mkT TIdle []) T.
Proof.
  intros L1 L2 HL HP. unfold init_bal. set (mk := map _ (seq 0 n)). set (s := mkB _ _ _ _ _ _ _).
  assert (HO : forall u, In u (map fst order) -> (u < n)%nat /\ 0 < overload lim m (nth u (m_label m) 0%nat)).
  { intros u Hu. apply (Permutation_in _ HP) in Hu. unfold overloaded_nodes in Hu. apply filter_In in Hu. rewrite in_seq in Hu. destruct Hu as [Hu Ho]. apply Z.ltb_lt in Ho. lia. }
  assert (HC : forall u, ~ In u (concat (b_pq s))).
  { intros u. rewrite in_concat_nth. unfold s. cbn [b_pq]. rewrite repeat_length. intros (b & Hb & Hi). rewrite nth_repeat in Hi. destruct Hi. }
  destruct (merge_ok order s) as (s1 & E1 & SB & HQ).
  - unfold s. cbn [b_pq]. apply repeat_length.
  - eapply Permutation_NoDup; [apply Permutation_sym; exact HP|]. apply NoDup_filter, seq_NoDup.
  - intros u Hu. split; auto. unfold s. cbn [b_mem]. apply HL, HO, Hu.
  - exists s1. split; [exact E1|]. destruct SB as (S1 & S2 & S3 & S4 & S5 & S6). split; [|rewrite S1, S5; auto].
    assert (HTh : forall t th, nth_error (b_thr s1) t = Some th -> th = mkT TIdle []).
    { intros t th E. rewrite S5 in E. unfold s in E. cbn [b_thr] in E. apply nth_error_In, repeat_spec in E. auto. }
    split; [|split; [|split]].
    + unfold ginv. rewrite S1, S2, S3, S4, S6. unfold s. cbn [b_mem b_mark b_pq b_delta b_started b_thr].
      assert (HM : forall u, (u < n)%nat -> nth u mk false = (0 <? overload lim m (nth u (m_label m) 0%nat))).
      { intros u Hu. unfold mk. rewrite (nth_indep _ _ ((fun u => 0 <? overload lim m (nth u (m_label m) 0%nat)) 0%nat)) by (rewrite map_length, seq_length; auto).
        rewrite (map_nth (fun u => 0 <? overload lim m (nth u (m_label m) 0%nat))), seq_nth by auto. auto. }
      split; [rewrite !repeat_length; unfold mk; rewrite map_length, seq_length; auto 10|]. split; [intros u Hu; split; auto|]. split.
      * intros b u Hb Hi. apply HQ in Hi. destruct Hi as [Hi|[-> Hi]]; [unfold s in Hi; cbn [b_pq] in Hi; rewrite nth_repeat in Hi; destruct Hi|].
        destruct (HO u Hi) as [H1 H2]. split; auto. split; [auto|]. rewrite HM by auto. apply Z.ltb_lt; auto.
      * intros b Hb. rewrite nth_repeat. split; [lia|auto].
    + intros t th E. rewrite (HTh _ _ E). split; [constructor|exact I].
    + intros t th t' th' f E _ C. rewrite (HTh _ _ E) in C. discriminate.
    + intros b Hb _. rewrite S1, S3. unfold s. cbn [b_mem b_delta]. rewrite nth_repeat. lia.
Qed.

Variable perf : nat -> Z.
Notation b_step := (b_step g k lim perf).
Notation b_run := (b_run g k lim perf).
(** ** Every run is a run of concurrent limited moves. *)
Definition pc_to (p : pc) : nat :=
  match p with
  | Idle => 0
  | MLoad _ _ to _ | MTest _ _ to _ _ | MCas _ _ to _ _ | WSub _ _ to | WStore _ _ to | BSub _ _ to | BAdd _ _ to | LTest _ _ to _ | LAdd _ _ to => to
  end%nat.
Definition proj (th : thr) : pc := match t_ph th with TMove from _ _ p _ => if (pc_to p =? from)%nat then Idle else p | _ => Idle end.
Definition projs (s : bal) : sys := mkSys (b_mem s) (map proj (b_thr s)).
Notation steps := (sys_steps vw lim (fun o => o = OpMove)).

Hypothesis Hcl : closed_graph g.
Hypothesis Hvw : forall u, (u < n)%nat -> 0 <= vw u.
Lemma sim ov0 lab0 e s s' : INV g k lim ov0 lab0 s -> b_step e s = Some s' -> steps (projs s) (projs s').
Proof.
  intros HI. destruct e as [t a]. unfold BalancerModel.b_step. destruct (nth_error (b_thr s) t) as [th|] eqn:Ht; [|intros E; injection E as <-; constructor].
  assert (HI' := HI). destruct HI' as (G & TI & D & O). pose proof (TI t th Ht) as (_ & HT').
  assert (G' := G). destruct G' as ((L1 & L2 & L3 & L4 & L5 & L6) & G1 & G2 & G3).
  assert (Hlt : (t < length (b_thr s))%nat) by (apply nth_error_Some; congruence).
  assert (Npj : nth t (map proj (b_thr s)) Idle = proj th).
  { rewrite (nth_indep _ _ (proj th)) by (rewrite map_length; auto). rewrite map_nth. f_equal. apply nth_error_nth; auto. }
  assert (ST : forall s1 th1, b_mem s1 = b_mem s -> b_thr s1 = upd t th1 (b_thr s) -> proj th1 = proj th -> steps (projs s) (projs s1)).
  { intros s1 th1 E1 E2 E3. replace (projs s1) with (projs s); [constructor|]. unfold projs. rewrite E1, E2, map_upd, E3. f_equal. symmetry.
    apply (upd_self t (proj th) Idle). rewrite nth_error_map, Ht. reflexivity. }
  assert (EX : forall s1 p1 m1, thread_step vw (proj th) (b_mem s) = Some (p1, m1) -> b_mem s1 = m1 -> map proj (b_thr s1) = upd t p1 (map proj (b_thr s)) -> steps (projs s) (projs s1)).
  { intros s1 p1 m1 E1 E2 E3. eapply ss_trans; [constructor|]. unfold projs. rewrite E2, E3. apply ss_run; [rewrite map_length; auto|]. rewrite Npj. auto. }
  assert (START : forall s1 from over u to rnd, t_ph th = TGain from over u \/ t_ph th = TRand from over u -> cur g s from over u -> (to < k)%nat ->
            b_mem s1 = b_mem s -> b_thr s1 = upd t (mkT (TMove from over u (MLoad u (label s u) to (lim to)) rnd) (t_feas th)) (b_thr s) -> steps (projs s) (projs s1)).
  { intros s1 from over u to rnd Hp (C1 & C2 & C3 & C4 & C5) Hto E1 E2. assert (Ei : proj th = Idle) by (unfold proj; destruct Hp as [-> | ->]; auto).
    rewrite C3 in E2. destruct (Nat.eq_dec to from) as [->|Hne].
    - eapply ST; [exact E1|exact E2|]. rewrite Ei. unfold proj. cbn [t_ph pc_to]. rewrite Nat.eqb_refl. auto.
    - eapply ss_trans; [constructor|]. unfold projs. rewrite E1, E2, map_upd. unfold proj at 2. cbn [t_ph pc_to]. destruct (Nat.eqb_spec to from); [contradiction|].
      pose proof (ss_start vw lim (fun o => o = OpMove) t OpMove u to (b_mem s) (map proj (b_thr s))) as X. cbn [start_pc] in X. rewrite C3 in X.
      apply X; auto; try lia; [rewrite map_length; auto|rewrite Npj; auto|]. clear X.
      intros p Hp'. apply in_map_iff in Hp'. destruct Hp' as (th1 & <- & Hth1). apply In_nth_error in Hth1. destruct Hth1 as (t1 & Ht1).
      unfold proj. destruct (t_ph th1) as [| | | | |from1 over1 u1 p1 rnd1| | |] eqn:Ep1; try discriminate. destruct (_ =? _)%nat; [discriminate|].
      pose proof (TI t1 th1 Ht1) as (_ & H1). rewrite Ep1 in H1. destruct H1 as (_ & (_ & _ & K3 & _) & KM). intros C.
      assert (u1 = u) by (destruct p1; cbn [movep] in KM; cbn [pc_node] in C; try contradiction; injection C as ->; symmetry; apply KM). subst u1.
      assert (Ef1 : from1 = from) by congruence. assert (t1 = t).
      { eapply (D t1 th1 t th from); eauto; [rewrite Ep1, Ef1; reflexivity|destruct Hp as [-> | ->]; reflexivity]. }
      subst t1. rewrite Ht in Ht1. injection Ht1 as <-. destruct Hp; congruence. }
  assert (ADD : forall b u gt s1, add_to_pq g lim b u gt s = Some s1 -> (b < k)%nat -> b_mem s1 = b_mem s /\ b_thr s1 = b_thr s).
  { intros b u gt s1 E Hb. unfold add_to_pq in E. destruct (in_list u _) eqn:Ei; [discriminate|]. apply in_list_false in Ei.
    destruct (add_ok g k lim b u gt s Hb L3 Ei) as (s2 & E2 & SB & _). unfold add_to_pq in E2. rewrite (proj2 (in_list_false _ _) Ei) in E2. rewrite E in E2. injection E2 as <-.
    split; apply SB. }
  destruct (t_ph th) eqn:Ep, a; try (intros E; injection E as <-; constructor; fail).
  - destruct (_ && _); intros E; injection E as <-; [|constructor]. eapply ST; [reflexivity|reflexivity|]. unfold proj. rewrite Ep. cbn [t_ph]. destruct (_ && _); auto.
  - destruct (_ <? _)%nat; intros E; injection E as <-; (eapply ST; [reflexivity|reflexivity|]); unfold proj; rewrite Ep; reflexivity.
  - destruct (_ && _); intros E; injection E as <-; [constructor|]. (eapply ST; [reflexivity|reflexivity|]); unfold proj; rewrite Ep; reflexivity.
  - destruct (_ && _); intros E; injection E as <-; [|constructor]. (eapply ST; [reflexivity|reflexivity|]); unfold proj; rewrite Ep; reflexivity.
  - destruct HT' as [HB HC]. destruct fresh; [destruct (Nat.eqb_spec to from); [|destruct (Nat.ltb_spec to k)]|]; intros E; injection E as <-; try constructor;
      try ((eapply ST; [reflexivity|reflexivity|]); unfold proj; rewrite Ep; reflexivity).
    assert (C3 : label s u = from) by apply HC. apply (START _ from over u to None); auto. cbn [go set_thr b_thr]. rewrite C3. auto.
  - destruct HT' as [HB HC]. destruct (t_feas th) as [|f0 fr] eqn:Ef; [intros E; injection E as <-; (eapply ST; [reflexivity|reflexivity|]); unfold proj; rewrite Ep; reflexivity|].
    rewrite <- Ef in *. destruct (nth_error (t_feas th) i) as [b|] eqn:Eb; intros E; injection E as <-; [|constructor].
    apply (START _ from over u b (Some i)); auto. pose proof (TI t th Ht) as (HF & _). apply (proj1 (Forall_forall _ _) HF). eapply nth_error_In; eauto.
  - (* move *) destruct HT' as (HB & HC & HM). pose proof HC as (C1 & C2 & C3 & C4 & C5).
    assert (PJ : pc_to p <> from -> proj th = p) by (intros H; unfold proj; rewrite Ep; destruct (Nat.eqb_spec (pc_to p) from); congruence).
    assert (PJI : pc_to p = from -> proj th = Idle) by (intros H; unfold proj; rewrite Ep; destruct (Nat.eqb_spec (pc_to p) from); congruence).
    destruct p as [|u' f to mx|u' f to mx nw|u' f to mx nw|u' f to|u' f to|u' f to|u' f to|u' f to mx|u' f to]; cbn [movep] in HM; try contradiction; cbn [pc_to] in PJ, PJI;
      cbn [thread_step].
    + intros E; injection E as <-. destruct (Nat.eq_dec to from) as [Et|Et].
      * eapply ST; [reflexivity|reflexivity|]. rewrite (PJI Et). unfold proj. cbn [t_ph pc_to]. rewrite Et, Nat.eqb_refl. auto.
      * eapply EX; [rewrite (PJ Et); reflexivity|reflexivity|]. cbn [go set_thr b_thr]. rewrite map_upd. unfold proj at 1. cbn [t_ph pc_to]. destruct (Nat.eqb_spec to from); [contradiction|auto].
    + destruct HM as ((-> & -> & M1 & ->) & M2). destruct (Z.leb_spec (nw + vw u) (lim to)) as [Hle|Hgt].
      * intros E; injection E as <-. assert (Et : to <> from) by (intros ->; specialize (M2 eq_refl); pose proof (Hvw u C2); lia).
        eapply EX; [rewrite (PJ Et); cbn [thread_step]; destruct (Z.leb_spec (nw + vw u) (lim to)); [reflexivity|lia]|reflexivity|]. cbn [go set_thr b_thr]. rewrite map_upd. unfold proj at 1. cbn [t_ph pc_to].
        destruct (Nat.eqb_spec to from); [contradiction|auto].
      * assert (G0 : forall s1 th1, b_mem s1 = b_mem s -> b_thr s1 = upd t th1 (b_thr s) -> proj th1 = Idle -> steps (projs s) (projs s1)).
        { intros s1 th1 E1 E2 E3. destruct (Nat.eq_dec to from) as [Et|Et]; [eapply ST; eauto; rewrite (PJI Et); auto|].
          eapply EX; [rewrite (PJ Et); cbn [thread_step]; destruct (Z.leb_spec (nw + vw u) (lim to)); [lia|reflexivity]|auto|]. rewrite E2, map_upd, E3. auto. }
        destruct rnd; intros E; injection E as <-; eapply G0; reflexivity.
    + destruct HM as ((-> & -> & M1 & ->) & M2 & M3). intros E.
      assert (TS : thread_step vw (proj th) (b_mem s) = if nth to (m_weight (b_mem s)) 0 =? nw then Some (WSub u from to, mkMem (m_label (b_mem s)) (upd to (nw + vw u) (m_weight (b_mem s))))
         else Some (MTest u from to (lim to) (nth to (m_weight (b_mem s)) 0), b_mem s)) by (rewrite (PJ M2); reflexivity).
      destruct (_ =? nw); injection E as <-; (eapply EX; [exact TS|reflexivity|]); cbn [go set_thr b_thr]; rewrite map_upd; unfold proj at 1; cbn [t_ph pc_to]; (destruct (Nat.eqb_spec to from); [contradiction|auto]).
    + destruct HM as (-> & -> & M1 & M2). intros E; injection E as <-. eapply EX; [rewrite (PJ M2); reflexivity|reflexivity|].
      cbn [go set_thr b_thr]; rewrite map_upd; unfold proj at 1; cbn [t_ph pc_to]; (destruct (Nat.eqb_spec to from); [contradiction|auto]).
    + destruct HM as (-> & -> & M1 & M2). intros E; injection E as <-. eapply EX; [rewrite (PJ M2); reflexivity|reflexivity|].
      cbn [go set_thr b_thr]; rewrite map_upd; reflexivity.
  - destruct HT' as (HB & _). destruct (add_to_pq g lim from u gt s) as [s1|] eqn:Ea; [|discriminate]. intros E; injection E as <-.
    destruct (ADD _ _ _ _ Ea ltac:(apply HB)) as [E1 E2]. eapply ST; [exact E1|cbn [go set_thr b_thr]; rewrite E2; reflexivity|]. unfold proj; rewrite Ep; reflexivity.
  - destruct vs as [|v vs]; [|destruct (_ && _)%nat]; intros E; injection E as <-; (eapply ST; [reflexivity|reflexivity|]); unfold proj; rewrite Ep; reflexivity.
  - destruct HT' as (HB & _). destruct (add_to_pq g lim from v gt s) as [s1|] eqn:Ea; [|discriminate]. intros E; injection E as <-.
    destruct (ADD _ _ _ _ Ea ltac:(apply HB)) as [E1 E2]. eapply ST; [exact E1|cbn [go set_thr b_thr]; rewrite E2; reflexivity|]. unfold proj; rewrite Ep; reflexivity.
Qed.
Lemma steps_app s1 s2 s3 : steps s1 s2 -> steps s2 s3 -> steps s1 s3.
Proof. intros H1 H2. induction H2 as [|x y z Hs IH Ht]; [auto|]. eapply ss_trans; [apply IH; exact H1|exact Ht]. Qed.
Lemma run_ok ov0 lab0 es : forall s, INV g k lim ov0 lab0 s -> exists s', b_run es s = Some s' /\ INV g k lim ov0 lab0 s' /\ steps (projs s) (projs s').
Proof.
  induction es as [|e es IH]; intros s HI; [exists s; split; [auto|]; split; [auto|constructor]|].
  destruct (step_bal g k lim perf Hcl Hvw ov0 lab0 e s HI) as (s1 & E & H1). cbn [BalancerModel.b_run]. rewrite E.
  destruct (IH s1 H1) as (s2 & E2 & H2 & H3). exists s2. split; auto. split; auto. eapply steps_app; [eapply sim; eauto|auto].
Qed.

Lemma some_thread (b : nat) l : (exists t th, nth_error l t = Some th /\ ph_from (t_ph th) = Some b) \/ (forall t th, nth_error l t = Some th -> ph_from (t_ph th) <> Some b).
Proof.
  induction l as [|x l IH]; [right; intros [|t] th; discriminate|]. destruct IH as [(t & th & E & P)|IH]; [left; exists (S t), th; auto|].
  destruct (ph_from (t_ph x)) as [f|] eqn:E; [destruct (Nat.eq_dec f b) as [->|]|]; [left; exists 0%nat, x; auto| |];
    right; intros [|t] th E'; try (injection E' as <-; congruence); apply (IH t th E').
Qed.
Lemma block_cases ov0 lab0 s b : INV g k lim ov0 lab0 s -> (b < k)%nat -> 0 <= overload lim (b_mem s) b <= ov0 b.
Proof.
  intros (G & TI & D & O) Hb. destruct G as (_ & _ & _ & G3). destruct (G3 b Hb) as [G3' _]. assert (H0 : 0 <= overload lim (b_mem s) b) by (unfold overload; lia).
  destruct (some_thread b (b_thr s)) as [(t & th & Ht & Hp)|Hno]; [|specialize (O b Hb Hno); lia].
  pose proof (TI t th Ht) as (_ & HT). split; auto.
  destruct (t_ph th); cbn [ph_from] in Hp; try discriminate; injection Hp as ->; unfold base in HT; try lia.
  destruct HT as (HB & HC & HM). unfold pendov in HB. destruct HC as (C1 & C2 & _). pose proof (Hvw u C2). destruct p; cbn [movep] in HM; try contradiction; lia.
Qed.

Lemma zsum_map_le {A} (f f' : A -> Z) l : (forall x, In x l -> f x <= f' x) -> zsum (map f l) <= zsum (map f' l).
Proof. induction l as [|x l IH]; intros H; cbn [map]; [apply Z.le_refl|]. change (f x + zsum (map f l) <= f' x + zsum (map f' l)).
  pose proof (H x (or_introl eq_refl)). specialize (IH (fun y Hy => H y (or_intror Hy))). lia. Qed.
Lemma zsum_zero_iff (f : nat -> Z) m : (forall b, (b < m)%nat -> 0 <= f b) -> (zsum (map f (seq 0 m)) = 0 <-> forall b, (b < m)%nat -> f b = 0).
Proof.
  intros H. split.
  - intros E b Hb. destruct (in_split b (seq 0 m)) as (l1 & l2 & El); [apply in_seq; lia|]. rewrite El, map_app, zsum_app in E. cbn [map] in E.
    change (zsum (map f l1) + (f b + zsum (map f l2)) = 0) in E.
    assert (P : forall l, incl l (seq 0 m) -> 0 <= zsum (map f l)).
    { induction l as [|x l IH]; intros Hi; cbn [map]; [cbn; lia|]. change (0 <= f x + zsum (map f l)).
      pose proof (H x ltac:(pose proof (Hi x (or_introl eq_refl)) as Hx; apply in_seq in Hx; lia)). specialize (IH (fun y Hy => Hi y (or_intror Hy))). lia. }
    pose proof (P l1 ltac:(intros x Hx; rewrite El; apply in_app_iff; auto)). pose proof (P l2 ltac:(intros x Hx; rewrite El; apply in_app_iff; right; right; auto)).
    pose proof (H b Hb). lia.
  - intros E. rewrite (map_ext_in f (fun _ => 0)) by (intros b Hb; apply in_seq in Hb; apply E; lia). clear. generalize (seq 0 m) as l.
    induction l as [|x l IH]; auto.
Qed.
Lemma zsum_map_plus {A} (f f' : A -> Z) l : zsum (map (fun x => f x + f' x) l) = zsum (map f l) + zsum (map f' l).
Proof. induction l as [|x l IH]; [reflexivity|]. cbn [map]. change (f x + f' x + zsum (map (fun x => f x + f' x) l) = (f x + zsum (map f l)) + (f' x + zsum (map f' l))). lia. Qed.
Lemma map_nth_seq {A} (d : A) l : map (fun b => nth b l d) (seq 0 (length l)) = l.
Proof. apply (list_ext d); [rewrite map_length, seq_length; auto|]. intros i Hi. rewrite map_length, seq_length in Hi.
  rewrite (nth_indep _ d ((fun b => nth b l d) 0%nat)) by (rewrite map_length, seq_length; auto). rewrite (map_nth (fun b => nth b l d)), seq_nth by auto. auto. Qed.

Theorem balancer_safe T m order es : exact_block_weights g (m_label m) (m_weight m) -> length (m_weight m) = k ->
  Permutation (map fst order) (overloaded_nodes g lim m) ->
  exists s0 s, init_bal g k lim T m order = Some s0 /\ b_run es s0 = Some s /\
    (forall b, (b < k)%nat -> overload lim (b_mem s) b <= overload lim m b) /\
    total_overload k lim (b_mem s) <= total_overload k lim m /\
    (forall u, (u < n)%nat -> label s u <> nth u (m_label m) 0%nat -> 0 < overload lim m (nth u (m_label m) 0%nat)) /\
    (b_finished s = true ->
       exact_block_weights g (m_label (b_mem s)) (m_weight (b_mem s)) /\ length (m_weight (b_mem s)) = k /\
       (b_returns k lim m s = true <-> forall b, (b < k)%nat -> block_weight g (fun u => label s u) b <= lim b)).
Proof.
  intros HE HK HP. destruct HE as (E1 & E2 & E3).
  destruct (init_ok T m order E1 HK) as (s0 & I1 & I2 & I3 & I4); auto; [intros u Hu; rewrite <- HK; auto|].
  destruct (run_ok _ _ es s0 I2) as (s & R1 & R2 & R3). exists s0, s. split; auto. split; auto.
  assert (BC := fun b => block_cases _ _ s b R2). split; [intros b Hb; apply BC; auto|]. split; [|split].
  - unfold total_overload. apply zsum_map_le. intros b Hb. apply in_seq in Hb. apply BC; lia.
  - destruct R2 as ((_ & G1 & _) & _). intros u Hu Hne. destruct (G1 u Hu) as [_ [H|H]]; [contradiction|auto].
  - intros HF. unfold b_finished in HF. apply andb_true_iff in HF. destruct HF as [_ HF]. rewrite forallb_forall in HF.
    assert (Q0 : quiescent (projs s0)).
    { intros p Hp. unfold projs in Hp. cbn [s_threads] in Hp. rewrite I4 in Hp. apply in_map_iff in Hp. destruct Hp as (th & <- & Hth). apply repeat_spec in Hth. subst th. reflexivity. }
    assert (Q1 : quiescent (projs s)).
    { intros p Hp. unfold projs in Hp. cbn [s_threads] in Hp. apply in_map_iff in Hp. destruct Hp as (th & <- & Hth). specialize (HF th Hth). unfold proj. destruct (t_ph th); auto; discriminate. }
    destruct (conc_exact g lim _ _ _ R3 Q0 Q1) as [X1 X2].
    { unfold projs. cbn [s_mem]. rewrite I3. split; auto. }
    cbn [projs s_mem] in X1, X2. rewrite I3 in X2. split; [exact X1|]. split; [congruence|].
    destruct R2 as (G & TI & D & O). destruct G as ((L1 & L2 & L3 & L4 & L5 & L6) & _).
    assert (SUM : forall b, (b < k)%nat -> overload lim (b_mem s) b + nth b (b_delta s) 0 = overload lim m b).
    { intros b Hb. apply O; auto. intros t th E. apply nth_error_In in E. specialize (HF th E). destruct (t_ph th); discriminate. }
    assert (TOT : total_overload k lim m - zsum (b_delta s) = total_overload k lim (b_mem s)).
    { unfold total_overload. rewrite <- (map_nth_seq 0 (b_delta s)) at 1. rewrite L4.
      rewrite (map_ext_in (overload lim m) (fun b => overload lim (b_mem s) b + nth b (b_delta s) 0)) by (intros b Hb; apply in_seq in Hb; symmetry; apply SUM; lia).
      rewrite zsum_map_plus. lia. }
    unfold b_returns. rewrite TOT, Z.eqb_eq. unfold total_overload. rewrite zsum_zero_iff by (intros b Hb; apply BC; auto).
    destruct X1 as (_ & _ & X). split; intros H b Hb; specialize (H b Hb); rewrite <- X in * by lia; unfold overload, wt in *; lia.
Qed.
End B.
