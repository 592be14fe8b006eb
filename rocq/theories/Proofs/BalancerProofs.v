(* Invariants of the greedy balancer. *)
From Verif Require Import Lib.Prelude Spec.Graph Model.BlockWeightModel Model.BalancerModel Proofs.BlockWeightProofs Proofs.FmRoundProofs.
Local Open Scope Z_scope.

Lemma in_list_spec u l : in_list u l = true <-> In u l.
Proof. unfold in_list. rewrite existsb_exists. split; [intros (x & Hx & E); apply Nat.eqb_eq in E; subst; auto|intros H; exists u; split; [auto|apply Nat.eqb_refl]]. Qed.
Lemma in_list_false u l : in_list u l = false <-> ~ In u l.
Proof. rewrite <- in_list_spec. destruct (in_list u l); intuition discriminate. Qed.
Lemma in_concat_nth (l : list (list nat)) u : In u (concat l) <-> exists b, (b < length l)%nat /\ In u (nth b l []).
Proof.
  rewrite in_concat. split.
  - intros (x & Hx & Hu). destruct (In_nth l x [] Hx) as (b & Hb & E). exists b. rewrite E. auto.
  - intros (b & Hb & Hu). exists (nth b l []). split; auto. apply nth_In; auto.
Qed.
Lemma upd_self {A} i (x d : A) l : nth_error l i = Some x -> upd i x l = l.
Proof.
  intros H. assert (i < length l)%nat by (apply nth_error_Some; congruence). apply (list_ext d); [apply upd_length|].
  intros j Hj. destruct (Nat.eq_dec j i) as [->|]; [rewrite upd_nth_same by auto; symmetry; apply nth_error_nth; auto|apply upd_nth_other; auto].
Qed.

Section A.
Variable g : graph.
Variable k : nat.
Variable lim : nat -> Z.
Definition same_but_pq (s s' : bal) : Prop :=
  b_mem s' = b_mem s /\ b_mark s' = b_mark s /\ b_delta s' = b_delta s /\ b_started s' = b_started s /\ b_thr s' = b_thr s /\ length (b_pq s') = length (b_pq s).
Lemma add_ok b u gt s : (b < k)%nat -> length (b_pq s) = k -> ~ In u (concat (b_pq s)) ->
  exists s', add_to_pq g lim b u gt s = Some s' /\ same_but_pq s s' /\
    (forall b' v, In v (nth b' (b_pq s') []) -> In v (nth b' (b_pq s) []) \/ (b' = b /\ v = u)).
Proof.
  intros Hb HL Hu. unfold add_to_pq. rewrite (proj2 (in_list_false _ _) Hu). cbv zeta.
  set (gt' := match gt with Some v => _ | None => None end). clearbody gt'.
  assert (NU : forall q', (forall v, In v q' -> In v (nth b (b_pq s) []) \/ v = u) -> forall b' v, In v (nth b' (upd b q' (b_pq s)) []) -> In v (nth b' (b_pq s) []) \/ (b' = b /\ v = u)).
  { intros q' Hq b' v Hv. destruct (Nat.eq_dec b' b) as [->|]; [rewrite upd_nth_same in Hv by lia; apply Hq in Hv; tauto|rewrite upd_nth_other in Hv by auto; auto]. }
  assert (NA : forall v, In v (nth b (b_pq s) [] ++ [u]) -> In v (nth b (b_pq s) []) \/ v = u) by (intros v Hv; apply in_app_iff in Hv; cbn [In] in Hv; intuition).
  destruct (_ || _ || _).
  - destruct gt' as [v|]; [destruct (_ <=? _)|]; eexists; (split; [reflexivity|]); (split; [unfold same_but_pq, set_pq; cbn; rewrite upd_length; repeat split; auto|]);
      cbn [set_pq b_pq]; apply NU; auto. intros x Hx. apply in_remove in Hx. apply NA, Hx.
  - exists s. split; auto. split; [unfold same_but_pq; auto 10|]. auto.
Qed.
End A.

Section B.
Variable g : graph.
Variable k : nat.
Variables (lim perf : nat -> Z).
Notation n := (gn g).
Notation vw := (gvw g).
Hypothesis Hcl : closed_graph g.
Hypothesis Hvw : forall u, (u < n)%nat -> 0 <= vw u.
Variable ov0 : nat -> Z.
Variable lab0 : list nat.
Notation ovl s b := (overload lim (b_mem s) b).
Notation label s u := (nth u (m_label (b_mem s)) 0%nat).
Notation mark s u := (nth u (b_mark s) false).
Notation b_step := (b_step g k lim perf).

Definition ph_from (p : ph) : option nat :=
  match p with
  | TIdle => None
  | TFeas f _ _ | TLoop f _ | TGain f _ _ | TRand f _ _ | TMove f _ _ _ _ | TAdd f _ _ | TAdj f _ _ | TAddN f _ _ _ => Some f
  end.
Definition base (s : bal) (from : nat) (over pnd : Z) : Prop :=
  (from < k)%nat /\ nth from (b_started s) true = true /\ over + nth from (b_delta s) 0 = ov0 from /\ over - pnd = ovl s from /\ 0 <= over.
Definition cur (s : bal) (from : nat) (over : Z) (u : nat) : Prop :=
  0 < over /\ (u < n)%nat /\ label s u = from /\ mark s u = true /\ ~ In u (concat (b_pq s)).
Definition movep (from u : nat) (p : pc) : Prop :=
  match p with
  | MLoad u' f to mx => u' = u /\ f = from /\ (to < k)%nat /\ mx = lim to
  | MTest u' f to mx nw => (u' = u /\ f = from /\ (to < k)%nat /\ mx = lim to) /\ (to = from -> lim from < nw)
  | MCas u' f to mx nw => (u' = u /\ f = from /\ (to < k)%nat /\ mx = lim to) /\ to <> from /\ nw + vw u <= lim to
  | WSub u' f to | WStore u' f to => u' = u /\ f = from /\ (to < k)%nat /\ to <> from
  | _ => False
  end.
Definition pendov (over : Z) (u : nat) (p : pc) : Z := match p with WStore _ _ _ => Z.min over (vw u) | _ => 0 end.
Definition tinv (s : bal) (th : thr) : Prop :=
  Forall (fun b => (b < k)%nat) (t_feas th) /\
  match t_ph th with
  | TIdle => True
  | TFeas from over _ | TLoop from over => base s from over 0
  | TGain from over u | TRand from over u | TAdd from over u => base s from over 0 /\ cur s from over u
  | TMove from over u p _ => base s from over (pendov over u p) /\ cur s from over u /\ movep from u p
  | TAdj from over vs => base s from over 0 /\ Forall (fun v => (v < n)%nat) vs
  | TAddN from over v vs => base s from over 0 /\ Forall (fun v => (v < n)%nat) (v :: vs) /\ label s v = from /\ mark s v = false
  end.
Definition ginv (s : bal) : Prop :=
  (length (m_label (b_mem s)) = n /\ length (m_weight (b_mem s)) = k /\ length (b_pq s) = k /\ length (b_delta s) = k /\
   length (b_started s) = k /\ length (b_mark s) = n) /\
  (forall u, (u < n)%nat -> (label s u < k)%nat /\ (label s u = nth u lab0 0%nat \/ 0 < ov0 (nth u lab0 0%nat))) /\
  (forall b u, (b < k)%nat -> In u (nth b (b_pq s) []) -> (u < n)%nat /\ label s u = b /\ mark s u = true) /\
  (forall b, (b < k)%nat -> 0 <= nth b (b_delta s) 0 /\ (nth b (b_started s) true = false -> nth b (b_delta s) 0 = 0)).
Definition INV (s : bal) : Prop :=
  ginv s /\
  (forall t th, nth_error (b_thr s) t = Some th -> tinv s th) /\
  (forall t th t' th' f, nth_error (b_thr s) t = Some th -> nth_error (b_thr s) t' = Some th' ->
     ph_from (t_ph th) = Some f -> ph_from (t_ph th') = Some f -> t = t') /\
  (forall b, (b < k)%nat -> (forall t th, nth_error (b_thr s) t = Some th -> ph_from (t_ph th) <> Some b) -> ovl s b + nth b (b_delta s) 0 = ov0 b).

(** What a step of the task of block [from] leaves unchanged for the other tasks. *)
Definition frame (from : nat) (s s' : bal) : Prop :=
  forall f, f <> from ->
    (forall u, label s u = f -> (u < n)%nat -> label s' u = f /\ mark s' u = mark s u /\ (In u (concat (b_pq s')) -> In u (concat (b_pq s)))) /\
    ovl s' f = ovl s f /\ nth f (b_delta s') 0 = nth f (b_delta s) 0 /\ nth f (b_started s') true = nth f (b_started s) true.
Lemma frame_tinv from s s' th : frame from s s' -> ph_from (t_ph th) <> Some from -> tinv s th -> tinv s' th.
Proof.
  intros HF Hne (H0 & H). split; auto.
  assert (B : forall f over p, f <> from -> base s f over p -> base s' f over p).
  { intros f over p Hf (B1 & B2 & B3 & B4 & B5). destruct (HF f Hf) as (_ & F2 & F3 & F4). unfold base. rewrite F2, F3, F4. auto 10. }
  assert (C : forall f over u, f <> from -> cur s f over u -> cur s' f over u).
  { intros f over u Hf (C1 & C2 & C3 & C4 & C5). destruct (HF f Hf) as (F1 & _). destruct (F1 u C3 C2) as (E1 & E2 & E3). unfold cur. rewrite E2. auto 10. }
  unfold tinv in *. destruct (t_ph th); cbn [ph_from] in Hne; try exact H; assert (Hf : from0 <> from) by congruence.
  - apply B; auto.
  - apply B; auto.
  - destruct H; split; [apply B|apply C]; auto.
  - destruct H; split; [apply B|apply C]; auto.
  - destruct H as (? & ? & ?); split; [apply B|split; [apply C|]]; auto.
  - destruct H; split; [apply B|apply C]; auto.
  - destruct H; split; [apply B|]; auto.
  - destruct H as (H1 & H2 & H3 & H4). split; [apply B; auto|]. split; auto. destruct (HF from0 Hf) as (F1 & _).
    destruct (F1 v H3) as (E1 & E2 & _); [inversion H2; auto|]. rewrite E2. auto.
Qed.
(** A step of thread [t], working for block [from] before or after the step. *)
Lemma step_inv t th th' from s s' : INV s -> nth_error (b_thr s) t = Some th -> b_thr s' = upd t th' (b_thr s) ->
  frame from s s' -> ginv s' -> tinv s' th' ->
  (ph_from (t_ph th) = Some from \/ (ph_from (t_ph th) = None /\ nth from (b_started s) true = false)) ->
  (ph_from (t_ph th') = Some from \/ (ph_from (t_ph th') = None /\ ovl s' from + nth from (b_delta s') 0 = ov0 from)) -> INV s'.
Proof.
  intros (G & TI & D & O) Ht Et HF G' T' Hf Hf'. assert (Hlt : (t < length (b_thr s))%nat) by (apply nth_error_Some; congruence).
  assert (NF : forall t1 th1, t1 <> t -> nth_error (b_thr s) t1 = Some th1 -> ph_from (t_ph th1) <> Some from).
  { intros t1 th1 Hne E C. destruct Hf as [Hf|[Hf Hs]]; [apply Hne; eapply D; eauto|].
    pose proof (TI _ _ E) as (_ & H). destruct (t_ph th1); cbn [ph_from] in C; try discriminate; injection C as ->; unfold base in H; intuition congruence. }
  split; [exact G'|]. rewrite Et. split; [|split].
  - intros t1 th1 E. rewrite ne_upd in E by auto. destruct (Nat.eqb_spec t1 t) as [->|Hne]; [injection E as <-; auto|].
    eapply frame_tinv; eauto.
  - intros t1 th1 t2 th2 f E1 E2 P1 P2. rewrite ne_upd in E1, E2 by auto.
    destruct (Nat.eqb_spec t1 t) as [->|N1], (Nat.eqb_spec t2 t) as [->|N2]; auto.
    + injection E1 as <-. exfalso. apply (NF t2 th2 N2 E2). destruct Hf' as [Hf'|[Hf' _]]; congruence.
    + injection E2 as <-. exfalso. apply (NF t1 th1 N1 E1). destruct Hf' as [Hf'|[Hf' _]]; congruence.
    + eapply D; eauto.
  - intros b Hb Hno. destruct (Nat.eq_dec b from) as [->|Hne].
    + destruct Hf' as [Hf'|[_ Hf']]; [|exact Hf']. exfalso. apply (Hno t th'); auto. rewrite ne_upd by auto. rewrite Nat.eqb_refl. auto.
    + destruct (HF b Hne) as (_ & F2 & F3 & _). rewrite F2, F3. apply O; auto. intros t1 th1 E. destruct (Nat.eq_dec t1 t) as [->|].
      * rewrite Ht in E. injection E as <-. destruct Hf as [Hf|[Hf _]]; congruence.
      * apply (Hno t1 th1). rewrite ne_upd by auto. destruct (Nat.eqb_spec t1 t); [contradiction|auto].
Qed.
Lemma frame_local from s s' : b_mem s' = b_mem s -> b_mark s' = b_mark s -> b_pq s' = b_pq s -> b_delta s' = b_delta s -> b_started s' = b_started s -> frame from s s'.
Proof. intros E1 E2 E3 E4 E5 f Hf. rewrite E1, E2, E3, E4, E5. auto. Qed.

Lemma frame_pq from s s' : same_but_pq s s' -> (forall b v, In v (nth b (b_pq s') []) -> In v (nth b (b_pq s) []) \/ (b = from /\ label s v = from)) -> frame from s s'.
Proof.
  intros (E1 & E2 & E3 & E4 & _ & E5) H f Hf. rewrite E1, E2, E3, E4. split; [|auto]. intros u Hl Hu. split; [auto|]. split; [auto|].
  rewrite !in_concat_nth, E5. intros (b & Hb & Hi). apply H in Hi. destruct Hi as [Hi|[-> Hi]]; [exists b; auto|congruence].
Qed.
Lemma ginv_pq s s' : ginv s -> same_but_pq s s' -> (forall b u, (b < k)%nat -> In u (nth b (b_pq s') []) -> (u < n)%nat /\ label s u = b /\ mark s u = true) -> ginv s'.
Proof.
  intros ((L1 & L2 & L3 & L4 & L5 & L6) & G1 & G2 & G3) (E1 & E2 & E3 & E4 & _ & E5) H. unfold ginv. rewrite E1, E2, E3, E4, E5.
  split; [auto 10|]. split; [auto|]. split; auto.
Qed.
Lemma base_pq s s' f over p : same_but_pq s s' -> base s f over p -> base s' f over p.
Proof. intros (E1 & E2 & E3 & E4 & _ & E5). unfold base. rewrite E1, E3, E4. auto. Qed.

Ltac local_step HI Ht Ep := eapply step_inv; [exact HI|exact Ht|reflexivity|apply frame_local; reflexivity|apply HI| |left; rewrite Ep; reflexivity|left; reflexivity].
Lemma swap_pop_incl i l : incl (swap_pop i l) l.
Proof.
  destruct l as [|x l0] eqn:El; [destruct i; intros v [] |]. rewrite <- El. unfold swap_pop. intros v Hv.
  assert (Hv' : In v (upd i (last l 0%nat) l)).
  { assert (NE : upd i (last l 0%nat) l <> []) by (intros C; apply (f_equal (@length nat)) in C; rewrite upd_length, El in C; discriminate).
    rewrite (app_removelast_last 0%nat NE). apply in_app_iff. auto. }
  apply in_upd in Hv'. destruct Hv' as [->|]; auto. assert (NE : l <> []) by (rewrite El; discriminate).
  rewrite (app_removelast_last 0%nat NE) at 2. apply in_app_iff. right. left. auto.
Qed.

Lemma step_bal e s : INV s -> exists s', b_step e s = Some s' /\ INV s'.
Proof.
  intros HI. destruct e as [t a]. unfold BalancerModel.b_step. destruct (nth_error (b_thr s) t) as [th|] eqn:Ht; [|exists s; auto].
  assert (HI' := HI). destruct HI' as (G & TI & D & O). pose proof (TI t th Ht) as HT. assert (HT' := HT). destruct HT' as (HFe & HT').
  assert (G' := G). destruct G' as ((L1 & L2 & L3 & L4 & L5 & L6) & G1 & G2 & G3).
  destruct (t_ph th) eqn:Ep, a; try (exists s; split; [reflexivity|exact HI]).
  - (* task *) destruct (Nat.ltb_spec from k) as [Hk|]; [|exists s; auto]. destruct (nth from (b_started s) true) eqn:Es; cbn [andb negb]; [exists s; auto|].
    eexists. split; [reflexivity|]. set (p := if _ : bool then _ else _).
    assert (Hp : ph_from p = Some from) by (unfold p; destruct (_ && _); reflexivity).
    eapply (step_inv t th _ from); [exact HI|exact Ht|reflexivity| | | |right; rewrite Ep; auto|left; exact Hp].
    + intros f Hf. cbn [b_mem b_mark b_pq b_delta b_started]. rewrite upd_nth_other by auto. auto.
    + unfold ginv. cbn [b_mem b_mark b_pq b_delta b_started]. rewrite upd_length. split; [auto 10|]. split; [auto|]. split; [auto|].
      intros b Hb. destruct (G3 b Hb) as [A B]. split; auto. destruct (Nat.eq_dec b from) as [->|]; [rewrite upd_nth_same by lia; discriminate|rewrite upd_nth_other by auto; auto].
    + assert (HB : base (mkB (b_mem s) (b_mark s) (b_pq s) (b_pqw s) (b_delta s) (upd from true (b_started s)) (upd t (mkT p (t_feas th)) (b_thr s))) from (ovl s from) 0).
      { unfold base. cbn [b_mem b_delta b_started]. split; auto. split; [apply upd_nth_same; lia|]. split; [|split; [lia|unfold overload; lia]].
        apply O; auto. intros t1 th1 E1 C. pose proof (TI t1 th1 E1) as (_ & H1). unfold base in H1.
        destruct (t_ph th1); cbn [ph_from] in C; try discriminate; injection C as ->; intuition congruence. }
      split; [auto|]. unfold p. cbn [t_ph]. destruct (_ && _); exact HB.
  - (* feas *) destruct (Nat.ltb_spec b k) as [Hk|]; eexists; (split; [reflexivity|]); local_step HI Ht Ep; (split; cbn [t_ph t_feas]; auto).
    destruct (_ <? _); auto. apply Forall_app. auto.
  - (* loop end *) destruct (_ && _); [exists s; auto|]. eexists; split; [reflexivity|].
    eapply (step_inv t th _ from); [exact HI|exact Ht|reflexivity|apply frame_local; reflexivity|apply HI|split; [auto|exact I]|left; rewrite Ep; reflexivity|right].
    split; [reflexivity|]. destruct HT' as (_ & _ & B3 & B4 & _). cbn [go set_thr b_mem b_delta]. lia.
  - (* pop *) destruct (Z.ltb_spec 0 over) as [Ho|]; cbn [andb]; [|exists s; auto]. destruct (in_list u _) eqn:Ei; [|exists s; auto]. apply in_list_spec in Ei.
    eexists; split; [reflexivity|]. assert (HB := HT'). destruct HT' as (Hk & _).
    destruct (G2 from u Hk Ei) as (U1 & U2 & U3).
    set (s1 := set_pq _ _ s). assert (SB : same_but_pq s s1) by (unfold same_but_pq, s1; cbn; rewrite upd_length; auto 10).
    assert (HQ : forall b v, In v (nth b (b_pq s1) []) -> In v (nth b (b_pq s) []) /\ (v = u -> b <> from)).
    { intros b v Hv. unfold s1 in Hv. cbn [set_pq b_pq] in Hv. destruct (Nat.eq_dec b from) as [->|].
      - rewrite upd_nth_same in Hv by lia. apply in_remove in Hv. intuition.
      - rewrite upd_nth_other in Hv by auto. auto. }
    eapply (step_inv t th _ from); [exact HI|exact Ht|reflexivity| | | |left; rewrite Ep; reflexivity|left; reflexivity].
    + apply (frame_pq from s s1); auto. intros b v Hv. left. apply HQ; auto.
    + apply (ginv_pq s s1); auto. intros b v Hb Hv. apply G2; auto. apply HQ; auto.
    + split; [auto|]. cbn [t_ph]. split; [exact HB|]. split; [auto|]. split; [auto|]. split; [auto|]. split; [auto|].
      change (~ In u (concat (b_pq s1))). rewrite in_concat_nth. intros (b & Hb & Hi). destruct SB as (_ & _ & _ & _ & _ & E5). apply HQ in Hi. destruct Hi as [Hi Hne].
      destruct (G2 b u ltac:(lia) Hi) as (_ & E & _). apply Hne; auto. congruence.
  - (* gain *) destruct HT' as [HB HC]. destruct fresh.
    + destruct (Nat.eqb_spec to from) as [->|Hne]; [eexists; split; [reflexivity|]; local_step HI Ht Ep; [split; auto; split; auto]|].
      destruct (Nat.ltb_spec to k); [|exists s; auto]. eexists; split; [reflexivity|]. local_step HI Ht Ep; split; [auto|cbn [t_ph]; split; [exact HB|split; [exact HC|]]].
      cbn [movep]. auto.
    + eexists; split; [reflexivity|]. local_step HI Ht Ep; [split; auto; split; auto].
  - (* rand *) destruct HT' as [HB HC]. destruct (t_feas th) as [|f0 fr] eqn:Ef.
    + eexists; split; [reflexivity|]. local_step HI Ht Ep; [split; [cbn [t_feas]; rewrite Ef; auto|split; auto]].
    + rewrite <- Ef in *. destruct (nth_error (t_feas th) i) as [b|] eqn:Eb; [|exists s; auto]. eexists; split; [reflexivity|].
      local_step HI Ht Ep; [split; [auto|cbn [t_ph]; split; [exact HB|split; [exact HC|]]]].
      cbn [movep]. destruct HC as (_ & _ & E & _). split; auto. split; auto. split; auto. apply (proj1 (Forall_forall _ _) HFe). eapply nth_error_In; eauto.
  - (* move *) destruct HT' as (HB & HC & HM). assert (HC' := HC). destruct HC' as (C1 & C2 & C3 & C4 & C5). assert (HB' := HB). destruct HB' as (B1 & B2 & B3 & B4 & B5).
    pose proof (Hvw u C2) as Hvu.
    destruct p as [|u' f to mx|u' f to mx nw|u' f to mx nw|u' f to|u' f to|u' f to|u' f to|u' f to mx|u' f to]; cbn [movep] in HM; try contradiction;
      cbn [thread_step]; cbn [pendov] in *.
    + (* load *) destruct HM as (-> & -> & M1 & ->). eexists; split; [reflexivity|].
      eapply (step_inv t th _ from); [exact HI|exact Ht|reflexivity|apply frame_local; reflexivity|apply HI| |left; rewrite Ep; reflexivity|left; reflexivity].
      split; [auto|]. cbn [t_ph]. split; [exact HB|]. split; [exact HC|]. cbn [movep]. split; [auto|]. intros ->. unfold overload, wt in B4. lia.
    + (* test *) destruct HM as ((-> & -> & M1 & ->) & M2). destruct (Z.leb_spec (nw + vw u) (lim to)) as [Hle|Hgt].
      * eexists; split; [reflexivity|]. eapply (step_inv t th _ from); [exact HI|exact Ht|reflexivity|apply frame_local; reflexivity|apply HI| |left; rewrite Ep; reflexivity|left; reflexivity].
        split; [auto|]. cbn [t_ph]. split; [exact HB|]. split; [exact HC|]. cbn [movep]. split; [auto|]. split; [|auto]. intros ->. specialize (M2 eq_refl). lia.
      * destruct rnd as [i|]; (eexists; split; [reflexivity|]);
          (eapply (step_inv t th _ from); [exact HI|exact Ht|reflexivity|apply frame_local; reflexivity|apply HI| |left; rewrite Ep; reflexivity|left; reflexivity]).
        -- split; [cbn [t_feas]; apply Forall_forall; intros x Hx; apply (proj1 (Forall_forall _ _) HFe), (swap_pop_incl i), Hx|]. cbn [t_ph]. split; [exact HB|exact HC].
        -- split; [auto|]. cbn [t_ph]. split; [exact HB|exact HC].
    + (* cas *) destruct HM as ((-> & -> & M1 & ->) & M2 & M3). destruct (Z.eqb_spec (nth to (m_weight (b_mem s)) 0) nw) as [E|E].
      * eexists; split; [reflexivity|].
        assert (OV : forall b, overload lim (mkMem (m_label (b_mem s)) (upd to (nw + vw u) (m_weight (b_mem s)))) b = ovl s b).
        { intros b. unfold overload, wt. cbn [m_weight]. destruct (Nat.eq_dec b to) as [->|]; [rewrite upd_nth_same by lia; lia|rewrite upd_nth_other by auto; auto]. }
        eapply (step_inv t th _ from); [exact HI|exact Ht|reflexivity| | | |left; rewrite Ep; reflexivity|left; reflexivity].
        -- intros f Hf. cbn [go set_thr b_mem b_mark b_pq b_delta b_started m_label]. rewrite OV. auto.
        -- unfold ginv. cbn [go set_thr b_mem b_mark b_pq b_delta b_started m_label m_weight]. rewrite upd_length. split; [auto 10|]. auto.
        -- split; [auto|]. cbn [t_ph]. split; [|split; [exact HC|cbn [movep]; auto]]. unfold base. cbn [go set_thr b_mem b_delta b_started pendov]. rewrite OV. auto.
      * eexists; split; [reflexivity|]. eapply (step_inv t th _ from); [exact HI|exact Ht|reflexivity|apply frame_local; reflexivity|apply HI| |left; rewrite Ep; reflexivity|left; reflexivity].
        split; [auto|]. cbn [t_ph]. split; [exact HB|]. split; [exact HC|]. cbn [movep]. split; [auto|]. contradiction.
    + (* sub *) destruct HM as (-> & -> & M1 & M2). eexists; split; [reflexivity|].
      assert (OV : forall b, b <> from -> overload lim (add_weight from (- vw u) (b_mem s)) b = ovl s b).
      { intros b Hne. unfold overload, wt, add_weight. cbn [m_weight]. rewrite upd_nth_other by auto. auto. }
      assert (OF : overload lim (add_weight from (- vw u) (b_mem s)) from = over - Z.min over (vw u)).
      { unfold overload, wt, add_weight in *. cbn [m_weight]. rewrite upd_nth_same by lia. lia. }
      eapply (step_inv t th _ from); [exact HI|exact Ht|reflexivity| | | |left; rewrite Ep; reflexivity|left; reflexivity].
      * intros f Hf. cbn [go set_thr b_mem b_mark b_pq b_delta b_started add_weight m_label]. change (mkMem _ _) with (add_weight from (- vw u) (b_mem s)). rewrite OV by auto. auto.
      * unfold ginv. cbn [go set_thr b_mem b_mark b_pq b_delta b_started add_weight m_label m_weight]. rewrite upd_length. split; [auto 10|]. auto.
      * split; [auto|]. cbn [t_ph]. split; [|split; [exact HC|cbn [movep]; auto]]. unfold base. cbn [go set_thr b_mem b_delta b_started pendov]. rewrite OF. auto.
    + (* store *) destruct HM as (-> & -> & M1 & M2). eexists; split; [reflexivity|].
      set (m' := mkMem (upd u to (m_label (b_mem s))) (m_weight (b_mem s))). set (d := Z.min over (vw u)) in *.
      assert (Hd : 0 <= d <= over) by (unfold d; lia).
      eapply (step_inv t th _ from); [exact HI|exact Ht|reflexivity| | | |left; rewrite Ep; reflexivity|left; reflexivity].
      * intros f Hf. cbn [go set_thr b_mem b_mark b_pq b_delta b_started m' m_label]. rewrite (upd_nth_other from f) by auto. split; [|auto].
        intros v Hv Hvn. destruct (Nat.eq_dec v u) as [->|]; [congruence|]. rewrite upd_nth_other by auto. auto.
      * unfold ginv. cbn [go set_thr b_mem b_mark b_pq b_delta b_started m' m_label m_weight]. rewrite !upd_length. split; [auto 10|]. split; [|split].
        -- intros v Hv. destruct (Nat.eq_dec v u) as [->|]; [|rewrite upd_nth_other by auto; auto]. rewrite upd_nth_same by lia. split; auto. right.
           destruct (G1 u C2) as [_ [E|E]]; auto. rewrite <- E, C3. pose proof (proj1 (G3 from B1)). lia.
        -- intros b v Hb Hv. destruct (G2 b v Hb Hv) as (E1 & E2 & E3). destruct (Nat.eq_dec v u) as [->|]; [|rewrite upd_nth_other by auto; auto].
           exfalso. apply C5. apply in_concat_nth. exists b. split; [lia|auto].
        -- intros b Hb. destruct (G3 b Hb) as [E1 E2]. destruct (Nat.eq_dec b from) as [->|]; [|rewrite upd_nth_other by auto; auto].
           rewrite upd_nth_same by lia. split; [lia|congruence].
      * split; [auto|]. cbn [t_ph]. split.
        -- unfold base. cbn [go set_thr b_mem b_delta b_started]. rewrite upd_nth_same by lia. change (overload lim m' from) with (ovl s from). split; [auto|]. split; [auto|]. lia.
        -- apply Forall_forall. intros v Hv. apply in_map_iff in Hv. destruct Hv as ([v' w] & <- & Hv). cbn [fst]. eapply Hcl; eauto.
  - (* add *) destruct HT' as (HB & C1 & C2 & C3 & C4 & C5). assert (Hk : (from < k)%nat) by apply HB. destruct (add_ok g k lim from u gt s Hk L3 C5) as (s1 & E1 & SB & HQ). rewrite E1.
    eexists; split; [reflexivity|]. assert (Et : b_thr s1 = b_thr s) by apply SB.
    eapply (step_inv t th _ from); [exact HI|exact Ht|cbn [go set_thr b_thr]; rewrite Et; reflexivity| | | |left; rewrite Ep; reflexivity|left; reflexivity].
    + apply (frame_pq from s s1); auto. intros b v Hv. apply HQ in Hv. destruct Hv as [|[-> ->]]; auto.
    + apply (ginv_pq s s1); auto. intros b v Hb Hv. apply HQ in Hv. destruct Hv as [|[-> ->]]; auto.
    + split; [auto|]. cbn [t_ph]. apply (base_pq s s1); auto.
  - (* adj *) destruct HT' as (HB & HV). destruct vs as [|v vs].
    + eexists; split; [reflexivity|]. local_step HI Ht Ep; [split; auto].
    + inversion HV as [|? ? Hv HV']; subst. destruct (mark s v) eqn:Em; cbn [negb andb].
      * eexists; split; [reflexivity|]. local_step HI Ht Ep; [split; auto; split; auto].
      * destruct (Nat.eqb_spec (label s v) from); (eexists; split; [reflexivity|]; local_step HI Ht Ep; [split; auto; split; auto]).
  - (* addn *) destruct HT' as (HB & HV & C3 & C4). assert (Hk : (from < k)%nat) by apply HB. inversion HV as [|? ? Hv HV']; subst x l.
    assert (C5 : ~ In v (concat (b_pq s))).
    { rewrite in_concat_nth. intros (b & Hb & Hi). destruct (G2 b v ltac:(lia) Hi) as (_ & _ & E). congruence. }
    destruct (add_ok g k lim from v gt s Hk L3 C5) as (s1 & E1 & SB & HQ). rewrite E1. assert (SB' := SB). destruct SB' as (S1 & S2 & S3 & S4 & S5 & S6).
    eexists; split; [reflexivity|].
    eapply (step_inv t th _ from); [exact HI|exact Ht|cbn [go set_thr b_thr]; rewrite S5; reflexivity| | | |left; rewrite Ep; reflexivity|left; reflexivity].
    + intros f Hf. cbn [go set_thr b_mem b_mark b_pq b_delta b_started]. rewrite S1, S2, S3, S4. split; [|auto]. intros x Hl Hx. split; [auto|]. split; [apply upd_nth_other; congruence|].
      rewrite !in_concat_nth, S6. intros (b & Hb & Hi). apply HQ in Hi. destruct Hi as [|[-> ->]]; [exists b; auto|congruence].
    + unfold ginv. cbn [go set_thr b_mem b_mark b_pq b_delta b_started]. rewrite S1, S2, S3, S4, S6, upd_length. split; [auto 10|]. split; [auto|]. split; [|auto].
      intros b x Hb Hi. apply HQ in Hi. destruct Hi as [Hi|[-> ->]].
      * destruct (G2 b x Hb Hi) as (A1 & A2 & A3). split; auto. split; auto. destruct (Nat.eq_dec x v) as [->|]; [apply upd_nth_same; lia|rewrite upd_nth_other by auto; auto].
      * split; auto. split; auto. apply upd_nth_same. lia.
    + split; [auto|]. cbn [t_ph]. split; [|auto]. apply (base_pq s s1) in HB; auto.
Qed.
End B.
