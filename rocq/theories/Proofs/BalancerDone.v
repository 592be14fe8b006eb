(* When the balancer returns, no block is overloaded. *)
From Verif Require Import Lib.Prelude Spec.Graph Model.BlockWeightModel Model.BalancerModel Proofs.BlockWeightProofs Proofs.FmRoundProofs Proofs.BalancerProofs Proofs.BalancerTop.
Local Open Scope Z_scope.

Lemma remove_notin (v : nat) q : ~ In v q -> remove Nat.eq_dec v q = q.
Proof. apply notin_remove. Qed.
Lemma remove_sum (f : nat -> Z) v q : NoDup q -> In v q -> zsum (map f (remove Nat.eq_dec v q)) = zsum (map f q) - f v.
Proof.
  induction q as [|x q IH]; intros ND I; [destruct I|]. inversion ND as [|? ? N ND']; subst. destruct I as [->|I]; cbn [remove].
  - destruct (Nat.eq_dec v v) as [_|]; [|contradiction]. rewrite remove_notin by exact N. cbn. lia.
  - destruct (Nat.eq_dec v x) as [->|]; [contradiction|]. cbn [map zsum]. rewrite IH by auto. lia.
Qed.
Lemma remove_NoDup (v : nat) q : NoDup q -> NoDup (remove Nat.eq_dec v q).
Proof.
  induction q as [|x q IH]; intros ND; [exact ND|]. inversion ND as [|? ? N ND']; subst. cbn [remove]. destruct (Nat.eq_dec v x); [auto|].
  constructor; [|auto]. intros I. apply in_remove in I. tauto.
Qed.

Section A.
Variable g : graph.
Variable k : nat.
Variable lim : nat -> Z.
Notation vw := (gvw g).
Notation pqw s b := (nth b (b_pqw s) 0).
Definition qok (s : bal) : Prop := length (b_pqw s) = k /\ length (b_pq s) = k /\
  forall b, (b < k)%nat -> NoDup (nth b (b_pq s) []) /\ pqw s b = zsum (map vw (nth b (b_pq s) [])).

Lemma set_qok b q s : qok s -> (b < k)%nat -> NoDup q -> qok (set_pq (upd b q (b_pq s)) (upd b (zsum (map vw q)) (b_pqw s)) s).
Proof.
  intros (L1 & L2 & H) Hb ND. unfold qok, set_pq. cbn [b_pq b_pqw]. rewrite !upd_length. split; [exact L1|]. split; [exact L2|]. intros b' Hb'.
  destruct (Nat.eq_dec b' b) as [->|N]; [rewrite !upd_nth_same by lia; auto|rewrite !upd_nth_other by auto; auto].
Qed.

Lemma add_cov b u gt s s' : qok s -> (b < k)%nat -> add_to_pq g lim b u gt s = Some s' ->
  qok s' /\ (forall b', b' <> b -> pqw s' b' = pqw s b' /\ nth b' (b_pq s') [] = nth b' (b_pq s) []) /\ same_but_pq s s' /\
  (overload lim (b_mem s) b <= pqw s' b \/ pqw s' b = pqw s b + vw u).
Proof.
  intros Q Hb. unfold add_to_pq. destruct (in_list u (concat (b_pq s))) eqn:Ei; [discriminate|]. apply in_list_false in Ei. cbv zeta.
  set (gt' := match gt with Some v => _ | None => None end).
  assert (Hgt : forall v, gt' = Some v -> In v (nth b (b_pq s) [])).
  { intros v E. unfold gt' in E. destruct gt as [x|]; [|discriminate]. destruct (in_list x _) eqn:Ex; [|discriminate]. injection E as <-. apply in_list_spec. exact Ex. }
  clearbody gt'. assert (Q' := Q). destruct Q' as (L1 & L2 & H). destruct (H b Hb) as (ND & E).
  assert (Nu : ~ In u (nth b (b_pq s) [])) by (intros I; apply Ei, in_concat_nth; exists b; split; [lia|exact I]).
  assert (ND1 : NoDup (nth b (b_pq s) [] ++ [u])).
  { apply (Permutation_NoDup (Permutation_cons_append _ _)). constructor; assumption. }
  assert (E1 : pqw s b + vw u = zsum (map vw (nth b (b_pq s) [] ++ [u]))) by (rewrite map_app, zsum_app, E; cbn; lia).
  assert (OT : forall q w b', b' <> b -> pqw (set_pq (upd b q (b_pq s)) (upd b w (b_pqw s)) s) b' = pqw s b' /\ nth b' (b_pq (set_pq (upd b q (b_pq s)) (upd b w (b_pqw s)) s)) [] = nth b' (b_pq s) []).
  { intros q w b' N. cbn [set_pq b_pq b_pqw]. rewrite !upd_nth_other by auto. auto. }
  assert (SB : forall q w, same_but_pq s (set_pq (upd b q (b_pq s)) (upd b w (b_pqw s)) s)).
  { intros q w. unfold same_but_pq, set_pq. cbn. rewrite upd_length. auto 10. }
  destruct (_ || _ || _) eqn:C.
  - destruct gt' as [v|].
    + assert (Iv : In v (nth b (b_pq s) [] ++ [u])) by (apply in_app_iff; left; auto). rewrite E1. destruct (Z.leb_spec (overload lim (b_mem s) b) (zsum (map vw (nth b (b_pq s) [] ++ [u])) - vw v)) as [O|O];
        intros X; injection X as <-.
      * rewrite <- remove_sum by assumption. split; [apply set_qok; auto; apply remove_NoDup; exact ND1|]. split; [apply OT|]. split; [apply SB|].
        left. cbn [set_pq b_pqw]. rewrite upd_nth_same by lia. rewrite remove_sum by assumption. exact O.
      * split; [apply set_qok; auto|]. split; [apply OT|]. split; [apply SB|]. right. cbn [set_pq b_pqw]. rewrite upd_nth_same by lia. lia.
    + rewrite E1. intros X; injection X as <-. split; [apply set_qok; auto|]. split; [apply OT|]. split; [apply SB|]. right. cbn [set_pq b_pqw]. rewrite upd_nth_same by lia. lia.
  - intros X; injection X as <-. split; [exact Q|]. split; [auto|]. split; [unfold same_but_pq; auto 10|]. left.
    apply orb_false_iff in C as (C & _). apply orb_false_iff in C as (C & _). apply Z.ltb_ge in C. exact C.
Qed.

(** Merging the thread-local queues: a queue holds at least the overload, or all nodes so far. *)
Notation label s u := (nth u (m_label (b_mem s)) 0%nat).
Lemma merge_cov order : forall pre s s', qok s -> (forall u, In u (map fst order) -> (label s u < k)%nat /\ 0 <= vw u) ->
  (forall b, (b < k)%nat -> overload lim (b_mem s) b <= pqw s b \/ pqw s b = zsum (map vw (filter (fun u => (label s u =? b)%nat) pre))) ->
  merge_pqs g lim order s = Some s' ->
  qok s' /\ b_mem s' = b_mem s /\
  (forall b, (b < k)%nat -> overload lim (b_mem s) b <= pqw s' b \/ pqw s' b = zsum (map vw (filter (fun u => (label s u =? b)%nat) (pre ++ map fst order)))).
Proof.
  induction order as [|[u gt] order IH]; intros pre s s' Q HL C; cbn [merge_pqs].
  - intros E; injection E as <-. split; [exact Q|]. split; [reflexivity|]. cbn [map]. rewrite app_nil_r. exact C.
  - destruct (add_to_pq g lim (label s u) u gt s) as [s1|] eqn:E1; [|discriminate]. intros E.
    destruct (add_cov _ _ _ _ _ Q (proj1 (HL u (or_introl eq_refl))) E1) as (Q1 & O & SB & Cv). assert (Em : b_mem s1 = b_mem s) by apply SB.
    destruct (IH (pre ++ [u]) s1 s') as (R1 & R2 & R3); [exact Q1| | |exact E|].
    + intros v Iv. rewrite Em. apply HL. right. exact Iv.
    + intros b Hb. rewrite Em. rewrite filter_app, map_app, zsum_app. cbn [filter]. destruct (Nat.eqb_spec (label s u) b) as [Eb|Nb].
      * rewrite Eb in Cv. cbn [map zsum]. destruct Cv as [Cv|Cv]; [left; exact Cv|]. destruct (C b Hb) as [C'|C']; [|right; lia].
        left. rewrite Cv. pose proof (proj2 (HL u (or_introl eq_refl))). lia.
      * cbn [map zsum]. destruct (O b ltac:(congruence)) as (-> & _). destruct (C b Hb) as [C'|C']; [left; exact C'|right; lia].
    + split; [exact R1|]. split; [congruence|]. rewrite Em in R3. rewrite <- app_assoc in R3. exact R3.
Qed.
End A.

Section B.
Variable g : graph.
Variable k : nat.
Variables (lim perf : nat -> Z).
Notation n := (gn g).
Notation vw := (gvw g).
Notation label s u := (nth u (m_label (b_mem s)) 0%nat).
Notation pqw s b := (nth b (b_pqw s) 0).
Notation ovl s b := (overload lim (b_mem s) b).
Notation b_step := (b_step g k lim perf).
Notation b_run := (b_run g k lim perf).
Hypothesis Hcl : closed_graph g.
Hypothesis Hvw : forall u, (u < n)%nat -> 0 <= vw u.
Variables (ov0 : nat -> Z) (lab0 : list nat).
Notation INV := (INV g k lim ov0 lab0).

Definition cov_ph (s : bal) (p : ph) : Prop :=
  match p with
  | TIdle => True
  | TFeas f over _ | TLoop f over | TAdj f over _ | TAddN f over _ _ => over <= pqw s f
  | TGain f over u | TRand f over u | TMove f over u _ _ | TAdd f over u => over <= pqw s f + vw u
  end.
Definition DN (s : bal) : Prop :=
  qok g k s /\ (forall t th, nth_error (b_thr s) t = Some th -> cov_ph s (t_ph th)) /\
  (forall b, (b < k)%nat -> nth b (b_started s) true = false -> ovl s b <= pqw s b) /\
  (forall b, (b < k)%nat -> nth b (b_started s) true = true -> (forall t th, nth_error (b_thr s) t = Some th -> ph_from (t_ph th) <> Some b) -> ovl s b = 0).

Lemma qok_nonneg s b : INV s -> qok g k s -> (b < k)%nat -> 0 <= pqw s b.
Proof.
  intros ((_ & _ & G2 & _) & _) (_ & _ & Q) Hb. destruct (Q b Hb) as (_ & ->). apply zsum_nonneg. intros x I. apply in_map_iff in I as (v & <- & Iv).
  apply Hvw. apply (G2 b v Hb Iv).
Qed.

(** A step of thread [t] that keeps working for block [f]. *)
Lemma dn_upd s s' t th th' f : INV s -> DN s -> nth_error (b_thr s) t = Some th -> b_thr s' = upd t th' (b_thr s) -> b_started s' = b_started s ->
  ph_from (t_ph th) = Some f -> ph_from (t_ph th') = Some f -> qok g k s' ->
  (forall b, b <> f -> pqw s' b = pqw s b /\ ovl s' b = ovl s b) -> cov_ph s' (t_ph th') -> DN s'.
Proof.
  intros HI (D1 & D2 & D3 & D4) Ht Et Es Pf Pf' Q O C. assert (Hlt : (t < length (b_thr s))%nat) by (apply nth_error_Some; congruence).
  assert (Hs : (f < k)%nat /\ nth f (b_started s) true = true).
  { destruct HI as (_ & TI & _). pose proof (TI t th Ht) as (_ & H). unfold base in H. destruct (t_ph th); cbn [ph_from] in Pf; try discriminate; injection Pf as ->; tauto. }
  split; [exact Q|]. rewrite Et, Es. split; [|split].
  - intros t1 th1 E. rewrite ne_upd in E by exact Hlt. destruct (Nat.eqb_spec t1 t) as [->|N]; [injection E as <-; exact C|].
    pose proof (D2 t1 th1 E) as C1. assert (NF : ph_from (t_ph th1) <> Some f).
    { intros P. apply N. destruct HI as (_ & _ & D & _). eapply (D t1 th1 t th f); eassumption. }
    destruct (t_ph th1); cbn [cov_ph ph_from] in *; auto; (match goal with |- context [nth ?x (b_pqw s') 0] => rewrite (proj1 (O x ltac:(congruence))) end; exact C1).
  - intros b Hb Hn. destruct (Nat.eq_dec b f) as [->|N]; [destruct Hs; congruence|]. destruct (O b N) as (-> & ->). apply D3; assumption.
  - intros b Hb Hst Hno. destruct (Nat.eq_dec b f) as [->|N].
    + exfalso. apply (Hno t th'); [|exact Pf']. rewrite ne_upd, Nat.eqb_refl by exact Hlt. reflexivity.
    + destruct (O b N) as (_ & ->). apply D4; [exact Hb|exact Hst|]. intros t1 th1 E. destruct (Nat.eq_dec t1 t) as [->|Nt]; [rewrite Ht in E; injection E as <-; congruence|].
      apply (Hno t1 th1). rewrite ne_upd by exact Hlt. destruct (Nat.eqb_spec t1 t); [contradiction|exact E].
Qed.

Ltac keep HI HD Ht Ep Q := eapply dn_upd; [exact HI|exact HD|exact Ht|reflexivity|reflexivity|rewrite Ep; reflexivity|reflexivity|exact Q|intros; split; reflexivity|].
Lemma done_step e s s' : INV s -> DN s -> b_step e s = Some s' -> DN s'.
Proof.
  intros HI HD. destruct e as [t ac]. unfold BalancerModel.b_step. destruct (nth_error (b_thr s) t) as [th|] eqn:Ht; [|intros E; injection E as <-; exact HD].
  assert (HI' := HI). destruct HI' as (G & TI & D & O). pose proof (TI t th Ht) as (HFe & HT').
  destruct G as ((L1 & L2 & L3 & L4 & L5 & L6) & G1 & G2 & G3). assert (HD' := HD). destruct HD' as (Q & D2 & D3 & D4). pose proof (D2 t th Ht) as HP.
  assert (Hlt : (t < length (b_thr s))%nat) by (apply nth_error_Some; congruence).
  destruct (t_ph th) eqn:Ep, ac; cbn [cov_ph] in HP; try (intros E; injection E as <-; exact HD).
  - (* task *) destruct (Nat.ltb_spec from k) as [Hk|]; [|intros E; injection E as <-; exact HD].
    destruct (nth from (b_started s) true) eqn:Es; cbn [andb negb]; intros E; injection E as <-; [exact HD|].
    set (p := if _ : bool then _ else _). assert (Hp : ph_from p = Some from) by (unfold p; destruct (_ && _); reflexivity).
    split; [exact Q|]. cbn [b_started b_pq b_pqw b_mem b_thr]. split; [|split].
    + intros t1 th1 E. rewrite ne_upd in E by exact Hlt. destruct (Nat.eqb_spec t1 t) as [->|N].
      * injection E as <-. cbn [t_ph]. unfold p. destruct (_ && _); cbn [cov_ph b_pqw]; apply D3; assumption.
      * pose proof (D2 t1 th1 E) as C. destruct (t_ph th1); exact C.
    + intros b Hb Hn. apply D3; [exact Hb|]. destruct (Nat.eq_dec b from) as [->|N]; [exact Es|]. rewrite upd_nth_other in Hn by auto. exact Hn.
    + intros b Hb Hst Hno. destruct (Nat.eq_dec b from) as [->|N].
      * exfalso. apply (Hno t (mkT p (t_feas th))); [|exact Hp]. rewrite ne_upd, Nat.eqb_refl by exact Hlt. reflexivity.
      * rewrite upd_nth_other in Hst by auto. apply D4; [exact Hb|exact Hst|]. intros t1 th1 E. destruct (Nat.eq_dec t1 t) as [->|Nt]; [rewrite Ht in E; injection E as <-; rewrite Ep; discriminate|].
        apply (Hno t1 th1). rewrite ne_upd by exact Hlt. destruct (Nat.eqb_spec t1 t); [contradiction|exact E].
  - destruct (_ <? _)%nat; intros E; injection E as <-; keep HI HD Ht Ep Q; exact HP.
  - (* end of the task *) destruct HT' as (B1 & B2 & B3 & B4 & B5). assert (Z0 : (0 <? over) && negb (length (nth from (b_pq s) []) =? 0)%nat = false -> over = 0).
    { intros E. destruct (Z.ltb_spec 0 over) as [Ho|Ho]; [|lia]. cbn [andb] in E. apply negb_false_iff, Nat.eqb_eq, length_zero_iff_nil in E.
      destruct Q as (_ & _ & Q). destruct (Q from B1) as (_ & Eq). rewrite E in Eq. cbn in Eq. lia. }
    destruct (_ && _); intros E; injection E as <-; [exact HD|]. specialize (Z0 eq_refl). split; [exact Q|]. cbn [go set_thr b_started b_pq b_pqw b_mem b_thr]. split; [|split].
    + intros t1 th1 E. rewrite ne_upd in E by exact Hlt. destruct (Nat.eqb_spec t1 t) as [->|N]; [injection E as <-; exact I|]. pose proof (D2 t1 th1 E) as C. destruct (t_ph th1); exact C.
    + exact D3.
    + intros b Hb Hst Hno. destruct (Nat.eq_dec b from) as [->|N]; [lia|]. apply D4; [exact Hb|exact Hst|].
      intros t1 th1 E. destruct (Nat.eq_dec t1 t) as [->|Nt]; [rewrite Ht in E; injection E as <-; rewrite Ep; cbn [ph_from]; congruence|].
      apply (Hno t1 th1). rewrite ne_upd by exact Hlt. destruct (Nat.eqb_spec t1 t); [contradiction|exact E].
  - (* pop *) destruct (_ && _) eqn:C; intros E; injection E as <-; [|exact HD]. apply andb_true_iff in C as (C1 & C2). apply in_list_spec in C2. assert (Hk : (from < k)%nat) by apply HT'.
    assert (Q' := Q). destruct Q' as (K1 & K2 & Qb). destruct (Qb from Hk) as (ND & Eq).
    eapply (dn_upd s _ t th _ from); [exact HI|exact HD|exact Ht|reflexivity|reflexivity|rewrite Ep; reflexivity|reflexivity| | |].
    + pose proof (set_qok g k lim from (remove Nat.eq_dec u (nth from (b_pq s) [])) s Q Hk (remove_NoDup u _ ND)) as R. rewrite remove_sum, <- Eq in R by assumption. exact R.
    + intros b N. cbn [go set_thr set_pq b_pqw b_mem]. rewrite upd_nth_other by auto. split; reflexivity.
    + cbn [t_ph cov_ph go set_thr set_pq b_pqw]. rewrite upd_nth_same by lia. lia.
  - (* gain *) destruct fresh; [destruct (_ =? _)%nat; [|destruct (_ <? _)%nat]|]; intros E; injection E as <-; try exact HD; keep HI HD Ht Ep Q; exact HP.
  - (* rand *) destruct (t_feas th) as [|f0 fr]; [intros E; injection E as <-; keep HI HD Ht Ep Q; exact HP|].
    destruct (nth_error _ i); intros E; injection E as <-; [|exact HD]. keep HI HD Ht Ep Q. exact HP.
  - (* move *) destruct HT' as (HB & HC & HM). destruct HC as (C1 & C2 & C3 & C4 & C5). assert (HB' := HB). destruct HB' as (B1 & B2 & B3 & B4 & B5).
    pose proof (Hvw u C2) as Hvu.
    destruct p as [|u' f to mx|u' f to mx nw|u' f to mx nw|u' f to|u' f to|u' f to|u' f to|u' f to mx|u' f to]; cbn [movep] in HM; try contradiction; cbn [thread_step pendov] in *.
    + destruct HM as (-> & -> & M1 & ->). intros E; injection E as <-. keep HI HD Ht Ep Q. exact HP.
    + destruct HM as ((-> & -> & M1 & ->) & M2). destruct (_ <=? _); [|destruct rnd]; intros E; injection E as <-; keep HI HD Ht Ep Q; exact HP.
    + destruct HM as ((-> & -> & M1 & ->) & M2 & M3). destruct (Z.eqb_spec (nth to (m_weight (b_mem s)) 0) nw) as [Ew|Ew]; intros E; injection E as <-; [|keep HI HD Ht Ep Q; exact HP].
      eapply (dn_upd s _ t th _ from); [exact HI|exact HD|exact Ht|reflexivity|reflexivity|rewrite Ep; reflexivity|reflexivity|exact Q| |exact HP].
      intros b N. split; [reflexivity|]. unfold overload, wt. cbn [go set_thr b_mem m_weight]. destruct (Nat.eq_dec b to) as [->|]; [rewrite upd_nth_same by lia; lia|rewrite upd_nth_other by auto; reflexivity].
    + destruct HM as (-> & -> & M1 & M2). intros E; injection E as <-.
      eapply (dn_upd s _ t th _ from); [exact HI|exact HD|exact Ht|reflexivity|reflexivity|rewrite Ep; reflexivity|reflexivity|exact Q| |exact HP].
      intros b N. split; [reflexivity|]. unfold overload, wt, add_weight. cbn [go set_thr b_mem m_weight]. rewrite upd_nth_other by auto. reflexivity.
    + destruct HM as (-> & -> & M1 & M2). intros E; injection E as <-.
      eapply (dn_upd s _ t th _ from); [exact HI|exact HD|exact Ht|reflexivity|reflexivity|rewrite Ep; reflexivity|reflexivity|exact Q| |].
      * intros b N. split; reflexivity.
      * cbn [t_ph cov_ph go set_thr b_pqw]. pose proof (qok_nonneg s from HI Q B1). lia.
  - (* add *) destruct HT' as (HB & HC). assert (Hk : (from < k)%nat) by apply HB. destruct (add_to_pq g lim from u gt s) as [s1|] eqn:Ea; [|discriminate].
    intros E; injection E as <-. destruct (add_cov g k lim from u gt s s1 Q Hk Ea) as (Q1 & O1 & SB & Cv). destruct SB as (S1 & S2 & S3 & S4 & S5 & S6).
    eapply (dn_upd s _ t th _ from); [exact HI|exact HD|exact Ht|cbn [go set_thr b_thr]; rewrite S5; reflexivity|exact S4|rewrite Ep; reflexivity|reflexivity|exact Q1| |].
    + intros b N. cbn [go set_thr b_pqw b_mem]. rewrite S1. split; [apply (O1 b N)|reflexivity].
    + cbn [t_ph cov_ph go set_thr b_pqw]. destruct HB as (_ & _ & _ & B4 & _). destruct Cv as [Cv|Cv]; lia.
  - (* adj *) destruct vs as [|v vs]; [|destruct (_ && _)]; intros E; injection E as <-; keep HI HD Ht Ep Q; exact HP.
  - (* addn *) destruct HT' as (HB & HV & _). inversion HV as [|? ? Hv _]; subst x l. pose proof (Hvw v Hv) as Hvv. assert (Hk : (from < k)%nat) by apply HB.
    destruct (add_to_pq g lim from v gt s) as [s1|] eqn:Ea; [|discriminate].
    intros E; injection E as <-. destruct (add_cov g k lim from v gt s s1 Q Hk Ea) as (Q1 & O1 & SB & Cv). destruct SB as (S1 & S2 & S3 & S4 & S5 & S6).
    eapply (dn_upd s _ t th _ from); [exact HI|exact HD|exact Ht|cbn [go set_thr b_thr]; rewrite S5; reflexivity|exact S4|rewrite Ep; reflexivity|reflexivity|exact Q1| |].
    + intros b N. cbn [go set_thr b_pqw b_mem]. rewrite S1. split; [apply (O1 b N)|reflexivity].
    + cbn [t_ph cov_ph go set_thr b_pqw]. destruct HB as (_ & _ & _ & B4 & _). destruct Cv as [Cv|Cv]; lia.
Qed.
Lemma done_run es : forall s s', INV s -> DN s -> b_run es s = Some s' -> INV s' /\ DN s'.
Proof.
  induction es as [|e es IH]; intros s s' HI HD; cbn [BalancerModel.b_run]; [intros E; injection E as <-; auto|].
  destruct (step_bal g k lim perf Hcl Hvw _ _ e s HI) as (s1 & E & H1). rewrite E. apply IH; [exact H1|exact (done_step e s s1 HI HD E)].
Qed.
End B.

(** All nodes of an overloaded block are candidates. *)
Lemma candidates_weight g lim m b : 0 < overload lim m b ->
  zsum (map (gvw g) (filter (fun u => (nth u (m_label m) 0 =? b)%nat) (overloaded_nodes g lim m))) = block_weight g (fun u => nth u (m_label m) 0%nat) b.
Proof.
  intros Ho. unfold overloaded_nodes, block_weight, sumn. induction (seq 0 (gn g)) as [|u l IH]; [reflexivity|]. cbn [filter map zsum].
  destruct (Nat.eqb_spec (nth u (m_label m) 0%nat) b) as [E|E].
  - rewrite E. destruct (Z.ltb_spec 0 (overload lim m b)); [|lia]. cbn [filter]. rewrite E, Nat.eqb_refl. cbn [map zsum]. rewrite IH. reflexivity.
  - destruct (0 <? _); [cbn [filter]; destruct (Nat.eqb_spec (nth u (m_label m) 0%nat) b); [contradiction|]|]; rewrite IH; reflexivity.
Qed.

Theorem balancer_done g k lim perf : closed_graph g -> (forall u, (u < gn g)%nat -> 0 <= gvw g u) -> (forall b, (b < k)%nat -> 0 <= lim b) ->
  forall T m order es s0 s, exact_block_weights g (m_label m) (m_weight m) -> length (m_weight m) = k ->
  Permutation (map fst order) (overloaded_nodes g lim m) ->
  init_bal g k lim T m order = Some s0 -> b_run g k lim perf es s0 = Some s -> b_finished s = true ->
  exact_block_weights g (m_label (b_mem s)) (m_weight (b_mem s)) /\ length (m_weight (b_mem s)) = k /\
  forall b, (b < k)%nat -> block_weight g (fun u => nth u (m_label (b_mem s)) 0%nat) b <= lim b.
Proof.
  intros Hcl Hvw Hlim T m order es s0 s E0 HK HP HI HR HF.
  destruct (balancer_safe g k lim perf Hcl Hvw T m order es E0 HK HP) as (s0' & s' & I1 & R1 & _ & _ & _ & X).
  rewrite HI in I1. injection I1 as <-. rewrite HR in R1. injection R1 as <-. destruct (X HF) as (X1 & X2 & _). split; [exact X1|]. split; [exact X2|].
  assert (E0' := E0). destruct E0' as (E1 & E2 & E3). destruct (init_ok g k lim T m order E1 HK) as (s0' & J1 & J2 & J3 & J4); [intros u Hu; rewrite <- HK; auto|exact HP|].
  rewrite HI in J1. injection J1 as <-.
  assert (HO : forall u, In u (map fst order) -> (u < gn g)%nat).
  { intros u Hu. apply (Permutation_in _ HP) in Hu. unfold overloaded_nodes in Hu. apply filter_In in Hu. rewrite in_seq in Hu. lia. }
  assert (D0 : DN g k lim s0).
  { unfold init_bal in HI. set (i0 := mkB _ _ _ _ _ _ _) in HI.
    destruct (merge_cov g k lim order [] i0 s0) as (Q & Em & Cv); [| | |exact HI|].
    - unfold qok, i0. cbn [b_pq b_pqw]. rewrite !repeat_length. split; [reflexivity|]. split; [reflexivity|]. intros b Hb. rewrite !nth_repeat. split; [constructor|reflexivity].
    - intros u Hu. split; [|apply Hvw, HO, Hu]. unfold i0. cbn [b_mem]. rewrite <- HK. apply E2, HO, Hu.
    - intros b Hb. right. unfold i0. cbn [b_pqw filter map zsum]. apply nth_repeat.
    - assert (Es : b_started s0 = repeat false k).
      { destruct (merge_ok g k lim order i0) as (s1 & Y1 & Y2 & _).
        - unfold i0. cbn [b_pq]. apply repeat_length.
        - eapply Permutation_NoDup; [apply Permutation_sym; exact HP|]. apply NoDup_filter, seq_NoDup.
        - intros v Hv. unfold i0. cbn [b_mem b_pq]. split; [rewrite <- HK; apply E2, HO, Hv|]. rewrite in_concat_nth, repeat_length. intros (b & Hb & Hi). rewrite nth_repeat in Hi. destruct Hi.
        - rewrite HI in Y1. injection Y1 as <-. apply Y2. }
      split; [exact Q|]. split; [|split].
      + intros t th E. rewrite J4 in E. apply nth_error_In, repeat_spec in E. subst th. exact I.
      + intros b Hb _. rewrite J3. assert (Eb : b_mem i0 = m) by reflexivity. rewrite Eb in Cv. cbn [app] in Cv. destruct (Cv b Hb) as [C|C]; [exact C|].
        destruct (Z.ltb_spec 0 (overload lim m b)) as [Ho|Ho].
        * rewrite C. rewrite (zsum_perm _ (map (gvw g) (filter (fun u => (nth u (m_label m) 0 =? b)%nat) (overloaded_nodes g lim m)))).
          -- rewrite candidates_weight by exact Ho. rewrite <- E3 by lia. unfold overload, wt. pose proof (Hlim b Hb). unfold overload, wt in Ho. lia.
          -- apply Permutation_map. clear - HP. induction HP as [|x l l' HP IH|x y l|l l' l'' H1 IH1 H2 IH2]; cbn [filter]; [constructor| | |eapply Permutation_trans; eassumption].
             ++ destruct (_ =? _)%nat; [constructor|]; exact IH.
             ++ destruct (nth x (m_label m) 0 =? b)%nat, (nth y (m_label m) 0 =? b)%nat; try apply perm_swap; apply Permutation_refl.
        * pose proof (qok_nonneg g k lim Hvw (overload lim m) (m_label m) s0 b J2 Q Hb). lia.
      + intros b Hb Hst. exfalso. rewrite Es in Hst. rewrite (nth_indep _ true false) in Hst by (rewrite repeat_length; exact Hb). rewrite nth_repeat in Hst. discriminate. }
  destruct (done_run g k lim perf Hcl Hvw (overload lim m) (m_label m) es s0 s J2 D0 HR) as (I2 & (_ & _ & _ & D4)).
  intros b Hb. destruct X1 as (_ & _ & X3). rewrite <- X3 by lia. unfold b_finished in HF. apply andb_true_iff in HF as (F1 & F2). rewrite forallb_forall in F1, F2.
  assert (Z0 : overload lim (b_mem s) b = 0).
  { apply D4; [exact Hb| |].
    - apply F1, nth_In. destruct I2 as (((_ & _ & _ & _ & L5 & _) & _) & _). lia.
    - intros t th E. apply nth_error_In in E. specialize (F2 th E). destruct (t_ph th); discriminate. }
  unfold overload, wt in Z0. lia.
Qed.

Lemma balancer_returns_true g k lim perf : closed_graph g -> (forall u, (u < gn g)%nat -> 0 <= gvw g u) -> (forall b, (b < k)%nat -> 0 <= lim b) ->
  forall T m order es s0 s, exact_block_weights g (m_label m) (m_weight m) -> length (m_weight m) = k ->
  Permutation (map fst order) (overloaded_nodes g lim m) ->
  init_bal g k lim T m order = Some s0 -> b_run g k lim perf es s0 = Some s -> b_finished s = true ->
  b_returns k lim m s = true /\ forall b, (b < k)%nat -> block_weight g (fun u => nth u (m_label (b_mem s)) 0%nat) b <= lim b.
Proof.
  intros Hcl Hvw Hlim T m order es s0 s E0 HK HP HI HR HF.
  destruct (balancer_done g k lim perf Hcl Hvw Hlim T m order es s0 s E0 HK HP HI HR HF) as (_ & _ & B). split; [|exact B].
  destruct (balancer_safe g k lim perf Hcl Hvw T m order es E0 HK HP) as (s0' & s' & I1 & R1 & _ & _ & _ & X).
  rewrite HI in I1. injection I1 as <-. rewrite HR in R1. injection R1 as <-. apply (X HF). exact B.
Qed.
