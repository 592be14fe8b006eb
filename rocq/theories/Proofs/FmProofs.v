(* One FM worker: the invariant of the main loop, and what a batch achieves. *)
From Verif Require Import Lib.Prelude Spec.Graph Spec.Gain Spec.KeyedList Spec.LocalView Model.DynMapModel Model.DeltaModel Model.FmModel
  Proofs.GraphFacts Proofs.GainBase Proofs.GainSys Proofs.DenseGain Proofs.CompactGain Proofs.DynMapProofs Proofs.DeltaProofs Proofs.GainTop Proofs.DeltaTop
  Proofs.FmBase.

Section F.
Variables (g : graph) (k : nat) (hash : nat -> nat) (lk all exact : bool) (gmin : Z) (limit : nat -> Z) (id : Z).
Variables (unlock_seeds unlock_moved : bool).
Variables (Mem : Type) (cview : Mem -> bcache) (cmove : Mem -> nat -> nat -> nat -> option Mem).
Variable rep : Mem -> list nat -> Prop.
Notation n := (gn g).
Notation core := (core Mem).
Notation cinv := (cinv g k hash lk Mem rep).
Notation qv := (qv Mem).

Notation trk s u := (nth u (b_trk s) 0%Z).
Definition inq (s : book) (b u : nat) : Prop := kl_get u (nth b (b_pq s) []) <> None.
Definition owned_ok (lab : list nat) (s : book) : Prop :=
  length (b_trk s) = n /\ length (b_pq s) = k /\ length (b_tgt s) = n /\
  (forall b u, inq s b u <-> (u < n /\ trk s u = id /\ label_of lab u = b)) /\
  (forall u, u < n -> trk s u = id -> nth u (b_tgt s) 0 < k).
Definition binv (c : core) (D : list (nat * nat)) (s : book) : Prop :=
  owned_ok (c_lab c) s /\ forall u, kl_get u D <> None -> trk s u = MOVED_LOCALLY.

Lemma nth_upd_list {A} b (x : list A) l b' : b < length l -> nth b' (upd b x l) [] = if b' =? b then x else nth b' l [].
Proof. intros H. destruct (Nat.eqb_spec b' b) as [->|Hn]; [apply upd_nth_same; auto|apply upd_nth_other; auto]. Qed.

Lemma change_inq s b u key : length (b_pq s) = k -> b < k -> inq s b u ->
  exists s', pq_change b u key s = Some s' /\ (forall b' u', inq s' b' u' <-> inq s b' u') /\ length (b_pq s') = k /\
    b_trk s' = b_trk s /\ b_tgt s' = b_tgt s /\ b_seeds s' = b_seeds s /\ b_touched s' = b_touched s.
Proof.
  intros HL Hb Hin. unfold pq_change. rewrite (nth_error_in _ _ []) by lia. unfold inq in Hin.
  destruct (kl_get u (nth b (b_pq s) [])) as [z|] eqn:E; [|contradiction]. eexists. split; [reflexivity|].
  split; [|cbn [pq_set b_pq]; rewrite upd_length; repeat split; auto].
  intros b' u'. unfold inq. cbn [pq_set b_pq]. rewrite nth_upd_list by lia. destruct (Nat.eqb_spec b' b) as [->|]; [|tauto].
  rewrite kl_get_modify. destruct (Nat.eqb_spec u u') as [<-|]; [|tauto]. rewrite E. split; discriminate.
Qed.
Lemma push_inq s b u key : length (b_pq s) = k -> b < k -> ~ inq s b u ->
  exists s', pq_push b u key s = Some s' /\ (forall b' u', inq s' b' u' <-> inq s b' u' \/ (b' = b /\ u' = u)) /\ length (b_pq s') = k /\
    b_trk s' = b_trk s /\ b_tgt s' = b_tgt s /\ b_seeds s' = b_seeds s /\ b_touched s' = b_touched s.
Proof.
  intros HL Hb Hin. unfold pq_push. rewrite (nth_error_in _ _ []) by lia. unfold inq in Hin.
  destruct (kl_get u (nth b (b_pq s) [])) as [z|] eqn:E; [exfalso; apply Hin; discriminate|]. eexists. split; [reflexivity|].
  split; [|cbn [pq_set b_pq]; rewrite upd_length; repeat split; auto].
  intros b' u'. unfold inq. cbn [pq_set b_pq]. rewrite nth_upd_list by lia. destruct (Nat.eqb_spec b' b) as [->|Hn]; [|intuition].
  rewrite kl_get_app. cbn [kl_get]. destruct (Nat.eqb_spec u u') as [<-|Hn].
  - rewrite E. intuition congruence.
  - destruct (kl_get u' (nth b (b_pq s) [])); intuition congruence.
Qed.
Lemma pop_inq s b u : b < length (b_pq s) -> forall b' u', inq (pq_pop b u s) b' u' <-> inq s b' u' /\ ~ (b' = b /\ u' = u).
Proof.
  intros Hb b' u'. unfold inq, pq_pop. cbn [pq_set b_pq]. rewrite nth_upd_list by lia. destruct (Nat.eqb_spec b' b) as [->|Hn]; [|intuition].
  rewrite kl_get_filter. destruct (Nat.eqb_spec u' u) as [->|]; intuition congruence.
Qed.

(** What touching a neighbour may change. *)
Definition ext (s s' : book) : Prop :=
  (forall u, u < n -> trk s' u = trk s u \/ (trk s u = UNLOCKED /\ trk s' u = id /\ In u (b_touched s'))) /\
  b_seeds s' = b_seeds s /\ incl (b_touched s) (b_touched s') /\
  (forall u, In u (b_touched s') -> In u (b_touched s) \/ (u < n /\ trk s' u = id /\ trk s u = UNLOCKED)).
Lemma ext_refl s : ext s s. Proof. split; auto. split; auto. split; auto. apply incl_refl. Qed.
Hypothesis Hid : (0 < id)%Z.
Lemma ext_trans s1 s2 s3 : ext s1 s2 -> ext s2 s3 -> ext s1 s3.
Proof.
  intros (A1 & A2 & A3 & A4) (B1 & B2 & B3 & B4). split; [|split; [congruence|split; [eapply incl_tran; eauto|]]].
  - intros u Hu. destruct (A1 u Hu) as [E|(E1 & E2 & E3)], (B1 u Hu) as [F|(F1 & F2 & F3)].
    + left. congruence.
    + right. repeat split; auto. congruence.
    + right. repeat split; auto; congruence.
    + rewrite E2 in F1. unfold UNLOCKED in F1. lia.
  - intros u Hin. destruct (B4 u Hin) as [H|(Hu & H & H')]; [|right; split; auto; split; auto; destruct (A1 u Hu) as [E|(E & E2 & _)]; congruence]. destruct (A4 u H) as [H'|(Hu & E & E')]; [auto|]. right. split; auto. split; auto.
    destruct (B1 u Hu) as [F|(F1 & _)]; [congruence|]. rewrite E in F1. unfold UNLOCKED in F1. lia.
Qed.
Lemma upd_trk s u x v : length (b_trk s) = n -> u < n -> trk (trk_set u x s) v = if v =? u then x else trk s v.
Proof. intros HL Hu. cbn [trk_set b_trk]. destruct (Nat.eqb_spec v u) as [->|]; [apply upd_nth_same; lia|apply upd_nth_other; auto]. Qed.

Lemma change_ok lab s v b key : owned_ok lab s -> b < k -> v < n -> trk s v = id -> label_of lab v = b ->
  exists s', pq_change b v key s = Some s' /\ owned_ok lab s' /\ b_trk s' = b_trk s /\ b_seeds s' = b_seeds s /\ b_touched s' = b_touched s.
Proof.
  intros (H1 & H2 & H3 & H4 & H5) Hb Hv Ht Hl.
  destruct (change_inq s b v key H2 Hb ltac:(apply H4; auto)) as (s' & E & I & L & E1 & E2 & E3 & E4). exists s'. split; auto.
  split; [|auto]. split; [congruence|]. split; auto. split; [congruence|]. rewrite E1, E2. split; auto. intros b' u'. rewrite I. apply H4.
Qed.
Lemma tgt_ok lab s v x : owned_ok lab s -> v < n -> x < k -> owned_ok lab (tgt_set v x s).
Proof.
  intros (H1 & H2 & H3 & H4 & H5) Hv Hx. split; [exact H1|]. split; [exact H2|]. split; [cbn [tgt_set b_tgt]; rewrite upd_length; auto|].
  split; [exact H4|]. intros u Hu Ht. cbn [tgt_set b_tgt b_trk] in *. destruct (Nat.eq_dec v u) as [->|Hn]; [rewrite upd_nth_same by lia; auto|].
  rewrite upd_nth_other by auto. auto.
Qed.
Lemma change_tgt_ok lab s v b key x : owned_ok lab s -> b < k -> v < n -> trk s v = id -> label_of lab v = b -> x < k ->
  exists s', pq_change b v key (tgt_set v x s) = Some s' /\ owned_ok lab s' /\ b_trk s' = b_trk s /\ b_seeds s' = b_seeds s /\ b_touched s' = b_touched s.
Proof. intros HO Hb Hv Ht Hl Hx. apply (change_ok lab (tgt_set v x s) v b key (tgt_ok lab s v x HO Hv Hx)); auto. Qed.

Lemma insert_ok lab s v b to x : owned_ok lab s -> v < n -> trk s v <> id -> label_of lab v = b -> b < k -> to < k ->
  exists s', insert_pq (Some (b, (to, x))) v (trk_set v id s) = Some s' /\ owned_ok lab s' /\
    (forall u, u < n -> trk s' u = if u =? v then id else trk s u) /\ b_seeds s' = b_seeds s /\ b_touched s' = b_touched s.
Proof.
  intros (H1 & H2 & H3 & H4 & H5) Hv Ht Hl Hb Hto. cbn [insert_pq trk_set b_tgt]. destruct (Nat.ltb_spec v (length (b_tgt s))); [|lia].
  fold (trk_set v id s).
  assert (Hni : ~ inq s b v) by (intros C; apply H4 in C; tauto).
  destruct (push_inq (tgt_set v to (trk_set v id s)) b v x H2 Hb Hni) as (s' & E & I & L & E1 & E2 & E3 & E4).
  exists s'. split; [exact E|]. cbn [tgt_set trk_set b_trk b_tgt b_seeds b_touched b_pq] in E1, E2, E3, E4.
  assert (ET : forall u, trk s' u = if u =? v then id else trk s u) by (intros u; rewrite E1; apply (upd_trk s v id u H1 Hv)).
  split; [|auto]. split; [rewrite E1, upd_length; auto|]. split; auto. split; [rewrite E2, upd_length; auto|]. split.
  - intros b' u'. rewrite I, ET. change (inq (tgt_set v to (trk_set v id s)) b' u') with (inq s b' u'). rewrite H4.
    destruct (Nat.eqb_spec u' v) as [->|Hn]; intuition; try congruence.
  - intros u Hu. rewrite ET, E2. destruct (Nat.eqb_spec u v) as [->|Hn]; [rewrite upd_nth_same by lia; auto|rewrite upd_nth_other by auto; auto].
Qed.

Hypothesis (Hc : closed_graph g) (Hs : undirected g) (Hsim : simple_graph g) (Hlk : lk = true -> positive_edges g).
Hypothesis Hrep : forall m lab, rep m lab -> labels_ok g k lab -> cache_exact g k all exact (label_of lab) (cview m).
Hypothesis Hmove : forall m lab u b, rep m lab -> labels_ok g k lab -> u < gn g -> b < k ->
  exists m', cmove m u (label_of lab u) b = Some m' /\ rep m' (upd u b lab).
Definition flok := find_local_ok g k hash lk all exact gmin limit 0%Z Mem cview rep Hc Hs Hsim Hlk Hrep.
Definition fsok := find_shared_ok g k hash lk all exact gmin limit Mem cview rep Hlk Hrep.
Definition cmok := commit_ok g k hash lk all exact limit Mem cview cmove rep Hlk Hrep Hmove.
Definition lmok := local_move_ok g k hash lk all exact limit Mem cview rep Hc Hs Hsim Hlk Hrep.
Lemma update_ok T c D s v from to : cinv T c D -> owned_ok (c_lab c) s -> v < n -> trk s v = id -> to < k -> from < k ->
  exists s', update_after_move g k hash lk exact gmin limit Mem cview c v from to s = Some s' /\ owned_ok (c_lab c) s' /\
    b_trk s' = b_trk s /\ b_seeds s' = b_seeds s /\ b_touched s' = b_touched s.
Proof.
  intros HI HB Hv Ht Hto Hfrom. unfold update_after_move.
  pose proof (i_len g k hash lk Mem rep T c D HI) as HLen. rewrite (nth_error_in (c_lab c) v 0) by lia. fold (label_of (c_lab c) v).
  pose proof (i_lt g k hash lk Mem rep T c D HI v Hv) as Hob. set (ob := label_of (c_lab c) v) in *.
  assert (HB' := HB). destruct HB' as (_ & _ & H3 & _ & H5). rewrite (nth_error_in (b_tgt s) v 0) by lia. pose proof (H5 v Hv Ht) as Hot.
  set (ot := nth v (b_tgt s) 0) in *. cbv zeta.
  destruct (flok T c D v HI Hv) as (nt & ng & Ef & Hnt & _). rewrite Ef.
  pose proof (i_weight g k hash lk Mem rep T c D HI) as IW. pose proof (i_gain g k hash lk all exact Mem cview rep Hrep T c D HI) as IG.
  destruct (to =? ot).
  - rewrite (IW ot Hot), (IG v ob ot Hv Hob Hot). destruct (_ <=? _)%Z; [apply change_ok; auto|apply change_tgt_ok; auto].
  - destruct (from =? ot); [apply change_tgt_ok; auto|]. destruct (to =? ob).
    + rewrite (IG v ob ot Hv Hob Hot). apply change_ok; auto.
    + rewrite (IG v ob ot Hv Hob Hot), (IG v ob to Hv Hob Hto), (IW to Hto). destruct (_ && _); [apply change_tgt_ok; auto|apply change_ok; auto].
Qed.
Lemma touch_ok T c D s v w from to : cinv T c D -> binv c D s -> v < n -> to < k -> from < k ->
  exists s', touch_neighbour g k hash lk exact gmin limit id Mem cview c from to (Some s) (v, w) = Some s' /\ binv c D s' /\ ext s s'.
Proof.
  intros HI (HB & HD) Hv Hto Hfrom. unfold touch_neighbour. cbn [fst]. assert (HB' := HB). destruct HB' as (H1 & H2 & H3 & H4 & H5).
  rewrite (nth_error_in (b_trk s) v 0%Z) by lia. destruct (Z.eqb_spec (trk s v) id) as [Et|Et].
  - destruct (update_ok T c D s v from to HI HB Hv Et Hto Hfrom) as (s' & E & HB' & E1 & E2 & E3). exists s'. split; auto. split.
    + split; auto. rewrite E1. auto.
    + split; [intros; rewrite E1; auto|]. split; auto. rewrite E3. split; [apply incl_refl|auto].
  - destruct (Z.eqb_spec (trk s v) UNLOCKED) as [Eu|Eu]; [|exists s; split; [auto|split; [split; auto|apply ext_refl]]].
    destruct (flok T c D v HI Hv) as (nt & ng & Ef & Hnt & _). rewrite Ef.
    assert (EN : kl_get v D = None).
    { destruct (kl_get v D) eqn:E; auto. rewrite (HD v) in Eu by congruence. discriminate. }
    assert (Eq : qv c D v = label_of (c_lab c) v) by (unfold FmBase.qv, view; rewrite EN; reflexivity). rewrite Eq.
    pose proof (i_lt g k hash lk Mem rep T c D HI v Hv) as Hob.
    destruct (insert_ok (c_lab c) s v _ nt ng HB Hv Et eq_refl Hob Hnt) as (s' & E & HB' & E1 & E2 & E3). rewrite E.
    exists (add_touched v s'). split; [reflexivity|]. split; [split|].
    + exact HB'.
    + intros u Hu. cbn [add_touched b_trk]. destruct (Nat.lt_ge_cases u n).
      * rewrite E1 by auto. destruct (Nat.eqb_spec u v) as [->|]; [congruence|]. auto.
      * exfalso. destruct (i_ok g k hash lk Mem rep T c D HI) as (_ & _ & (_ & _ & HN & HR) & _).
        destruct (kl_get u D) as [b|] eqn:Ek; [|contradiction]. apply kl_get_in in Ek; auto. apply HR in Ek. lia.
    + split; [|split; [|split]]; cbn [add_touched b_trk b_seeds b_touched]; auto.
      * intros u Hu. rewrite E1 by auto. destruct (Nat.eqb_spec u v) as [->|]; auto. right. split; auto. split; auto. apply in_app_iff. right. left. auto.
      * rewrite E3. apply incl_appl, incl_refl.
      * intros u Hin. apply in_app_iff in Hin. destruct Hin as [Hin|[<-|[]]]; [left; congruence|]. right. split; auto. split; auto. rewrite E1, Nat.eqb_refl by auto. auto.
Qed.
Lemma touch_fold T c D from to : cinv T c D -> to < k -> from < k -> forall l s, (forall v w, In (v, w) l -> v < n) -> binv c D s ->
  exists s', fold_left (touch_neighbour g k hash lk exact gmin limit id Mem cview c from to) l (Some s) = Some s' /\ binv c D s' /\ ext s s'.
Proof.
  intros HI Hto Hfrom. induction l as [|[v w] l IH]; intros s Hl HB; cbn [fold_left]; [exists s; split; auto; split; auto; apply ext_refl|].
  destruct (touch_ok T c D s v w from to HI HB (Hl v w (or_introl eq_refl)) Hto Hfrom) as (s1 & E1 & HB1 & X1). rewrite E1.
  destruct (IH s1 ltac:(intros; eapply Hl; right; eauto) HB1) as (s2 & E2 & HB2 & X2). exists s2. split; auto. split; auto. eapply ext_trans; eauto.
Qed.

(** * The main loop *)
Variables (lab0 : list nat) (trk0 : list Z).
Hypothesis Htrk0 : forall u, u < n -> nth u trk0 0%Z <> id /\ nth u trk0 0%Z <> MOVED_LOCALLY.
Notation p0 := (label_of lab0).
Definition within (p : nat -> nat) : Prop :=
  (forall b, b < k -> (block_weight g p b <= limit b \/ block_weight g p b <= block_weight g p0 b)%Z) /\
  (forall u, u < n -> p u <> p0 u -> (block_weight g p (p u) <= limit (p u))%Z).
Lemma within_ext p q : (forall u, u < n -> p u = q u) -> within p -> within q.
Proof.
  intros E (H1 & H2). split.
  - intros b Hb. rewrite <- (block_weight_ext g p q b E). auto.
  - intros u Hu. rewrite <- (E u Hu). rewrite <- (block_weight_ext g p q _ E). auto.
Qed.
Hypothesis Hvw : forall u, u < gn g -> (0 <= gvw g u)%Z.
Lemma within_move q u to : within q -> u < n -> to < k -> to <> q u -> q u < k -> (block_weight g q to + gvw g u <= limit to)%Z -> (forall x, x < n -> q x < k) ->
  within (relabel q u to).
Proof.
  intros (H1 & H2) Hu Ht Hn Hq Hw Hlt. assert (HB : forall b, (block_weight g (relabel q u to) b <= limit b \/ block_weight g (relabel q u to) b <= block_weight g q b)%Z).
  { intros b. rewrite block_weight_relabel by auto. specialize (Hvw u Hu). destruct (Nat.eqb_spec to b) as [<-|].
    - left. destruct (Nat.eqb_spec (q u) to); [congruence|]. lia.
    - right. destruct (Nat.eqb_spec (q u) b); lia. }
  split.
  - intros b Hb. destruct (HB b); [left; auto|]. destruct (H1 b Hb); [left; lia|right; lia].
  - intros x Hx Hne. unfold relabel at 2 3. unfold relabel at 1 in Hne. destruct (Nat.eqb_spec x u) as [->|Hxu].
    + rewrite block_weight_relabel by auto. rewrite Nat.eqb_refl. destruct (Nat.eqb_spec (q u) to); [congruence|]. lia.
    + destruct (HB (q x)); [auto|]. specialize (H2 x Hx Hne). lia.
Qed.

Definition finv (T : N) (f : fm Mem) (D : list (nat * nat)) : Prop :=
  let c := f_core f in let s := f_book f in
  cinv T c D /\ binv c D s /\
  (cut_weight g p0 - cut_weight g (label_of (c_lab c)) = f_best f)%Z /\
  (cut_weight g (label_of (c_lab c)) - cut_weight g (qv c D) = f_cur f - f_best f)%Z /\
  (0 <= f_best f)%Z /\ (f_best f = 0%Z -> forall u, u < n -> label_of (c_lab c) u = p0 u) /\
  within (label_of (c_lab c)) /\ within (qv c D) /\
  (forall u, u < n -> trk s u <> nth u trk0 0%Z -> In u (b_seeds s ++ b_touched s)) /\
  (forall u, In u (b_seeds s ++ b_touched s) -> trk s u = id \/ trk s u = MOVED_LOCALLY \/ trk s u = MOVED_GLOBALLY) /\
  (forall u, u < n -> label_of (c_lab c) u <> p0 u -> trk s u = MOVED_GLOBALLY /\ In u (b_seeds s ++ b_touched s)) /\
  (forall u, In u (b_seeds s ++ b_touched s) -> u < n /\ nth u trk0 0%Z = UNLOCKED).

Lemma pop_ok lab s b u : owned_ok lab s -> inq s b u -> b < k -> owned_ok lab (trk_set u MOVED_LOCALLY (pq_pop b u s)).
Proof.
  intros (H1 & H2 & H3 & H4 & H5) Hin Hb. assert (Hin' := Hin). apply H4 in Hin'. destruct Hin' as (Hu & Ht & Hl).
  assert (ET : forall v, trk (trk_set u MOVED_LOCALLY (pq_pop b u s)) v = if v =? u then MOVED_LOCALLY else trk s v) by (intros; apply (upd_trk (pq_pop b u s)); auto).
  split; [cbn [trk_set b_trk pq_pop pq_set]; rewrite upd_length; auto|]. split; [cbn [trk_set b_pq pq_pop pq_set]; rewrite upd_length; auto|].
  split; [exact H3|]. split.
  - intros b' u'. rewrite ET. change (inq (trk_set u MOVED_LOCALLY (pq_pop b u s)) b' u') with (inq (pq_pop b u s) b' u').
    rewrite pop_inq by lia. rewrite H4. destruct (Nat.eqb_spec u' u) as [->|Hn].
    + split; [|intros (_ & E & _); unfold MOVED_LOCALLY in E; lia]. intros ((_ & _ & <-) & X). exfalso. apply X. auto.
    + intuition.
  - intros v Hv. rewrite ET. destruct (Nat.eqb_spec v u) as [->|Hn]; [unfold MOVED_LOCALLY; lia|]. intros E. apply (H5 v Hv E).
Qed.
Lemma relab_ok lab lab' s s' : owned_ok lab s -> b_pq s' = b_pq s -> b_tgt s' = b_tgt s -> length (b_trk s') = n ->
  (forall x, x < n -> trk s' x = id <-> trk s x = id) -> (forall x, x < n -> trk s x = id -> label_of lab' x = label_of lab x) -> owned_ok lab' s'.
Proof.
  intros (H1 & H2 & H3 & H4 & H5) Ep Eg El Ht Hl. split; auto. split; [congruence|]. split; [congruence|]. split.
  - intros b u. unfold inq. rewrite Ep. fold (inq s b u). rewrite H4. split; intros (A & B & C); (split; [auto|split; [apply Ht; auto|]]).
    + rewrite Hl; auto.
    + rewrite Hl in C; auto. apply Ht; auto.
  - intros u Hu E. rewrite Eg. apply H5; auto. apply Ht; auto.
Qed.
Lemma key_lt T c D u : cinv T c D -> kl_get u D <> None -> u < n.
Proof.
  intros HI H. destruct (i_ok g k hash lk Mem rep T c D HI) as (_ & _ & (_ & _ & HN & HR) & _).
  destruct (kl_get u D) as [b|] eqn:Ek; [|contradiction]. apply kl_get_in in Ek; auto. apply HR in Ek. lia.
Qed.

(** Only the tracker entry of one owned node changes. *)
Lemma finv_skip T f D b u : finv T f D -> inq (f_book f) b u -> b < k ->
  finv T {| f_core := f_core f; f_book := trk_set u MOVED_LOCALLY (pq_pop b u (f_book f)); f_cur := f_cur f; f_best := f_best f |} D.
Proof.
  intros (HI & (HB & HD) & F1 & F2 & F3 & F4 & F5 & F6 & F7 & F8 & F9 & F10) Hin Hb.
  assert (HB' := HB). destruct HB' as (H1 & H2 & H3 & H4 & H5). apply H4 in Hin. destruct Hin as (Hu & Ht & Hl).
  assert (ET : forall v, trk (trk_set u MOVED_LOCALLY (pq_pop b u (f_book f))) v = if v =? u then MOVED_LOCALLY else trk (f_book f) v)
    by (intros; apply (upd_trk (pq_pop b u (f_book f))); auto).
  assert (HLu : In u (b_seeds (f_book f) ++ b_touched (f_book f))) by (apply F7; auto; destruct (Htrk0 u Hu); congruence).
  unfold finv. cbn [f_core f_book f_cur f_best].
  split; [exact HI|]. split; [split|].
  - apply pop_ok; auto. apply H4. auto.
  - intros v Hv. rewrite ET. destruct (v =? u); auto.
  - do 6 (split; [assumption|]). split; [|split; [|split; [|exact F10]]].
    + intros v Hv. rewrite ET. destruct (Nat.eqb_spec v u) as [->|]; [intros _; exact HLu|apply F7; auto].
    + intros v Hv. rewrite ET. destruct (Nat.eqb_spec v u) as [->|]; [auto|apply F8; auto].
    + intros v Hv Hne. rewrite ET. destruct (Nat.eqb_spec v u) as [->|]; [|apply F9; auto]. destruct (F9 u Hu Hne) as [F9' _]. rewrite Ht in F9'. clear F9. rename F9' into F9. unfold MOVED_GLOBALLY in F9. lia.
Qed.
(** Touching the neighbours keeps the invariant. *)
Lemma finv_ext T c s s' x y D : finv T {| f_core := c; f_book := s; f_cur := x; f_best := y |} D -> binv c D s' -> ext s s' ->
  finv T {| f_core := c; f_book := s'; f_cur := x; f_best := y |} D.
Proof.
  intros (HI & HB & F1 & F2 & F3 & F4 & F5 & F6 & F7 & F8 & F9 & F10) HB' (X1 & X2 & X3 & X4). unfold finv. cbn [f_core f_book f_cur f_best] in *.
  split; [exact HI|]. split; [exact HB'|]. do 6 (split; [assumption|]). rewrite X2. split; [|split; [|split]].
  - intros u Hu Hne. apply in_app_iff. destruct (X1 u Hu) as [E|(_ & _ & E)]; [|auto]. rewrite E in Hne. specialize (F7 u Hu Hne). apply in_app_iff in F7.
    destruct F7; auto.
  - assert (K : forall u, In u (b_seeds s ++ b_touched s) -> trk s' u = id \/ trk s' u = MOVED_LOCALLY \/ trk s' u = MOVED_GLOBALLY).
    { intros u Hin. destruct (X1 u (proj1 (F10 u Hin))) as [E|(E & _)]; [rewrite E; apply F8; auto|]. specialize (F8 u Hin). rewrite E in F8. unfold UNLOCKED, MOVED_LOCALLY, MOVED_GLOBALLY in F8. lia. }
    intros u Hin. apply in_app_iff in Hin. destruct Hin as [Hin|Hin]; [apply K, in_app_iff; auto|]. destruct (X4 u Hin) as [H|(_ & H & _)]; [|auto].
    apply K, in_app_iff. auto.
  - intros u Hu Hne. destruct (F9 u Hu Hne) as [F9' F9i]. split.
    + destruct (X1 u Hu) as [E|(E & _)]; [congruence|]. rewrite E in F9'. discriminate.
    + apply in_app_iff in F9i. apply in_app_iff. destruct F9i; auto.
  - intros u Hin. apply in_app_iff in Hin. destruct Hin as [Hin|Hin]; [apply F10, in_app_iff; auto|]. destruct (X4 u Hin) as [H|(H & _ & E)]; [apply F10, in_app_iff; auto|].
    split; auto. destruct (Z.eq_dec (trk s u) (nth u trk0 0%Z)) as [Ee|Ee]; [congruence|]. apply (F10 u (F7 u H Ee)).
Qed.

Lemma step_ok T f D choice : finv T f D -> (T + 1 < 2 ^ 64)%N ->
  exists f' T' D', fm_step g k hash lk exact gmin limit id Mem cview cmove choice f = Some f' /\ (T' <= T + 1)%N /\ finv T' f' D'.
Proof.
  destruct choice as [from u]. intros HF HT. unfold fm_step. cbv zeta.
  destruct (kl_get u (nth from (b_pq (f_book f)) [])) as [expected|] eqn:Eq; [|exists f, T, D; split; auto; split; [lia|auto]].
  assert (Hin : inq (f_book f) from u) by (unfold inq; rewrite Eq; discriminate). assert (HF' := HF).
  destruct HF' as (HI & (HB & HD) & F1 & F2 & F3 & F4 & F5 & F6 & F7 & F8 & F9 & F10).
  assert (HB' := HB). destruct HB' as (H1 & H2 & H3 & H4 & H5). assert (Hin' := Hin). apply H4 in Hin'. destruct Hin' as (Hu & Ht & Hl).
  assert (Hfrom : from < k) by (rewrite <- Hl; exact (i_lt g k hash lk Mem rep T _ D HI u Hu)).
  assert (HN : kl_get u D = None) by (destruct (kl_get u D) eqn:E; auto; rewrite (HD u) in Ht by congruence; unfold MOVED_LOCALLY in Ht; lia).
  assert (Hqu : qv (f_core f) D u = from) by (unfold FmBase.qv, view; rewrite HN; exact Hl).
  destruct (flok T (f_core f) D u HI Hu) as (to & actual & Ef & Hto & Hx). rewrite Ef, Hqu in *.
  destruct (actual <? expected)%Z.
  { destruct (change_ok (c_lab (f_core f)) (f_book f) u from actual HB Hfrom Hu Ht Hl) as (s' & E & HB' & E1 & E2 & E3). rewrite E.
    eexists _, T, D. split; [reflexivity|]. split; [lia|]. unfold finv. cbn [f_core f_book f_cur f_best]. cbn [tgt_set b_seeds b_touched b_trk]. rewrite E2, E3.
    split; [exact HI|]. split; [split; [apply tgt_ok; auto|cbn [tgt_set b_trk]; rewrite E1; auto]|]. rewrite E1. tauto. }
  destruct (Nat.eqb_spec to from) as [->|Hne]; [eexists _, T, D; split; [reflexivity|]; split; [lia|apply finv_skip; auto]|].
  rewrite (i_weight g k hash lk Mem rep T _ D HI to Hto). specialize (Hx Hne).
  destruct (Z.leb_spec (block_weight g (qv (f_core f) D) to + gvw g u) (limit to)) as [Hw|Hw]; [|eexists _, T, D; split; [reflexivity|]; split; [lia|apply finv_skip; auto]].
  assert (HFs := finv_skip T f D from u HF Hin Hfrom). set (s1 := trk_set u MOVED_LOCALLY (pq_pop from u (f_book f))) in *.
  destruct HFs as (_ & (HBs & HDs) & _ & _ & _ & _ & _ & _ & G7 & G8 & G9 & G10). cbn [f_core f_book f_cur f_best] in HBs, HDs, G7, G8, G9, G10.
  assert (Ts1 : forall v, trk s1 v = if v =? u then MOVED_LOCALLY else trk (f_book f) v) by (intros; apply (upd_trk (pq_pop from u (f_book f))); auto).
  assert (WM : within (relabel (qv (f_core f) D) u to)).
  { apply within_move; auto; rewrite ?Hqu; auto. intros y Hy. apply (i_q g k hash lk Mem rep T _ D HI y Hy). }
  assert (HLs : length (b_trk s1) = n) by apply HBs.
  assert (Hlu : label_of (c_lab (f_core f)) u = p0 u).
  { destruct (Nat.eq_dec (label_of (c_lab (f_core f)) u) (p0 u)); auto. exfalso. destruct (F9 u Hu n) as [F9' _]. rewrite Ht in F9'. unfold MOVED_GLOBALLY in F9'. lia. }
  destruct (Z.ltb_spec (f_best f) (f_cur f + actual)) as [Hb|Hb].
  - destruct (cmok T (f_core f) D s1 u to HI HT Hu Hto HN HLs) as (c' & s2 & E & HI' & EV & B1 & B2 & B3 & B4 & B5 & B6). rewrite Hl in E. rewrite E.
    assert (HF2 : finv (T + 1)%N {| f_core := c'; f_book := s2; f_cur := f_cur f + actual; f_best := f_cur f + actual |} []).
    { assert (EQ : forall x, x < n -> label_of (c_lab c') x = relabel (qv (f_core f) D) u to x) by auto.
      unfold finv. cbn [f_core f_book f_cur f_best]. split; [exact HI'|]. split; [split|].
      - apply (relab_ok (c_lab (f_core f)) _ s1); auto.
        + intros x Hxn. rewrite B6. pose proof (Ts1 x) as Tx. destruct (Nat.eqb_spec x u) as [->|]; [rewrite Tx; unfold MOVED_LOCALLY, MOVED_GLOBALLY; lia|].
          destruct (kl_get x D) eqn:Ex; [|tauto]. rewrite (HDs x) by congruence. unfold MOVED_LOCALLY, MOVED_GLOBALLY; lia.
        + intros x Hxn Hxt. rewrite EV. unfold relabel. destruct (Nat.eqb_spec x u) as [->|]; [rewrite Ts1, Nat.eqb_refl in Hxt; unfold MOVED_LOCALLY in Hxt; lia|].
          unfold FmBase.qv, view. destruct (kl_get x D) eqn:Ex; auto. rewrite (HDs x) in Hxt by congruence. unfold MOVED_LOCALLY in Hxt; lia.
      - intros x Hx0. cbn [kl_get] in Hx0. contradiction.
      - change (qv c' []) with (label_of (c_lab c')). rewrite (cut_weight_ext g _ _ EQ).
        split; [lia|]. split; [lia|]. split; [lia|]. split; [lia|]. split; [exact (within_ext _ _ (fun u Hu => eq_sym (EQ u Hu)) WM)|].
        split; [exact (within_ext _ _ (fun u Hu => eq_sym (EQ u Hu)) WM)|]. rewrite B3, B4. split; [|split; [|split; [|exact G10]]].
        + intros x Hxn Hne'. rewrite B6 in Hne'. destruct (Nat.eqb_spec x u) as [->|Hxu].
          * apply G7; auto. rewrite Ts1, Nat.eqb_refl. intros C. destruct (Htrk0 u Hu). congruence.
          * destruct (kl_get x D) eqn:Ex; [|apply G7; auto]. apply G7; auto. rewrite (HDs x) by congruence. intros C. destruct (Htrk0 x Hxn). congruence.
        + intros x Hxi. rewrite B6. destruct (x =? u); auto. destruct (kl_get x D); auto.
        + intros x Hxn Hne'. rewrite EV in Hne'. unfold relabel in Hne'. rewrite B6. destruct (Nat.eqb_spec x u) as [->|Hxu].
          * split; auto. apply G7; auto. rewrite Ts1, Nat.eqb_refl. intros C. destruct (Htrk0 u Hu). congruence.
          * unfold FmBase.qv, view in Hne'. destruct (kl_get x D) eqn:Ex; auto. split; auto.
            apply G7; auto. rewrite (HDs x) by congruence. intros C. destruct (Htrk0 x Hxn). congruence. }
    destruct HF2 as (HI2 & HB2 & R). destruct (touch_fold (T + 1)%N c' [] from to HI2 Hto Hfrom (gadj g u) s2) as (s3 & E3 & HB3 & X3); auto.
    { intros v w Hv. exact (Hc u v w Hu Hv). }
    rewrite E3. eexists _, (T + 1)%N, []. split; [reflexivity|]. split; [lia|]. eapply finv_ext; [|exact HB3|exact X3]. split; [exact HI2|]. split; [exact HB2|exact R].
  - destruct (lmok T (f_core f) D u to HI Hu Hto) as (c' & E & HI' & EL). rewrite Hqu in E. rewrite E.
    set (D' := kl_modify 0%nat u (fun _ => to) D) in *.
    assert (EQ : forall x, x < n -> qv c' D' x = relabel (qv (f_core f) D) u to x).
    { intros x _. unfold FmBase.qv, D'. rewrite EL. apply view_modify. }
    assert (HF2 : finv T {| f_core := c'; f_book := s1; f_cur := f_cur f + actual; f_best := f_best f |} D').
    { unfold finv. cbn [f_core f_book f_cur f_best]. rewrite EL. split; [exact HI'|]. split; [split|].
      - rewrite EL. exact HBs.
      - intros x Hx0. unfold D' in Hx0. rewrite kl_get_modify in Hx0. destruct (Nat.eqb_spec u x) as [Eux|]; [rewrite <- Eux, Ts1, Nat.eqb_refl; auto|auto].
      - rewrite (cut_weight_ext g _ _ EQ). split; [exact F1|]. split; [lia|]. split; [exact F3|]. split; [exact F4|]. split; [exact F5|].
        split; [exact (within_ext _ _ (fun u Hu => eq_sym (EQ u Hu)) WM)|]. tauto. }
    destruct HF2 as (HI2 & HB2 & R). destruct (touch_fold T c' D' from to HI2 Hto Hfrom (gadj g u) s1) as (s3 & E3 & HB3 & X3); auto.
    { intros v w Hv. exact (Hc u v w Hu Hv). }
    rewrite E3. eexists _, T, D'. split; [reflexivity|]. split; [lia|]. eapply finv_ext; [|exact HB3|exact X3]. split; [exact HI2|]. split; [exact HB2|exact R].
Qed.
Lemma loop_ok choices : forall T f D, finv T f D -> (T + N.of_nat (length choices) < 2 ^ 64)%N ->
  exists f' T' D', fm_loop g k hash lk exact gmin limit id Mem cview cmove choices f = Some f' /\ (T' <= T + N.of_nat (length choices))%N /\ finv T' f' D'.
Proof.
  induction choices as [|x l IH]; intros T f D HF HT; cbn [fm_loop length] in *; [exists f, T, D; split; auto; split; [lia|auto]|].
  destruct (step_ok T f D x HF ltac:(lia)) as (f1 & T1 & D1 & E1 & HT1 & HF1). rewrite E1.
  destruct (IH T1 f1 D1 HF1 ltac:(lia)) as (f2 & T2 & D2 & E2 & HT2 & HF2). exists f2, T2, D2. split; auto. split; [lia|auto].
Qed.
End F.
