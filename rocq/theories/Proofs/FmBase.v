(* One FM worker: what it computes from the shared and local structures, and how it changes them. *)
From Verif Require Import Lib.Prelude Spec.Graph Spec.Gain Spec.KeyedList Spec.LocalView Model.DynMapModel Model.DeltaModel Model.FmModel
  Proofs.GraphFacts Proofs.GainBase Proofs.GainSys Proofs.DenseGain Proofs.CompactGain Proofs.DynMapProofs Proofs.DeltaProofs Proofs.GainTop Proofs.DeltaTop.

Lemma kl_get_perm {V} (l l' : list (nat * V)) x : NoDup (map fst l) -> Permutation l l' -> kl_get x l = kl_get x l'.
Proof.
  intros HN HP. assert (HN' : NoDup (map fst l')) by (apply (Permutation_NoDup (Permutation_map fst HP)); auto).
  destruct (kl_get x l) as [v|] eqn:E.
  - symmetry. apply kl_get_in; auto. apply (Permutation_in _ HP). apply kl_get_in; auto.
  - destruct (kl_get x l') as [v|] eqn:E'; auto. apply kl_get_in in E'; auto.
    apply (Permutation_in _ (Permutation_sym HP)) in E'. apply kl_get_in in E'; auto. congruence.
Qed.
Lemma kl_get_app {V} (l l' : list (nat * V)) x : kl_get x (l ++ l') = match kl_get x l with Some v => Some v | None => kl_get x l' end.
Proof. induction l as [|[a b] l IH]; cbn [kl_get app]; auto. destruct (a =? x); auto. Qed.
Lemma kl_get_filter {V} (l : list (nat * V)) u x : kl_get x (filter (fun e => negb (fst e =? u)) l) = if x =? u then None else kl_get x l.
Proof.
  induction l as [|[a b] l IH]; cbn [kl_get filter fst]; [destruct (x =? u); auto|].
  destruct (Nat.eqb_spec a u) as [->|Hn]; cbn [negb kl_get].
  - rewrite IH. rewrite (Nat.eqb_sym u x). destruct (x =? u); auto.
  - rewrite IH. destruct (Nat.eqb_spec a x) as [->|]; auto. destruct (Nat.eqb_spec x u); [contradiction|auto].
Qed.

Section F.
Variables (g : graph) (k : nat) (hash : nat -> nat) (lk all exact : bool) (gmin : Z) (limit : nat -> Z) (id : Z).
Variables (Mem : Type) (cview : Mem -> bcache) (cmove : Mem -> nat -> nat -> nat -> option Mem).
Variable rep : Mem -> list nat -> Prop.
Hypothesis (Hc : closed_graph g) (Hs : undirected g) (Hsim : simple_graph g) (Hlk : lk = true -> positive_edges g).
Hypothesis Hrep : forall m lab, rep m lab -> labels_ok g k lab -> cache_exact g k all exact (label_of lab) (cview m).
Hypothesis Hmove : forall m lab u b, rep m lab -> labels_ok g k lab -> u < gn g -> b < k ->
  exists m', cmove m u (label_of lab u) b = Some m' /\ rep m' (upd u b lab).
Notation n := (gn g).
Notation core := (core Mem).

Definition sys (c : core) : lsys := {| x_lab := c_lab c; x_bw := c_bw c; x_d := c_d c |}.
Definition cinv (T : N) (c : core) (D : list (nat * nat)) : Prop :=
  ok g k hash T (sys c) D /\ rep (c_mem c) (c_lab c) /\ (lk = true -> afs g k (sys c) D).
Definition qv (c : core) (D : list (nat * nat)) : nat -> nat := view (label_of (c_lab c)) D.

Definition ideal (lab : list nat) : bcache :=
  {| bc_conn := fun u b => Some (block_conn g (label_of lab) u b);
     bc_gain := fun u a b => Some (block_conn g (label_of lab) u b - block_conn g (label_of lab) u a)%Z;
     bc_gains := fun u from => Some (targets k all exact (block_conn g (label_of lab) u) from) |}.
Definition cch (c : core) (lab : list nat) : bcache := if list_eq_dec Nat.eq_dec lab (c_lab c) then cview (c_mem c) else ideal lab.
Lemma cch_self c : cch c (c_lab c) = cview (c_mem c).
Proof. unfold cch. destruct (list_eq_dec _ _ _); [reflexivity|contradiction]. Qed.
Lemma cch_exact c : rep (c_mem c) (c_lab c) -> forall lab, labels_ok g k lab -> cache_exact g k all exact (label_of lab) (cch c lab).
Proof.
  intros HR lab HL. unfold cch. destruct (list_eq_dec _ _ _) as [->|]; [apply Hrep; auto|].
  intros u Hu. cbn. repeat split. intros from Hf. eexists. split; [reflexivity|]. apply Permutation_refl.
Qed.
Lemma cch_conn c : rep (c_mem c) (c_lab c) -> forall lab, labels_ok g k lab -> forall u b, u < n -> b < k ->
  bc_conn (cch c lab) u b = Some (block_conn g (label_of lab) u b).
Proof. intros HR lab HL u b Hu Hb. destruct (cch_exact c HR lab HL u Hu) as (H & _). auto. Qed.

Section S.
Variables (T : N) (c : core) (D : list (nat * nat)).
Hypothesis HI : cinv T c D.
Lemma i_ok : ok g k hash T (sys c) D. Proof. apply HI. Qed.
Lemma i_lab : labels_ok g k (c_lab c). Proof. apply i_ok. Qed.
Lemma i_len : length (c_lab c) = n. Proof. apply i_lab. Qed.
Lemma i_lt u : u < n -> label_of (c_lab c) u < k. Proof. apply i_lab. Qed.
Lemma i_q u : u < n -> qv c D u < k. Proof. intros Hu. exact (vw_lt g k hash T (sys c) D u i_ok Hu). Qed.
Lemma i_block u : u < n -> dg_block hash (c_lab c) (c_d c) u = Some (qv c D u).
Proof. intros Hu. exact (block_ok g k hash T (sys c) D u i_ok Hu). Qed.
Lemma i_weight b : b < k -> d_weight_of Mem c b = Some (block_weight g (qv c D) b).
Proof. intros Hb. exact (r_weight g k hash T (sys c) D i_ok b Hb). Qed.
Lemma i_gain u a b : u < n -> a < k -> b < k ->
  d_gain_of k hash Mem cview c u a b = Some (block_conn g (qv c D) u b - block_conn g (qv c D) u a)%Z.
Proof.
  intros Hu Ha Hb. unfold d_gain_of. rewrite <- (cch_self c).
  exact (r_gain g k hash all exact (cch c) (cch_exact c (proj1 (proj2 HI))) T (sys c) D i_ok u a b Hu Ha Hb).
Qed.
Lemma i_gains u from : u < n -> from < k -> exists l, d_gains_of k hash lk exact Mem cview c u from = Some l /\
  forall b x, In (b, x) l -> b < k /\ b <> from /\ (exact = true -> x = block_conn g (qv c D) u b - block_conn g (qv c D) u from)%Z.
Proof.
  intros Hu Hf. pose proof (cch_exact c (proj1 (proj2 HI))) as HE.
  destruct (r_gains g k hash all exact (cch c) HE T (sys c) D i_ok u from Hu Hf) as (l & E & HP). cbn [x_lab x_d sys] in E. rewrite cch_self in E.
  assert (Hl : forall b x, In (b, x) l -> b < k /\ b <> from /\ (exact = true -> x = block_conn g (qv c D) u b - block_conn g (qv c D) u from)%Z).
  { intros b x Hin. apply (Permutation_in _ HP) in Hin. apply in_map_iff in Hin. destruct Hin as (b' & Eb & Hin). injection Eb as <- <-.
    apply filter_In in Hin. destruct Hin as [Hin Hb]. apply in_seq in Hin. apply Bool.andb_true_iff in Hb. destruct Hb as [Hb _].
    apply Bool.negb_true_iff, Nat.eqb_neq in Hb. split; [lia|]. split; auto. intros Hx. unfold fval. rewrite Hx. reflexivity. }
  unfold d_gains_of. case_eq lk; intros Elk; [|exists l; auto].
  unfold lk_gains. pose proof (r_from g k hash all exact (cch c) HE T (sys c) D i_ok u from Hu Hf) as Ef. cbn [x_d sys] in Ef. rewrite Ef, E.
  destruct (proj2 (proj2 HI) Elk u Hu) as (_ & HB & _). cbn [x_d sys] in HB.
  pose proof (extra_fold g k hash all exact (cch c) HE T (sys c) D i_ok u from
     (fval g exact (sys c) D u from - fbase g exact (sys c) u from)%Z Hu Hf (dl_extra (c_d c) u) l ltac:(intros b Hb; apply HB; auto)) as EX.
  cbn [x_lab x_d sys] in EX. rewrite cch_self in EX. rewrite EX. eexists. split; [reflexivity|].
  intros b x Hin. apply in_app_iff in Hin. destruct Hin as [Hin|Hin]; [apply Hl; auto|].
  apply in_map_iff in Hin. destruct Hin as (b' & Eb & Hin). injection Eb as <- <-. apply filter_In in Hin. destruct Hin as [Hin Hn].
  apply Bool.negb_true_iff, Nat.eqb_neq in Hn. split; [apply HB; auto|]. split; auto.
  intros Hx. unfold fval, fbase. rewrite Hx. cbn [x_lab sys]. change (vw (sys c) D) with (qv c D). lia.
Qed.
End S.

Lemma find_best_ok from wu weight wt gs l gain (G : nat -> Z) : from < k -> (forall b, b < k -> weight b = Some (wt b)) -> gs = Some l ->
  (forall b x, In (b, x) l -> b < k /\ b <> from /\ (exact = true -> x = G b)) -> (forall b, b < k -> gain b = Some (G b)) ->
  exists to x, find_best exact gmin limit from wu weight gs gain = Some (to, x) /\ to < k /\ (to <> from -> x = G to).
Proof.
  intros Hf Hw -> Hl Hg. unfold find_best. rewrite (Hw from Hf).
  assert (HF : forall l bg bt gap, (forall b x, In (b, x) l -> b < k /\ b <> from /\ (exact = true -> x = G b)) ->
     bt < k /\ (bt <> from -> exact = true -> bg = G bt) ->
     exists bg' bt' gap', fold_left (fb_step limit weight wu) l (Some (bg, bt, gap)) = Some (bg', bt', gap') /\ bt' < k /\ (bt' <> from -> exact = true -> bg' = G bt')).
  { clear Hl l. induction l as [|[b x] l IH]; intros bg bt gap Hl HB; cbn [fold_left]; [exists bg, bt, gap; auto|].
    destruct (Hl b x (or_introl eq_refl)) as (H1 & H2 & H3). unfold fb_step at 2. cbn [fst snd]. rewrite (Hw b H1).
    assert (Hl' : forall b x, In (b, x) l -> b < k /\ b <> from /\ (exact = true -> x = G b)) by (intros; apply Hl; right; auto).
    cbv zeta. destruct (_ <? _)%Z; [apply IH; auto|]. destruct (_ || _)%bool; apply IH; auto. }
  destruct (HF l gmin from (limit from - wt from)%Z Hl ltac:(split; [auto|tauto])) as (bg & bt & gap & E & H1 & H2). rewrite E.
  destruct (Nat.eqb_spec bt from) as [->|Hn]; [exists from, gmin; split; auto; split; auto; tauto|].
  destruct exact; [exists bt, bg; auto|]. rewrite (Hg bt H1). exists bt, (G bt). auto.
Qed.
Lemma find_local_ok T c D u : cinv T c D -> u < n ->
  exists to x, find_local g k hash lk exact gmin limit Mem cview c u = Some (qv c D u, (to, x)) /\ to < k /\
    (to <> qv c D u -> x = cut_weight g (qv c D) - cut_weight g (relabel (qv c D) u to))%Z.
Proof.
  intros HI Hu. unfold find_local. rewrite (i_block T c D HI u Hu). pose proof (i_q T c D HI u Hu) as Hq.
  destruct (i_gains T c D HI u _ Hu Hq) as (l & E & Hl).
  destruct (find_best_ok (qv c D u) (gvw g u) (d_weight_of Mem c) (block_weight g (qv c D)) _ l (d_gain_of k hash Mem cview c u (qv c D u))
    (fun b => block_conn g (qv c D) u b - block_conn g (qv c D) u (qv c D u))%Z Hq ltac:(intros; eapply i_weight; eauto) E Hl
    ltac:(intros; eapply i_gain; eauto)) as (to & x & Ef & H1 & H2).
  rewrite Ef. exists to, x. split; auto. split; auto. intros Hn. rewrite (H2 Hn). symmetry. apply gain_is_cut_decrease; auto. apply simple_no_loop; auto.
Qed.
Lemma find_shared_ok T c D u : cinv T c D -> u < n ->
  exists to x, find_shared g exact gmin limit Mem cview c u = Some (label_of (c_lab c) u, (to, x)) /\ to < k.
Proof.
  intros HI Hu. unfold find_shared. pose proof (i_len T c D HI) as HLen. rewrite (nth_error_in _ _ 0) by lia. fold (label_of (c_lab c) u).
  pose proof (i_lt T c D HI u Hu) as Hp. destruct (Hrep _ _ (proj1 (proj2 HI)) (i_lab T c D HI) u Hu) as (_ & H2 & H3).
  destruct (H3 _ Hp) as (l & E & HP). destruct (i_ok T c D HI) as (_ & (_ & HW) & _). cbn [x_bw x_lab sys] in HW.
  destruct (find_best_ok (label_of (c_lab c) u) (gvw g u) (nth_error (c_bw c)) _ _ l (bc_gain (cview (c_mem c)) u (label_of (c_lab c) u))
    (fun b => block_conn g (label_of (c_lab c)) u b - block_conn g (label_of (c_lab c)) u (label_of (c_lab c) u))%Z Hp HW E) as (to & x & Ef & H1 & _).
  - intros b x Hin. apply (Permutation_in _ HP) in Hin. unfold targets in Hin. apply in_map_iff in Hin. destruct Hin as (b' & Eb & Hin). injection Eb as <- <-.
    apply filter_In in Hin. destruct Hin as [Hin Hb]. apply in_seq in Hin. apply Bool.andb_true_iff in Hb. destruct Hb as [Hb _].
    apply Bool.negb_true_iff, Nat.eqb_neq in Hb. split; [lia|]. split; auto. intros Hx. rewrite Hx. reflexivity.
  - intros b Hb. apply H2; auto.
  - rewrite Ef. exists to, x. auto.
Qed.

(** * Moves of the shared partition *)
Definition sinv (c : core) : Prop :=
  labels_ok g k (c_lab c) /\ (length (c_bw c) = k /\ forall b, b < k -> nth_error (c_bw c) b = Some (block_weight g (label_of (c_lab c)) b)) /\
  rep (c_mem c) (c_lab c).
Lemma cinv_sinv T c D : cinv T c D -> sinv c.
Proof. intros (HO & HR & _). destruct HO as (H1 & H2 & _). split; [exact H1|]. split; [exact H2|exact HR]. Qed.
Lemma shared_move_ok c u to : sinv c -> u < n -> to < k ->
  exists c', shared_move g Mem cmove c u (label_of (c_lab c) u) to = Some c' /\ sinv c' /\ c_lab c' = upd u to (c_lab c) /\ c_d c' = c_d c.
Proof.
  intros (HL & (HBL & HB) & HR) Hu Ht. destruct HL as [HL1 HL2]. unfold shared_move. rewrite (nth_error_in _ _ 0) by lia. fold (label_of (c_lab c) u).
  destruct (set_weights k hash (c_bw c) _ (label_of (c_lab c) u) to (gvw g u) HBL HB (HL2 u Hu) Ht) as (W1 & W2 & W3 & W4).
  rewrite W1. cbv zeta. rewrite W2. destruct (Hmove _ _ u to HR (conj HL1 HL2) Hu Ht) as (m & Em & HR'). rewrite Em.
  eexists. split; [reflexivity|]. split; [|auto].
  assert (EP : forall x, label_of (upd u to (c_lab c)) x = relabel (label_of (c_lab c)) u to x) by (intros; apply lab_upd; lia).
  split; [|split]; cbn [c_lab c_bw c_mem]; auto.
  - split; [rewrite upd_length; auto|]. intros x Hx. rewrite EP. unfold relabel. destruct (Nat.eqb x u); auto.
  - split; auto. intros b Hb. rewrite W4 by auto. f_equal.
    rewrite (block_weight_ext g (label_of (upd u to (c_lab c))) (relabel (label_of (c_lab c)) u to)) by (intros; apply EP). rewrite block_weight_relabel by auto. lia.
Qed.
Lemma commit_fold L : forall c s, sinv c -> NoDup (map fst L) -> (forall u b, In (u, b) L -> u < n /\ b < k) -> length (b_trk s) = n ->
  exists c' s', fold_left (commit_one g Mem cmove) L (Some (c, s)) = Some (c', s') /\ sinv c' /\ c_d c' = c_d c /\
    (forall x, label_of (c_lab c') x = view (label_of (c_lab c)) L x) /\
    b_pq s' = b_pq s /\ b_tgt s' = b_tgt s /\ b_seeds s' = b_seeds s /\ b_touched s' = b_touched s /\ length (b_trk s') = n /\
    (forall x, nth x (b_trk s') 0%Z = match kl_get x L with Some _ => MOVED_GLOBALLY | None => nth x (b_trk s) 0%Z end).
Proof.
  induction L as [|[u b] L IH]; intros c s HI HN HL Ht; cbn [fold_left].
  - exists c, s. repeat (split; auto); try apply HI.
  - destruct (HL u b (or_introl eq_refl)) as [Hu Hb]. unfold commit_one at 2. cbn [fst snd].
    assert (HLen : length (c_lab c) = n) by apply HI. rewrite (nth_error_in _ _ 0) by lia. fold (label_of (c_lab c) u).
    destruct (shared_move_ok c u b HI Hu Hb) as (c1 & E1 & HI1 & EL1 & ED1). rewrite E1.
    inversion HN as [|? ? Hni HN']; subst. cbn [fst] in Hni.
    destruct (IH c1 (trk_set u MOVED_GLOBALLY s) HI1 HN' ltac:(intros; eapply HL; right; eauto) ltac:(cbn; rewrite upd_length; auto))
      as (c2 & s2 & E2 & HI2 & ED2 & EV2 & B1 & B2 & B3 & B4 & B5 & B6).
    exists c2, s2. split; auto. split; auto. split; [congruence|]. cbn [trk_set b_trk b_pq b_tgt b_seeds b_touched] in *.
    assert (HN0 : kl_get u L = None).
    { destruct (kl_get u L) eqn:E; auto. exfalso. apply kl_get_in in E; auto. apply Hni, in_map_iff. eexists. split; [|exact E]. reflexivity. }
    split; [|repeat (split; auto)].
    + intros x. rewrite EV2. unfold view. cbn [kl_get]. destruct (Nat.eqb_spec u x) as [->|Hn].
      * rewrite HN0, EL1, lab_upd by lia. unfold relabel. rewrite Nat.eqb_refl. reflexivity.
      * destruct (kl_get x L); auto. rewrite EL1, lab_upd by lia. unfold relabel. destruct (Nat.eqb_spec x u); [congruence|reflexivity].
    + intros x. rewrite B6. cbn [kl_get]. destruct (Nat.eqb_spec u x) as [->|Hn].
      * rewrite HN0. rewrite upd_nth_same by lia. reflexivity.
      * destruct (kl_get x L); auto. rewrite upd_nth_other by auto. reflexivity.
Qed.

Lemma cleared_ok T c D d : sinv c -> (dm_ts (dl_part d) <= T)%N -> linv false hash 0 (dl_part d) D -> length (dl_w d) = k ->
  (exists f, has g k hash T d f) -> (T + 1 < 2 ^ 64)%N ->
  cinv (T + 1)%N {| c_lab := c_lab c; c_bw := c_bw c; c_mem := c_mem c; c_d := dl_clear d |} [].
Proof.
  intros (HL & HW & HR) Hts HD HWL (f & HCt & C & HC1 & HC2 & HC3) HT.
  destruct (clear_dm hash 0 _ _ T HD Hts HT) as [D1 D2]. destruct (clear_dm hash 0%Z _ _ T HC1 HCt HT) as [C1 C2].
  split; [|split; [exact HR|]].
  - split; [exact HL|]. split; [exact HW|]. cbn [sys x_lab x_d x_bw c_lab c_bw c_d dl_clear dl_part dl_w]. split; [|split].
    + split; auto. split; auto. split; [constructor|]. intros u b [].
    + rewrite repeat_length. split; auto. intros b Hb. rewrite (nth_error_in _ _ 0%Z) by (rewrite repeat_length; lia). rewrite nth_repeat.
      f_equal. unfold vw, view. cbn [kl_get x_lab sys c_lab]. unfold label_of. lia.
    + split; auto. exists []. split; auto. split; [constructor|]. intros v b Hv Hb. unfold vw, view. cbn [kl_get x_lab cget sys c_lab]. unfold label_of. lia.
  - intros _ v Hv. split; [constructor|]. split; [intros b []|]. intros b Hb _ _. unfold vw, view. cbn [kl_get sys x_lab c_lab]. unfold label_of. lia.
Qed.

Lemma commit_ok T c D s u to : cinv T c D -> (T + 1 < 2 ^ 64)%N -> u < n -> to < k -> kl_get u D = None -> length (b_trk s) = n ->
  exists c' s', commit g Mem cmove c s u (label_of (c_lab c) u) to = Some (c', s') /\ cinv (T + 1)%N c' [] /\
    (forall x, label_of (c_lab c') x = relabel (qv c D) u to x) /\
    b_pq s' = b_pq s /\ b_tgt s' = b_tgt s /\ b_seeds s' = b_seeds s /\ b_touched s' = b_touched s /\ length (b_trk s') = n /\
    (forall x, nth x (b_trk s') 0%Z = if Nat.eqb x u then MOVED_GLOBALLY else match kl_get x D with Some _ => MOVED_GLOBALLY | None => nth x (b_trk s) 0%Z end).
Proof.
  intros HI HT Hu Ht HN Htk. unfold commit. destruct (shared_move_ok c u to (cinv_sinv T c D HI) Hu Ht) as (c1 & E1 & HI1 & EL1 & ED1). rewrite E1.
  destruct (i_ok T c D HI) as (HL & _ & (Hts & HD & HND & HR) & (HWL & _) & HH). cbn [sys x_d] in Hts, HD, HWL, HH.
  destruct (r_size g k hash T (sys c) D (i_ok T c D HI)) as [_ HP]. cbn [sys x_d] in HP.
  assert (HND' : NoDup (map fst (dg_for_each (c_d c1)))).
  { rewrite ED1. apply (Permutation_NoDup (Permutation_map fst (Permutation_sym HP))). auto. }
  destruct (commit_fold (dg_for_each (c_d c1)) c1 (trk_set u MOVED_GLOBALLY s) HI1 HND') as (c2 & s2 & E2 & HI2 & ED2 & EV2 & B1 & B2 & B3 & B4 & B5 & B6).
  { rewrite ED1. intros x b Hin. apply HR. apply (Permutation_in _ HP); auto. }
  { cbn [trk_set b_trk]. rewrite upd_length. auto. }
  rewrite E2. eexists. eexists. split; [reflexivity|]. rewrite ED2, ED1. split; [|split; [|repeat (split; auto)]].
  - eapply cleared_ok; eauto. 
  - intros x. cbn [c_lab]. rewrite EV2. unfold view, relabel. rewrite (kl_get_perm _ D x HND') by (rewrite ED1; auto).
    assert (HLn : length (c_lab c) = n) by apply HL. rewrite EL1. destruct (Nat.eqb_spec x u) as [->|Hn].
    + rewrite HN, lab_upd by lia. unfold relabel. rewrite Nat.eqb_refl. reflexivity.
    + unfold qv, view. destruct (kl_get x D); auto. rewrite lab_upd by lia. unfold relabel. destruct (Nat.eqb_spec x u); [contradiction|reflexivity].
  - intros x. rewrite B6. rewrite (kl_get_perm _ D x HND') by (rewrite ED1; auto). cbn [trk_set b_trk]. destruct (Nat.eqb_spec x u) as [->|Hn].
    + rewrite HN. rewrite upd_nth_same by lia. reflexivity.
    + destruct (kl_get x D); auto. rewrite upd_nth_other by auto. reflexivity.
Qed.

Lemma local_move_ok T c D u to : cinv T c D -> u < n -> to < k ->
  exists c', local_move g k hash lk Mem cview c u (qv c D u) to = Some c' /\ cinv T c' (kl_modify 0 u (fun _ => to) D) /\ c_lab c' = c_lab c.
Proof.
  intros HI Hu Ht. destruct (lmove_ok g k hash Hc Hs (cch c) (cch_conn c (proj1 (proj2 HI))) T lk (sys c) D u to (i_ok T c D HI) Hu Ht)
    as (s' & E & EL & HO & HA).
  cbn [l_step] in E. destruct (Nat.ltb_spec u n); [|lia]. destruct (Nat.ltb_spec to k); [|lia]. cbn [andb] in E.
  cbn [sys x_lab x_bw x_d] in E. rewrite (i_block T c D HI u Hu) in E. rewrite cch_self in E.
  unfold local_move. destruct (dg_set_block _ _ _ _ _ _) as [d|]; [|discriminate]. destruct (dc_move _ _ _ _ _ _ _ _ _) as [d'|]; [|discriminate].
  injection E as <-. eexists. split; [reflexivity|]. split; [|reflexivity]. split; [exact HO|]. split; [exact (proj1 (proj2 HI))|].
  intros El v Hv. apply (HA El Hsim (Hlk El) v Hv). exact (proj2 (proj2 HI) El v Hv).
Qed.
End F.
