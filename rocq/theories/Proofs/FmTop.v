(* A whole FM batch, sequences of batches, and the two gain caches. *)
From Verif Require Import Lib.Prelude Spec.Graph Spec.Gain Spec.KeyedList Spec.LocalView Spec.FmSpec Model.DynMapModel Model.DeltaModel Model.GainModel Model.FmModel
  Proofs.GraphFacts Proofs.GainBase Proofs.GainSys Proofs.DenseGain Proofs.CompactGainBase Proofs.CompactGain Proofs.DynMapProofs Proofs.DeltaProofs Proofs.GainTop Proofs.DeltaTop
  Proofs.FmBase Proofs.FmProofs Proofs.DeltaCases.

Section F.
Variables (g : graph) (k : nat) (hash : nat -> nat) (lk all exact : bool) (gmin : Z) (limit : nat -> Z) (id : Z).
Variables (unlock_seeds unlock_moved : bool).
Variables (Mem : Type) (cview : Mem -> bcache) (cmove : Mem -> nat -> nat -> nat -> option Mem).
Variable rep : Mem -> list nat -> Prop.
Hypothesis (Hc : closed_graph g) (Hs : undirected g) (Hsim : simple_graph g) (Hlk : lk = true -> positive_edges g).
Hypothesis Hrep : forall m lab, rep m lab -> labels_ok g k lab -> cache_exact g k all exact (label_of lab) (cview m).
Hypothesis Hmove : forall m lab u b, rep m lab -> labels_ok g k lab -> u < gn g -> b < k ->
  exists m', cmove m u (label_of lab u) b = Some m' /\ rep m' (upd u b lab).
Hypothesis (Hid : (0 < id)%Z) (Hvw : forall u, u < gn g -> (0 <= gvw g u)%Z).
Notation n := (gn g).
Notation core := (core Mem).
Notation cinv := (cinv g k hash lk Mem rep).
Notation qv := (qv Mem).
Notation trk s u := (nth u (b_trk s) 0%Z).

Definition worker_ok (s : book) : Prop :=
  length (b_trk s) = n /\ b_pq s = repeat [] k /\ length (b_tgt s) = n /\ b_touched s = [] /\
  forall u, u < n -> trk s u <> id /\ trk s u <> MOVED_LOCALLY.

Notation finv c s := (finv g k hash lk limit id Mem rep (c_lab c) (b_trk s)).
Lemma poll_ok (c0 : core) s0 T (c : core) s u : worker_ok s0 -> finv c0 s0 T {| f_core := c; f_book := s; f_cur := 0; f_best := 0 |} [] -> u < n ->
  exists s', poll_one g exact gmin limit id Mem cview c (Some s) u = Some s' /\
    finv c0 s0 T {| f_core := c; f_book := s'; f_cur := 0; f_best := 0 |} [].
Proof.
  intros HW HF Hu. destruct HF as (HI & (HB & HD) & F1 & F2 & F3 & F4 & F5 & F6 & F7 & F8 & F9 & F10). cbn [f_core f_book f_cur f_best] in *.
  unfold poll_one. rewrite (nth_error_in (b_trk s) u 0%Z) by (destruct HB as (H1 & _); rewrite H1; auto).
  destruct (Z.eqb_spec (trk s u) UNLOCKED) as [Eu|Eu].
  2:{ exists s. split; auto. unfold FmProofs.finv. cbn [f_core f_book f_cur f_best]. split; [exact HI|]. split; [split; auto|]. tauto. }
  destruct (find_shared_ok g k hash lk all exact gmin limit Mem cview rep Hlk Hrep T c [] u HI Hu) as (nt & ng & Ef & Hnt). rewrite Ef.
  pose proof (i_lt g k hash lk Mem rep T c [] HI u Hu) as Hob.
  destruct (insert_ok g k hash limit id Mem cmove rep (c_lab c) s u _ nt ng HB Hu ltac:(rewrite Eu; unfold UNLOCKED; lia) eq_refl Hob Hnt) as (s' & E & HB' & E1 & E2 & E3). rewrite E.
  exists (add_seed u s'). split; [reflexivity|]. unfold FmProofs.finv. cbn [f_core f_book f_cur f_best add_seed b_seeds b_touched b_trk]. rewrite E2, E3.
  split; [exact HI|]. split; [split; [exact HB'|intros v Hv; cbn [kl_get] in Hv; contradiction]|]. do 6 (split; [assumption|]).
  split; [|split; [|split]].
  - intros v Hv. rewrite E1 by auto. destruct (Nat.eqb_spec v u) as [->|]; intros Hne; rewrite !in_app_iff; cbn [In]; auto.
    specialize (F7 v Hv Hne). rewrite in_app_iff in F7. tauto.
  - intros v Hv. rewrite !in_app_iff in Hv. cbn [In] in Hv. destruct (Nat.eq_dec v u) as [->|Hn]; [rewrite E1, Nat.eqb_refl by auto; auto|].
    assert (Hin : In v (b_seeds s ++ b_touched s)) by (apply in_app_iff; intuition congruence).
    rewrite E1 by (apply (F10 v Hin)). destruct (Nat.eqb_spec v u); [contradiction|]. apply F8; auto.
  - intros v Hv Hne. destruct (F9 v Hv Hne) as [F9' F9i]. rewrite E1 by auto. destruct (Nat.eqb_spec v u) as [->|]; [rewrite Eu in F9'; discriminate|].
    split; auto. rewrite !in_app_iff in *. tauto.
  - intros v Hv. rewrite !in_app_iff in Hv. cbn [In] in Hv. destruct (Nat.eq_dec v u) as [->|Hn].
    + split; auto. destruct (Z.eq_dec (trk s u) (trk s0 u)) as [Ee|Ee]; [congruence|]. apply (F10 u (F7 u Hu Ee)).
    + apply F10, in_app_iff. intuition congruence.
Qed.
Lemma poll_all (c0 : core) s0 T (c : core) seeds : worker_ok s0 -> (forall u, In u seeds -> u < n) -> forall s,
  finv c0 s0 T {| f_core := c; f_book := s; f_cur := 0; f_best := 0 |} [] ->
  exists s', fold_left (poll_one g exact gmin limit id Mem cview c) seeds (Some s) = Some s' /\
    finv c0 s0 T {| f_core := c; f_book := s'; f_cur := 0; f_best := 0 |} [].
Proof.
  intros HW Hl. induction seeds as [|u l IH]; intros s HF; cbn [fold_left]; [exists s; auto|].
  destruct (poll_ok c0 s0 T c s u HW HF (Hl u (or_introl eq_refl))) as (s' & E & HF'). rewrite E. apply IH; auto. intros v Hv. apply Hl. right. auto.
Qed.

Lemma unlock_fold (f : list Z -> nat -> list Z) (Hf : f = unlock_touched id unlock_moved \/ f = unlock_seed id unlock_seeds unlock_moved) : forall L t,
  length t = n -> (forall u, In u L -> u < n) ->
  (forall u, In u L -> nth u t 0%Z = id \/ nth u t 0%Z = MOVED_LOCALLY \/ nth u t 0%Z = MOVED_GLOBALLY \/ nth u t 0%Z = UNLOCKED) ->
  let t' := fold_left f L t in
  length t' = n /\ (forall u, ~ In u L -> nth u t' 0%Z = nth u t 0%Z) /\
  (forall u, In u L -> nth u t' 0%Z = UNLOCKED \/ nth u t' 0%Z = MOVED_GLOBALLY) /\
  (forall u, nth u t 0%Z = MOVED_GLOBALLY -> nth u t' 0%Z = MOVED_GLOBALLY).
Proof.
  assert (ST : forall t u, length t = n -> u < n ->
    nth u t 0%Z = id \/ nth u t 0%Z = MOVED_LOCALLY \/ nth u t 0%Z = MOVED_GLOBALLY \/ nth u t 0%Z = UNLOCKED ->
    length (f t u) = n /\ (forall v, v <> u -> nth v (f t u) 0%Z = nth v t 0%Z) /\
    (nth u (f t u) 0%Z = UNLOCKED \/ nth u (f t u) 0%Z = MOVED_GLOBALLY) /\ (nth u t 0%Z = MOVED_GLOBALLY -> nth u (f t u) 0%Z = MOVED_GLOBALLY)).
  { assert (A : forall t u, length t = n -> u < n ->
      nth u t 0%Z = id \/ nth u t 0%Z = MOVED_LOCALLY \/ nth u t 0%Z = MOVED_GLOBALLY \/ nth u t 0%Z = UNLOCKED ->
      let t' := unlock_touched id unlock_moved t u in length t' = n /\ (forall v, v <> u -> nth v t' 0%Z = nth v t 0%Z) /\
      (nth u t' 0%Z = UNLOCKED \/ nth u t' 0%Z = MOVED_GLOBALLY) /\ (nth u t 0%Z = MOVED_GLOBALLY -> nth u t' 0%Z = MOVED_GLOBALLY)).
    { intros t u HL Hu Hv. cbv zeta. unfold unlock_touched. cbv zeta. unfold MOVED_LOCALLY, MOVED_GLOBALLY, UNLOCKED in *.
      destruct (Z.eqb_spec (nth u t 0%Z) (-1)).
      - rewrite upd_length. split; auto. split; [intros; apply upd_nth_other; auto|]. rewrite upd_nth_same by lia. destruct unlock_moved; split; auto; lia.
      - destruct (Z.eqb_spec (nth u t 0%Z) id).
        + rewrite upd_length. split; auto. split; [intros; apply upd_nth_other; auto|]. rewrite upd_nth_same by lia. split; auto. lia.
        + split; auto. split; auto. split; auto. intuition. }
    intros t u HL Hu Hv. destruct Hf as [->| ->]; [apply A; auto|]. unfold unlock_seed. destruct unlock_seeds; [apply A; auto|].
    rewrite upd_length. split; auto. split; [intros; apply upd_nth_other; auto|]. rewrite upd_nth_same by lia. auto. }
  induction L as [|u L IH]; intros t HL HR HV; cbn [fold_left]; [repeat split; auto; intros ? []|].
  destruct (ST t u HL (HR u (or_introl eq_refl)) (HV u (or_introl eq_refl))) as (S1 & S2 & S3 & S4).
  assert (HV' : forall v, In v L -> nth v (f t u) 0%Z = id \/ nth v (f t u) 0%Z = MOVED_LOCALLY \/ nth v (f t u) 0%Z = MOVED_GLOBALLY \/ nth v (f t u) 0%Z = UNLOCKED).
  { intros v Hv. destruct (Nat.eq_dec v u) as [->|Hn]; [tauto|]. rewrite S2 by auto. apply HV. right. auto. }
  destruct (IH (f t u) S1 ltac:(intros; apply HR; right; auto) HV') as (I1 & I2 & I3 & I4). split; auto. split; [|split].
  - intros v Hv. cbn [In] in Hv. rewrite I2 by tauto. apply S2. intros ->. tauto.
  - intros v [<-|Hv]; [|auto]. destruct (in_dec Nat.eq_dec u L); [auto|]. rewrite I2; auto.
  - intros v Hv. apply I4. destruct (Nat.eq_dec v u) as [->|Hn]; [auto|]. rewrite S2; auto.
Qed.

Lemma batch_ok T c s seeds choices : cinv T c [] -> worker_ok s -> (forall u, In u seeds -> u < n) ->
  (T + N.of_nat (length choices) + 1 < 2 ^ 64)%N ->
  exists c' s' gain T', run_batch g k hash lk exact gmin limit id unlock_seeds unlock_moved Mem cview cmove seeds choices c s = Some (c', s', gain) /\
    (T' <= T + N.of_nat (length choices) + 1)%N /\ cinv T' c' [] /\ worker_ok s' /\
    search_result g k limit (c_lab c) (c_lab c') (c_bw c') gain /\
    tracker_result n (c_lab c) (c_lab c') (b_trk s) (b_trk s').
Proof.
  intros HI HW Hseeds HT. assert (HW' := HW). destruct HW' as (W1 & W2 & W3 & W4 & W5). unfold run_batch. cbv zeta.
  set (s0 := {| b_trk := b_trk s; b_pq := b_pq s; b_tgt := b_tgt s; b_seeds := []; b_touched := b_touched s |}).
  assert (HF0 : finv c s T {| f_core := c; f_book := s0; f_cur := 0; f_best := 0 |} []).
  { unfold FmProofs.finv. cbn [f_core f_book f_cur f_best s0 b_trk b_seeds b_touched]. rewrite W4. split; [exact HI|]. split; [split|].
    - split; [exact W1|]. split; [cbn [s0 b_pq]; rewrite W2, repeat_length; auto|]. split; [exact W3|]. cbn [s0 b_trk b_tgt]. split.
      + intros b u. unfold inq. cbn [s0 b_pq]. rewrite W2, nth_repeat. cbn [kl_get]. split; [intros C; contradiction|]. intros (Hu & E & _). exfalso. apply (proj1 (W5 u Hu)); auto.
      + intros u Hu E. exfalso. apply (proj1 (W5 u Hu)); auto.
    - intros u C. cbn [kl_get] in C. contradiction.
    - change (qv c []) with (label_of (c_lab c)). split; [lia|]. split; [lia|]. split; [lia|]. split; [auto|].
      assert (WI : within g k limit (c_lab c) (label_of (c_lab c))) by (split; [intros; right; lia|intros; contradiction]).
      split; [exact WI|]. split; [exact WI|]. cbn [app In]. split; [intros; congruence|]. split; [intros ? []|]. split; [intros; contradiction|intros ? []]. }
  destruct (poll_all c s T c seeds HW Hseeds s0 HF0) as (s1 & E1 & HF1). fold s0. rewrite E1.
  destruct (loop_ok g k hash lk all exact gmin limit id Mem cview cmove rep Hid Hc Hs Hsim Hlk Hrep Hmove (c_lab c) (b_trk s) W5 Hvw choices T _ [] HF1 ltac:(lia)) as (f & T1 & D & E2 & HT1 & HF2).
  rewrite E2. destruct HF2 as (HI2 & (HB & HD) & F1 & F2 & F3 & F4 & F5 & F6 & F7 & F8 & F9 & F10).
  eexists _, _, _, (T1 + 1)%N. split; [reflexivity|]. split; [lia|]. cbn [c_lab c_bw b_trk].
  assert (HIc : cinv (T1 + 1)%N {| c_lab := c_lab (f_core f); c_bw := c_bw (f_core f); c_mem := c_mem (f_core f); c_d := dl_clear (c_d (f_core f)) |} []).
  { destruct (i_ok g k hash lk Mem rep T1 _ D HI2) as (_ & _ & (Hts & HDp & _ & _) & (HWL & _) & HH). cbn [sys x_d] in Hts, HDp, HWL, HH.
    refine (cleared_ok g k hash lk limit Mem rep Hlk T1 (f_core f) D _ (cinv_sinv g k hash lk Mem rep T1 _ D HI2) Hts HDp HWL _ ltac:(lia)). eexists. exact HH. }
  split; [exact HIc|]. set (s2 := f_book f) in *. assert (HBL : length (b_trk s2) = n) by apply HB.
  destruct (unlock_fold (unlock_seed id unlock_seeds unlock_moved) (or_intror eq_refl) (b_seeds s2) (b_trk s2) HBL) as (U1 & U2 & U3 & U4).
  { intros u Hu. apply F10, in_app_iff. auto. }
  { intros u Hu. specialize (F8 u ltac:(apply in_app_iff; auto)). tauto. }
  set (t1 := fold_left (unlock_seed id unlock_seeds unlock_moved) (b_seeds s2) (b_trk s2)) in *.
  destruct (unlock_fold (unlock_touched id unlock_moved) (or_introl eq_refl) (b_touched s2) t1 U1) as (V1 & V2 & V3 & V4).
  { intros u Hu. apply F10, in_app_iff. auto. }
  { intros u Hu. destruct (in_dec Nat.eq_dec u (b_seeds s2)) as [Hi|Hi]; [specialize (U3 u Hi); tauto|]. rewrite U2 by auto. specialize (F8 u ltac:(apply in_app_iff; auto)). tauto. }
  set (t2 := fold_left (unlock_touched id unlock_moved) (b_touched s2) t1) in *.
  assert (Tin : forall u, In u (b_seeds s2 ++ b_touched s2) -> nth u t2 0%Z = UNLOCKED \/ nth u t2 0%Z = MOVED_GLOBALLY).
  { intros u Hu. apply in_app_iff in Hu. destruct (in_dec Nat.eq_dec u (b_touched s2)) as [Hi|Hi]; [apply V3; auto|]. rewrite V2 by auto. apply U3. tauto. }
  assert (Tout : forall u, u < n -> ~ In u (b_seeds s2 ++ b_touched s2) -> nth u t2 0%Z = trk s u).
  { intros u Hun Hu. rewrite in_app_iff in Hu. rewrite V2 by tauto. rewrite U2 by tauto. destruct (Z.eq_dec (trk s2 u) (trk s u)); auto. exfalso. apply Hu, in_app_iff, F7; auto. }
  assert (HLen : length (c_lab (f_core f)) = n) by exact (i_len g k hash lk Mem rep T1 _ D HI2).
  split; [|split].
  - split; [exact V1|]. cbn [b_pq b_tgt b_touched]. split; [|split; [apply HB|split; [reflexivity|]]].
    + destruct HB as (_ & B2 & _). rewrite <- B2. clear. induction (b_pq s2); cbn; [auto|]. rewrite IHl. auto.
    + intros u Hu. destruct (in_dec Nat.eq_dec u (b_seeds s2 ++ b_touched s2)) as [Hi|Hi].
      * cbn [b_trk]. destruct (Tin u Hi) as [-> | ->]; unfold UNLOCKED, MOVED_GLOBALLY, MOVED_LOCALLY; lia.
      * cbn [b_trk]. rewrite Tout by auto. apply W5; auto.
  - destruct (cinv_sinv g k hash lk Mem rep _ _ _ HI2) as (SL & (SW1 & SW2) & _). unfold search_result. cbv zeta.
    split; [exact SL|]. split; [exact SW1|]. split.
    { destruct SL as [SL1 SL2]. split; [exact SL1|]. split; [intros u Hu; rewrite SW1; apply SL2; auto|]. intros b Hb. rewrite SW1 in Hb.
      specialize (SW2 b Hb). rewrite (nth_error_in _ _ 0%Z) in SW2 by lia. injection SW2 as SW2. rewrite SW2. reflexivity. }
    split; [exact F3|]. split; [exact F1|]. destruct F5 as [G1 G2]. split; [exact G2|]. split; [exact G1|]. intros E. apply (list_ext 0).
    + rewrite HLen. symmetry. apply (i_len g k hash lk Mem rep T c [] HI).
    + intros u Hu. apply F4; auto. lia.
  - split; [exact V1|]. intros u Hu. split.
    + destruct (in_dec Nat.eq_dec u (b_seeds s2 ++ b_touched s2)) as [Hi|Hi]; [|left; apply Tout; auto].
      destruct (F10 u Hi) as [_ E]. destruct (Tin u Hi) as [Et|Et]; [left; rewrite Et, E; reflexivity|right; auto].
    + intros Hne. destruct (F9 u Hu Hne) as [F9' Hi].
      split; [apply (F10 u Hi)|]. apply V4, U4, F9'.
Qed.

Lemma batches_ok bs : forall T c s, cinv T c [] -> worker_ok s -> (forall b, In b bs -> forall u, In u (fst b) -> u < n) ->
  (T + N.of_nat (length (concat (map snd bs)) + length bs) < 2 ^ 64)%N ->
  exists c' s' gains T', run_batches g k hash lk exact gmin limit id unlock_seeds unlock_moved Mem cview cmove bs c s = Some (c', s', gains) /\
    (T' <= T + N.of_nat (length (concat (map snd bs)) + length bs))%N /\ cinv T' c' [] /\ worker_ok s' /\
    length gains = length bs /\ Forall (fun x => 0 <= x)%Z gains /\
    (cut_weight g (label_of (c_lab c)) - cut_weight g (label_of (c_lab c')) = zsum gains)%Z.
Proof.
  induction bs as [|[seeds choices] bs IH]; intros T c s HI HW Hsd HT; cbn [run_batches map concat length snd] in *.
  - exists c, s, [], T. split; [reflexivity|]. split; [lia|]. split; auto. split; auto. split; auto. split; [constructor|]. cbn. lia.
  - rewrite app_length in *. 
    destruct (batch_ok T c s seeds choices HI HW (Hsd _ (or_introl eq_refl)) ltac:(lia)) as (c1 & s1 & x & T1 & E1 & HT1 & HI1 & HW1 & (_ & _ & _ & R4 & R5 & _) & _).
    rewrite E1. destruct (IH T1 c1 s1 HI1 HW1 ltac:(intros; eapply Hsd; [right|]; eauto) ltac:(lia)) as (c2 & s2 & l & T2 & E2 & HT2 & HI2 & HW2 & HL & HP & HZ).
    rewrite E2. exists c2, s2, (x :: l), T2. split; [reflexivity|]. split; [lia|]. split; auto. split; auto. split; [cbn [length]; lia|].
    split; [constructor; auto|]. change (zsum (x :: l)) with (x + zsum l)%Z. lia.
Qed.

Lemma fm_ok lab bw m trk tgt bs seeds choices : rep m lab -> labels_ok g k lab -> length bw = k -> exact_block_weights g lab bw ->
  length trk = n -> length tgt = n -> (forall u, u < n -> nth u trk 0%Z <> id /\ nth u trk 0%Z <> MOVED_LOCALLY) ->
  (forall b, In b (bs ++ [(seeds, choices)]) -> forall u, In u (fst b) -> u < n) ->
  (2 + N.of_nat (length (concat (map snd (bs ++ [(seeds, choices)]))) + length bs) < 2 ^ 64)%N ->
  exists c s gains c' s' gain,
    run_batches g k hash lk exact gmin limit id unlock_seeds unlock_moved Mem cview cmove bs (fm_start k lab bw m) (new_worker k trk tgt) = Some (c, s, gains) /\
    run_batch g k hash lk exact gmin limit id unlock_seeds unlock_moved Mem cview cmove seeds choices c s = Some (c', s', gain) /\
    (cut_weight g (label_of lab) - cut_weight g (label_of (c_lab c)) = zsum gains)%Z /\
    search_result g k limit (c_lab c) (c_lab c') (c_bw c') gain /\
    tracker_result n (c_lab c) (c_lab c') (b_trk s) (b_trk s') /\
    cache_exact g k all exact (label_of (c_lab c')) (cview (c_mem c')) /\
    (forall u, u < n -> dg_block hash (c_lab c') (c_d c') u = Some (label_of (c_lab c') u)) /\
    (forall b, b < k -> dg_block_weight (c_bw c') (c_d c') b = Some (block_weight g (label_of (c_lab c')) b)).
Proof.
  intros HR HL Hbw HEW Htrk Htgt Hfree Hsd HT. rewrite map_app, concat_app in HT. cbn [map concat snd] in HT. rewrite app_nil_r, app_length in HT.
  assert (HI : cinv 1%N (fm_start k lab bw m) []).
  { split; [exact (start_ok g k hash all exact _ (dense_cache_exact g k all exact Hc Hs Hsim) lab bw HL Hbw HEW)|]. split; [exact HR|]. intros _. exact (start_afs g k hash all exact _ (dense_cache_exact g k all exact Hc Hs Hsim) lab bw). }
  assert (HW : worker_ok (new_worker k trk tgt)).
  { split; auto. }
  destruct (batches_ok bs 1%N _ _ HI HW ltac:(intros; eapply Hsd; [apply in_app_iff; left|]; eauto) ltac:(lia)) as (c & s & gains & T1 & E1 & HT1 & HI1 & HW1 & _ & _ & HZ).
  destruct (batch_ok T1 c s seeds choices HI1 HW1 ltac:(intros u Hu; apply (Hsd (seeds, choices)); [apply in_app_iff; right; left; auto|auto]) ltac:(lia))
    as (c' & s' & gain & T2 & E2 & HT2 & HI2 & HW2 & R1 & R2).
  exists c, s, gains, c', s', gain. split; [exact E1|]. split; [exact E2|]. split; [exact HZ|]. split; [exact R1|]. split; [exact R2|].
  split; [apply Hrep; [apply HI2|apply R1]|]. split; [exact (i_block g k hash lk Mem rep T2 c' [] HI2)|exact (i_weight g k hash lk Mem rep T2 c' [] HI2)].
Qed.
End F.

(** * The caches *)
Section Cache.
Variables (g : graph) (k : nat) (Mem : Type) (expand : nat -> nat -> nat -> nat -> Z -> list micro) (apply : micro -> Mem -> option Mem).
Variable init : list nat -> option Mem.
Definition crep (m : Mem) (lab : list nat) : Prop :=
  exists lab0 m0 es, labels_ok g k lab0 /\ init lab0 = Some m0 /\ g_run g k Mem expand apply es (g_start Mem lab0 m0 1) = Some (mkSys lab m [[]]).
Hypothesis Htot : forall lab0 es, labels_ok g k lab0 -> exists m0 s, init lab0 = Some m0 /\ g_run g k Mem expand apply es (g_start Mem lab0 m0 1) = Some s.
Lemma run_app es1 : forall es2 s s1, g_run g k Mem expand apply es1 s = Some s1 -> g_run g k Mem expand apply (es1 ++ es2) s = g_run g k Mem expand apply es2 s1.
Proof.
  induction es1 as [|e es1 IH]; intros es2 s s1 E; cbn [g_run app] in *; [congruence|]. destruct (g_step g k Mem expand apply e s); [|discriminate]. eapply IH; eauto.
Qed.
Lemma ticks L : forall lab m, g_run g k Mem expand apply (repeat (ETick 0) (length L)) (mkSys lab m [L]) =
  match fold_left (fun r x => match r with None => None | Some m => apply x m end) L (Some m) with None => None | Some m' => Some (mkSys lab m' [[]]) end.
Proof.
  assert (HN : forall L, fold_left (fun r x => match r with None => None | Some m => apply x m end) L None = None) by (induction L0; auto).
  induction L as [|x L IH]; intros lab m; cbn [length repeat g_run fold_left]; [reflexivity|]. cbn [g_step s_pend nth s_mem s_lab].
  destruct (apply x m) as [m1|]; [|rewrite HN; reflexivity]. cbn [upd]. apply IH.
Qed.
Lemma crep_move m lab u b : crep m lab -> labels_ok g k lab -> u < gn g -> b < k ->
  exists m', cache_move g Mem expand apply m u (label_of lab u) b = Some m' /\ crep m' (upd u b lab).
Proof.
  intros (lab0 & m0 & es & HL0 & E0 & E1) HL Hu Hb. set (L := flat_map (fun e => expand u (fst e) (label_of lab u) b (snd e)) (gadj g u)).
  set (es' := es ++ EMove 0 u b :: repeat (ETick 0) (length L)).
  destruct (Htot lab0 es' HL0) as (m0' & s & E0' & E2). rewrite E0 in E0'. injection E0' as <-.
  assert (E3 := E2). unfold es' in E3. rewrite (run_app _ _ _ _ E1) in E3. cbn [g_run g_step s_pend length] in E3.
  assert (Es : src_idle u (mkSys lab m [[]]) = true) by reflexivity. rewrite Es in E3.
  destruct (Nat.ltb_spec u (gn g)); [|lia]. destruct (Nat.ltb_spec b k); [|lia]. cbn [andb Nat.ltb Nat.leb nth s_lab s_mem upd] in E3.
  fold (label_of lab u) in E3. fold L in E3. rewrite ticks in E3. fold L. unfold cache_move. fold L.
  destruct (fold_left _ L (Some m)) as [m'|] eqn:EF; [|discriminate]. exists m'. split; auto. exists lab0, m0, es'. split; auto. split; auto. rewrite E2. congruence.
Qed.
End Cache.

Lemma dense_fm g k hash lk all exact gmin limit id us um lab bw m trk tgt bs seeds choices :
  closed_graph g -> undirected g -> simple_graph g -> (lk = true -> positive_edges g) -> (0 < id)%Z -> (forall u, u < gn g -> (0 <= gvw g u)%Z) ->
  d_init g k lab = Some m -> labels_ok g k lab -> length bw = k -> exact_block_weights g lab bw ->
  length trk = gn g -> length tgt = gn g -> (forall u, u < gn g -> nth u trk 0%Z <> id /\ nth u trk 0%Z <> (-1)%Z) ->
  (forall b, In b (bs ++ [(seeds, choices)]) -> forall u, In u (fst b) -> u < gn g) ->
  (2 + N.of_nat (length (concat (map snd (bs ++ [(seeds, choices)]))) + length bs) < 2 ^ 64)%N ->
  exists c s gains c' s' gain,
    run_batches g k hash lk exact gmin limit id us um _ (dense_view k all exact) (cache_move g _ (d_expand) (d_apply k))
      bs (fm_start k lab bw m) (new_worker k trk tgt) = Some (c, s, gains) /\
    run_batch g k hash lk exact gmin limit id us um _ (dense_view k all exact) (cache_move g _ (d_expand) (d_apply k)) seeds choices c s = Some (c', s', gain) /\
    (cut_weight g (label_of lab) - cut_weight g (label_of (c_lab c)) = zsum gains)%Z /\
    search_result g k limit (c_lab c) (c_lab c') (c_bw c') gain /\
    tracker_result (gn g) (c_lab c) (c_lab c') (b_trk s) (b_trk s') /\
    cache_exact g k all exact (label_of (c_lab c')) (dense_view k all exact (c_mem c')) /\
    (forall u, u < gn g -> dg_block hash (c_lab c') (c_d c') u = Some (label_of (c_lab c') u)) /\
    (forall b, b < k -> dg_block_weight (c_bw c') (c_d c') b = Some (block_weight g (label_of (c_lab c')) b)).
Proof.
  intros Hc Hs Hsim Hlk Hid Hvw Em HL. 
  assert (Htot : forall lab0 es, labels_ok g k lab0 -> exists m0 s, d_init g k lab0 = Some m0 /\ g_run g k _ d_expand (d_apply k) es (g_start _ lab0 m0 1) = Some s).
  { intros lab0 es H0. destruct (dense_reports g k lab0 1 es Hc Hs Hsim H0) as (c0 & s & E0 & E1 & _). exists c0, s. auto. }
  apply (fm_ok g k hash lk all exact gmin limit id us um _ (dense_view k all exact) (cache_move g _ d_expand (d_apply k))
           (crep g k _ d_expand (d_apply k) (d_init g k)) Hc Hs Hsim Hlk); auto.
  - intros m1 lab1 (lab0 & m0 & es & H0 & E0 & E1) H1. destruct (dense_reports g k lab0 1 es Hc Hs Hsim H0) as (c0 & s & E0' & E1' & _ & HR).
    rewrite E0 in E0'. injection E0' as <-. unfold d_run in E1'. rewrite E1 in E1'. injection E1' as <-. intros u Hu. destruct (HR u Hu eq_refl) as (R1 & _ & R2 & R3 & _).
    cbn [dense_view bc_conn bc_gain bc_gains]. split; [exact R1|]. split; [exact R2|]. intros from Hf. apply (R3 all exact from Hf).
  - intros m1 lab1 u b. apply crep_move. exact Htot.
  - exists lab, m, []. split; auto.
Qed.
Lemma compact_fm g k np junk hash lk all exact gmin limit id us um lab bw m trk tgt bs seeds choices :
  closed_graph g -> undirected g -> simple_graph g -> positive_edges g -> cg_fits g k -> 0 < np -> (0 < id)%Z -> (forall u, u < gn g -> (0 <= gvw g u)%Z) ->
  cg_init g k np junk lab = Some m -> labels_ok g k lab -> length bw = k -> exact_block_weights g lab bw ->
  length trk = gn g -> length tgt = gn g -> (forall u, u < gn g -> nth u trk 0%Z <> id /\ nth u trk 0%Z <> (-1)%Z) ->
  (forall b, In b (bs ++ [(seeds, choices)]) -> forall u, In u (fst b) -> u < gn g) ->
  (2 + N.of_nat (length (concat (map snd (bs ++ [(seeds, choices)]))) + length bs) < 2 ^ 64)%N ->
  let view := compact_view g k np junk all exact in
  let move := cache_move g _ (cg_expand g k junk) (cg_apply g k np junk) in
  exists c s gains c' s' gain,
    run_batches g k hash lk exact gmin limit id us um _ view move bs (fm_start k lab bw m) (new_worker k trk tgt) = Some (c, s, gains) /\
    run_batch g k hash lk exact gmin limit id us um _ view move seeds choices c s = Some (c', s', gain) /\
    (cut_weight g (label_of lab) - cut_weight g (label_of (c_lab c)) = zsum gains)%Z /\
    search_result g k limit (c_lab c) (c_lab c') (c_bw c') gain /\
    tracker_result (gn g) (c_lab c) (c_lab c') (b_trk s) (b_trk s') /\
    cache_exact g k all exact (label_of (c_lab c')) (view (c_mem c')) /\
    (forall u, u < gn g -> dg_block hash (c_lab c') (c_d c') u = Some (label_of (c_lab c') u)) /\
    (forall b, b < k -> dg_block_weight (c_bw c') (c_d c') b = Some (block_weight g (label_of (c_lab c')) b)).
Proof.
  intros Hc Hs Hsim Hpos Hfit Hnp Hid Hvw Em HL HB HE HT Hg HF HS HN view move.
  assert (Htot : forall lab0 es, labels_ok g k lab0 -> exists m0 s, cg_init g k np junk lab0 = Some m0 /\ g_run g k _ (cg_expand g k junk) (cg_apply g k np junk) es (g_start _ lab0 m0 1) = Some s).
  { intros lab0 es H0. destruct (compact_reports g k np junk lab0 1 es Hc Hs Hsim Hpos Hfit Hnp H0) as (c0 & s & E0 & E1 & _). exists c0, s. auto. }
  apply (fm_ok g k hash lk all exact gmin limit id us um _ view move
           (crep g k _ (cg_expand g k junk) (cg_apply g k np junk) (cg_init g k np junk)) Hc Hs Hsim (fun _ => Hpos)); auto.
  - intros m1 lab1 (lab0 & m0 & es & H0 & E0 & E1) H1. destruct (compact_reports g k np junk lab0 1 es Hc Hs Hsim Hpos Hfit Hnp H0) as (c0 & s & E0' & E1' & _ & HR).
    rewrite E0 in E0'. injection E0' as <-. unfold cg_run in E1'. rewrite E1 in E1'. injection E1' as <-. intros u Hu. destruct (HR u Hu eq_refl) as (R1 & _ & R2 & R3 & _).
    cbn [view compact_view bc_conn bc_gain bc_gains]. split; [exact R1|]. split; [exact R2|]. intros from Hf. apply (R3 all exact from Hf).
  - intros m1 lab1 u b. apply crep_move. exact Htot.
  - exists lab, m, []. split; auto.
Qed.

Lemma fm_ex_ok : closed_graph ex_star /\ undirected ex_star /\ simple_graph ex_star /\ positive_edges ex_star /\
  cg_fits ex_star 3 /\ (forall u, u < gn ex_star -> (0 <= gvw ex_star u)%Z) /\
  labels_ok ex_star 3 [0; 1; 1; 0] /\ exact_block_weights ex_star [0; 1; 1; 0] [2; 2; 0]%Z /\
  d_init ex_star 3 [0; 1; 1; 0] <> None /\ cg_init ex_star 3 2 0 [0; 1; 1; 0] <> None.
Proof.
  destruct ex_star_ok as (H1 & H2 & H3 & H4 & _).
  assert (HF : forall P : nat -> Prop, (P 0 /\ P 1 /\ P 2 /\ P 3) -> forall u, u < 4 -> P u).
  { intros P (P0 & P1 & P2 & P3) u Hu. do 4 (destruct u as [|u]; auto). lia. }
  do 4 (split; [assumption|]). split; [|split; [intros; cbn; lia|split; [|split; [|split]]]].
  - unfold cg_fits. repeat split; try (cbn; lia). intros u Hu. revert u Hu. apply HF. repeat split; cbn; lia.
  - split; [reflexivity|]. intros u Hu. revert u Hu. apply HF. repeat split; cbn; lia.
  - split; [reflexivity|]. split.
    + intros u Hu. revert u Hu. apply HF. repeat split; cbn; lia.
    + intros b Hb. change (b < 3) in Hb. do 3 (destruct b as [|b]; [reflexivity|]). lia.
  - vm_compute. discriminate.
  - vm_compute. discriminate.
Qed.
