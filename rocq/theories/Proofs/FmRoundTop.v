(* Assembly: the invariants hold in every reachable state of a round. *)
From Verif Require Import Lib.Prelude Spec.Ownership Model.FmRoundModel Proofs.FmRoundProofs Proofs.FmRoundSeeds.

Section R.
Variables (n : nat) (count : N) (us um : bool) (border : list nat).
Notation r_step := (r_step n count us um border).
Notation r_run := (r_run n count us um border).
Notation size := (length border).

Definition scnt (w : worker) : Prop :=
  let len := N.of_nat (length (w_seeds w)) in
  match w_ph w with
  | PCheck p | PFetch p => len = p /\ (p <= count)%N
  | PScan p c to => len = p /\ (p + (to - c) <= count)%N
  | PLock p c to _ => len = p /\ (p + 1 + (to - c) <= count)%N
  | _ => (len <= count)%N
  end.
Definition CNT (ws : list worker) : Prop := forall t w, nth_error ws t = Some w -> scnt w.
Lemma cnt_w ws t w w' : CNT ws -> nth_error ws t = Some w -> (scnt w -> scnt w') -> CNT (upd t w' ws).
Proof.
  intros H Hw Hw' t1 w1 E. assert (t < length ws) by (apply nth_error_Some; congruence). rewrite ne_upd in E by auto.
  destruct (t1 =? t); [injection E as <-; apply Hw', (H t w); auto|eapply H; eauto].
Qed.
Lemma step_cnt e r r' : CNT (r_ws r) -> (forall t w, nth_error (r_ws r) t = Some w -> w_ph w = Idle -> w_seeds w = []) ->
  r_step e r = Some r' -> CNT (r_ws r').
Proof.
  intros HC HI. destruct e as [t a]. unfold FmRoundModel.r_step. destruct (nth_error (r_ws r) t) as [w|] eqn:Hw; [|intros E; injection E as <-; auto].
  pose proof (HC t w Hw) as Hs.
  assert (G : forall w', (scnt w -> scnt w') -> CNT (upd t w' (r_ws r))) by (intros w' H; eapply cnt_w; eauto).
  assert (Hs' := Hs). unfold scnt in Hs. destruct a, (w_ph w) eqn:Eph; try (intros E; injection E as <-; exact HC).
  - destruct (_ <? _)%N; intros E; injection E as <-; auto. cbn [set_w r_ws]. apply G. intros _. unfold scnt. cbn [set_ph w_ph w_seeds]. rewrite (HI t w Hw Eph). cbn [length]. lia.
  - unfold check. intros E. destruct (N.ltb_spec polled count), (N.ltb_spec (r_next r) (N.of_nat size)); cbn [andb] in E; injection E as <-;
      cbn [set_w r_ws]; apply G; intros _; unfold scnt; cbn [set_ph w_ph w_seeds]; lia.
  - intros E. injection E as <-. unfold fetch. cbn [r_ws]. apply G; intros _; unfold scnt; cbn [set_ph w_ph w_seeds].
    assert (u32 (r_next r + (count - polled)) <= r_next r + (count - polled))%N by (unfold u32; apply N.mod_le; lia). lia.
  - unfold scan. destruct (N.ltb_spec cur to) as [Hc|Hc].
    + destruct (nth_error border (N.to_nat cur)) as [u|] eqn:Eb; [|discriminate]. destruct (nth_error (r_trk r) u) as [x|]; [|discriminate].
      intros E. destruct (x =? 0)%Z; injection E as <-; cbn [set_w r_ws]; apply G; intros _; unfold scnt; cbn [set_ph w_ph w_seeds]; lia.
    + intros E. injection E as <-. cbn [set_w r_ws]; apply G; intros _; unfold scnt; cbn [set_ph w_ph w_seeds]; lia.
  - unfold lock_seed. destruct (nth_error (r_trk r) u) as [x|]; [|discriminate]. intros E. destruct (x =? 0)%Z; injection E as <-;
      cbn [set_w set_trk r_ws]; apply G; intros _; unfold scnt; cbn [set_ph w_ph w_seeds]; rewrite ?app_length; cbn [length]; lia.
  - unfold lock_touched. destruct (nth_error (r_trk r) v) as [x|]; [|discriminate]. intros E. destruct (x =? 0)%Z; injection E as <-;
      cbn [set_w set_trk r_ws]; apply G; intros _; unfold scnt; cbn [set_ph w_ph w_seeds]; lia.
  - unfold release. intros E.
    destruct todo as [|[s u] rest]; [injection E as <-; cbn [set_w r_ws]; apply G; intros _; unfold scnt; cbn; lia|].
    destruct (s && negb us); [injection E as <-; cbn [set_w r_ws]; apply G; intros _; unfold scnt; cbn [set_ph w_ph w_seeds]; lia|].
    destruct (nth_error (r_trk r) u) as [x|]; [|discriminate].
    destruct (x =? -1)%Z; [|destruct (x =? wid t)%Z]; injection E as <-; cbn [set_w r_ws]; apply G; intros _; unfold scnt; cbn [set_ph w_ph w_seeds]; lia.
  - destruct (_ <? _); [|discriminate]. intros E. injection E as <-. cbn [set_w set_trk r_ws]; apply G; intros _; unfold scnt; cbn [set_ph w_ph w_seeds]; lia.
  - destruct (_ <? _); [|intros E; injection E as <-; auto]. destruct (nth_error (r_trk r) v) as [x|]; [|discriminate]. intros E. injection E as <-.
    destruct (x =? 0)%Z; auto. cbn [set_w r_ws]; apply G; intros _; unfold scnt; cbn [set_ph w_ph w_seeds]; lia.
  - destruct (existsb _ _); intros E; injection E as <-; auto. cbn [set_w set_trk r_ws]; apply G; intros _; unfold scnt; cbn [set_ph w_ph w_seeds]; lia.
  - destruct (existsb _ _); intros E; injection E as <-; auto.
  - intros E; injection E as <-. cbn [set_w r_ws]; apply G; intros _; unfold scnt; cbn [set_ph w_ph w_seeds]; lia.
Qed.

Definition INV (T : nat) (r : round) : Prop :=
  OWN n (r_trk r) (r_ws r) (r_log r) /\ IDX count border (r_next r) (r_ws r) (seeds_of (r_log r)) (r_seen r) /\ CNT (r_ws r) /\ length (r_ws r) = T.
Lemma inv_start T : INV T (round_start n T).
Proof.
  assert (W : forall t w, nth_error (repeat idle_worker T) t = Some w -> w = idle_worker) by (intros t w E; apply nth_error_In, repeat_spec in E; auto).
  assert (FL : forall f : worker -> list nat, f idle_worker = [] -> flat_map f (repeat idle_worker T) = []).
  { intros f Hf. clear W. induction T as [|T' IH]; cbn [repeat flat_map]; auto. rewrite Hf, IH. auto. }
  unfold INV, round_start. cbn [r_trk r_ws r_log r_next r_seen]. split; [|split; [|split; [|apply repeat_length]]].
  - split; [exact I|]. split; [apply repeat_length|]. split; [auto|]. split; [intros u Hu; rewrite nth_repeat; reflexivity|].
    intros t w E. rewrite (W _ _ E). unfold winv, held. cbn [idle_worker w_ph w_seeds w_touched app]. split; [constructor|]. split; [|auto].
    intros u. cbn [own fold_left]. split; [intros []|discriminate].
  - split; [|split; [|split]].
    + unfold F. rewrite (FL pf eq_refl). cbn [count_occ]. right. lia.
    + intros i. rewrite (FL pend eq_refl). reflexivity.
    + exists []. split; auto. intros i. rewrite (FL trys eq_refl). auto.
    + intros t w E. rewrite (W _ _ E). exact I.
  - intros t w E. rewrite (W _ _ E). unfold scnt. cbn. lia.
Qed.
Lemma run_inv T es : (forall u, In u border -> u < n) -> (N.of_nat size + count * N.of_nat T < 2 ^ 32)%N ->
  forall r, INV T r -> exists r', r_run es r = Some r' /\ INV T r'.
Proof.
  intros HB HN. induction es as [|e es IH]; intros r (HO & HI & HC & HL); [exists r; split; [auto|]; split; auto|].
  destruct (step_own n count us um border e r HO) as (r1 & E & HO1); auto.
  { intros t w p c to Hw Eph. destruct HI as (_ & _ & _ & H4). specialize (H4 t w Hw). unfold wok in H4. rewrite Eph in H4. auto. }
  cbn [FmRoundModel.r_run]. rewrite E. apply IH.
  destruct (step_idx n count us um border e r r1 HI ltac:(rewrite HL; auto) E) as [HI1 HL1]. split; [auto|]. split; [auto|]. split; [|lia].
  eapply step_cnt; eauto. intros t w Hw Eph. destruct HO as (_ & _ & _ & _ & H5). destruct (H5 t w Hw) as (_ & _ & H). rewrite Eph in H. tauto.
Qed.

Definition polling (w : worker) : bool := match w_ph w with PCheck _ | PFetch _ | PScan _ _ _ | PLock _ _ _ _ => true | _ => false end.
Theorem fm_round T es : NoDup border -> (forall u, In u border -> u < n) -> (N.of_nat size + count * N.of_nat T < 2 ^ 32)%N ->
  exists r, r_run es (round_start n T) = Some r /\
    o_exclusive (fun _ => Free) (r_log r) /\
    NoDup (seeds_of (r_log r)) /\ incl (seeds_of (r_log r)) border /\
    NoDup (r_seen r) /\ (forall i, In i (r_seen r) -> i < size) /\
    ((N.of_nat size <= r_next r)%N -> (forall w, In w (r_ws r) -> polling w = false) -> Permutation (r_seen r) (seq 0 size)) /\
    (forall u, u < n -> (nth u (r_trk r) 0%Z = 0%Z <-> fold_left o_step (r_log r) (fun _ => Free) u = Free)) /\
    (forall t w, nth_error (r_ws r) t = Some w ->
       (N.of_nat (length (w_seeds w)) <= count)%N /\
       (forall u, nth u (r_trk r) 0%Z = wid t -> fold_left o_step (r_log r) (fun _ => Free) u = Held t) /\
       (w_ph w = Run -> forall u, nth u (r_trk r) 0%Z = wid t <-> In u (w_pq w)) /\
       (w_ph w = Idle -> forall u, fold_left o_step (r_log r) (fun _ => Free) u <> Held t)).
Proof.
  intros ND HB HN. destruct (run_inv T es HB HN _ (inv_start T)) as (r & E & HO & HI & HC & HL). exists r. split; [exact E|].
  destruct HO as (O1 & O2 & O3 & O4 & O5). destruct HI as (I1 & I2 & (h & I3 & I3') & I4). split; [exact O1|].
  assert (Hseen : forall i, cnt (r_seen r) i <= (if i <? size then 1 else 0)).
  { intros i. specialize (I2 i). destruct (Nat.ltb_spec i (Nat.min (N.to_nat (r_next r)) size)), (Nat.ltb_spec i size); lia. }
  assert (Hsr : forall i, In i (r_seen r) -> i < size).
  { intros i Hi. specialize (Hseen i). apply (count_occ_In Nat.eq_dec) in Hi. destruct (Nat.ltb_spec i size); [auto|lia]. }
  assert (Hh : forall i, cnt h i <= (if i <? size then 1 else 0)) by (intros i; specialize (Hseen i); specialize (I3' i); lia).
  assert (Hhr : forall i, In i h -> i < size).
  { intros i Hi. specialize (Hh i). apply (count_occ_In Nat.eq_dec) in Hi. destruct (Nat.ltb_spec i size); [auto|lia]. }
  assert (NDh : NoDup h) by (apply cnt_le1_nodup; intros i; specialize (Hh i); destruct (i <? size); lia).
  split; [|split; [|split; [|split; [exact Hsr|split; [|split]]]]].
  - rewrite <- I3. clear - ND NDh Hhr. induction NDh as [|i l Hi NDl IH]; cbn [map]; constructor; [|apply IH; intros; apply Hhr; right; auto].
    intros C. apply in_map_iff in C. destruct C as (j & Ej & Hj). apply Hi. replace i with j; auto.
    apply (proj1 (NoDup_nth border 0) ND); [apply Hhr; right; auto|apply Hhr; left; auto|auto].
  - rewrite <- I3. intros u Hu. apply in_map_iff in Hu. destruct Hu as (i & <- & Hi). apply nth_In, Hhr, Hi.
  - apply cnt_le1_nodup. intros i. specialize (Hseen i). destruct (i <? size); lia.
  - intros Hs Hp. apply (Permutation_count_occ Nat.eq_dec). intros i. rewrite cnt_seq. cbn [Nat.leb andb]. specialize (I2 i).
    assert (Ep : flat_map pend (r_ws r) = []).
    { clear - Hp. induction (r_ws r) as [|w ws IH]; cbn [flat_map]; auto. rewrite IH by (intros; apply Hp; right; auto).
      assert (H := Hp w (or_introl eq_refl)). unfold polling in H. unfold pend. destruct (w_ph w); auto; discriminate. }
    rewrite Ep in I2. cbn [count_occ] in I2. rewrite Nat.add_0_r in I2. rewrite I2. replace (Nat.min (N.to_nat (r_next r)) size) with size by lia. reflexivity.
  - intros u Hu. specialize (O4 u Hu). fold (own (r_log r)). destruct (own (r_log r) u); cbn [tro] in O4; unfold wid in O4; split; intros; try discriminate; try lia; auto.
  - intros t w Hw. specialize (HC t w Hw). pose proof (O5 t w Hw) as (W1 & W2 & W3). fold (own (r_log r)).
    split; [unfold scnt in HC; destruct (w_ph w); lia|]. split; [|split].
    + intros u Hu. destruct (Nat.lt_ge_cases u n) as [Hun|]; [|rewrite nth_overflow in Hu by lia; unfold wid in Hu; lia].
      specialize (O4 u Hun). rewrite Hu in O4. destruct (own (r_log r) u); cbn [tro] in O4; unfold wid in O4; try lia. f_equal. lia.
    + intros Ep u. rewrite Ep in W3. destruct W3 as (R1 & R2 & _). split; auto.
    + intros Ep u C. apply W2 in C. unfold held in C. rewrite Ep in *. destruct W3 as (E1 & E2 & _). rewrite E1, E2 in C. destruct C.
Qed.
End R.
