(* The border nodes: each index is examined at most once and handed out at most once. *)
From Verif Require Import Lib.Prelude Spec.Ownership Model.FmRoundModel Proofs.FmRoundProofs.

Notation cnt := (count_occ Nat.eq_dec).
Lemma cnt_flat_upd {A} (f : A -> list nat) ws : forall t w w' i, nth_error ws t = Some w ->
  cnt (flat_map f (upd t w' ws)) i + cnt (f w) i = cnt (flat_map f ws) i + cnt (f w') i.
Proof.
  induction ws as [|x ws IH]; intros [|t] w w' i H; cbn [nth_error] in H; try discriminate.
  - injection H as <-. change (upd 0 w' (x :: ws)) with (w' :: ws). cbn [flat_map]. rewrite !count_occ_app. lia.
  - change (upd (S t) w' (x :: ws)) with (x :: upd t w' ws). cbn [flat_map]. rewrite !count_occ_app. specialize (IH t w w' i H). lia.
Qed.
Lemma cnt_seq i : forall len s, cnt (seq s len) i = if (s <=? i) && (i <? s + len) then 1 else 0.
Proof.
  induction len as [|len IH]; intros s; cbn [seq count_occ].
  - destruct (Nat.leb_spec s i), (Nat.ltb_spec i (s + 0)); cbn [andb]; auto; lia.
  - rewrite IH. destruct (Nat.eq_dec s i), (Nat.leb_spec (S s) i), (Nat.leb_spec s i), (Nat.ltb_spec i (S s + len)), (Nat.ltb_spec i (s + S len)); cbn [andb]; lia.
Qed.
Lemma cnt_le1_nodup l : (forall i, cnt l i <= 1) -> NoDup l.
Proof. intros H. apply (NoDup_count_occ Nat.eq_dec). auto. Qed.

Section R.
Variables (n : nat) (count : N) (us um : bool) (border : list nat).
Notation r_step := (r_step n count us um border).
Notation size := (length border).

Definition pend (w : worker) : list nat :=
  match w_ph w with PScan _ c to | PLock _ c to _ => seq (N.to_nat c) (N.to_nat to - N.to_nat c) | _ => [] end.
Definition trys (w : worker) : list nat := match w_ph w with PLock _ c _ _ => [N.to_nat c - 1] | _ => [] end.
Definition pf (w : worker) : list nat := match w_ph w with PFetch _ => [0] | _ => [] end.
Definition F (ws : list worker) : nat := cnt (flat_map pf ws) 0.
Definition wok (w : worker) : Prop :=
  match w_ph w with
  | PScan _ c to => (to <= N.of_nat size)%N
  | PLock _ c to u => (1 <= c /\ to <= N.of_nat size)%N /\ nth_error border (N.to_nat c - 1) = Some u
  | _ => True
  end.
Definition IDX (next : N) (ws : list worker) (seeds seen : list nat) : Prop :=
  (next < N.of_nat size \/ next + count * N.of_nat (F ws) <= N.of_nat size + count * N.of_nat (length ws))%N /\
  (forall i, cnt seen i + cnt (flat_map pend ws) i = if i <? Nat.min (N.to_nat next) size then 1 else 0) /\
  (exists h, map (fun i => nth i border 0) h = seeds /\ forall i, cnt h i + cnt (flat_map trys ws) i <= cnt seen i) /\
  (forall t w, nth_error ws t = Some w -> wok w).

Lemma F_le ws : F ws <= length ws.
Proof.
  unfold F. induction ws as [|w ws IH]; cbn [flat_map length]; auto. rewrite count_occ_app. unfold pf at 1. destruct (w_ph w); cbn [count_occ]; try lia.
  destruct (Nat.eq_dec 0 0); lia.
Qed.
Lemma F_lt ws t w : nth_error ws t = Some w -> pf w = [] -> F ws + 1 <= length ws.
Proof.
  intros Hw Hp. pose proof (F_le (upd t (mkW (PFetch 0) [] [] [] []) ws)) as H. rewrite upd_length in H.
  pose proof (cnt_flat_upd pf ws t w (mkW (PFetch 0) [] [] [] []) 0 Hw) as H1. rewrite Hp in H1. unfold F in *. cbn [pf w_ph count_occ] in H1. destruct (Nat.eq_dec 0 0); lia.
Qed.
Lemma wok_upd ws t w w' : (forall t w, nth_error ws t = Some w -> wok w) -> nth_error ws t = Some w -> wok w' ->
  forall t1 w1, nth_error (upd t w' ws) t1 = Some w1 -> wok w1.
Proof.
  intros H Hw Hw' t1 w1 E. assert (t < length ws) by (apply nth_error_Some; congruence). rewrite ne_upd in E by auto.
  destruct (t1 =? t); [injection E as <-; auto|eapply H; eauto].
Qed.
Lemma idx_w next ws seeds seen t w w' : IDX next ws seeds seen -> nth_error ws t = Some w ->
  pend w' = pend w -> trys w' = [] -> (pf w' = pf w \/ pf w' = [] \/ (next < N.of_nat size)%N) -> wok w' -> IDX next (upd t w' ws) seeds seen.
Proof.
  intros (H1 & H2 & (h & H3 & H3') & H4) Hw Hp Ht Hf Hok. split; [|split; [|split]].
  - rewrite upd_length. pose proof (cnt_flat_upd pf ws t w w' 0 Hw) as HF. fold (F ws) in HF. fold (F (upd t w' ws)) in HF.
    destruct Hf as [Hf|[Hf|Hf]]; [rewrite Hf in HF|rewrite Hf in HF; cbn [count_occ] in HF|auto]; (destruct H1 as [H1|H1]; [auto|right; nia]).
  - intros i. specialize (H2 i). pose proof (cnt_flat_upd pend ws t w w' i Hw) as HF. rewrite Hp in HF. rewrite <- H2. lia.
  - exists h. split; auto. intros i. specialize (H3' i). pose proof (cnt_flat_upd trys ws t w w' i Hw) as HF. rewrite Ht in HF. cbn [count_occ] in HF. lia.
  - eapply wok_upd; eauto.
Qed.

Lemma step_idx e r r' : IDX (r_next r) (r_ws r) (seeds_of (r_log r)) (r_seen r) ->
  (N.of_nat size + count * N.of_nat (length (r_ws r)) < 2 ^ 32)%N ->
  r_step e r = Some r' -> IDX (r_next r') (r_ws r') (seeds_of (r_log r')) (r_seen r') /\ length (r_ws r') = length (r_ws r).
Proof.
  intros HI HN. destruct e as [t a]. unfold FmRoundModel.r_step. destruct (nth_error (r_ws r) t) as [w|] eqn:Hw; [|intros E; injection E as <-; auto].
  assert (HI' := HI). destruct HI' as (I1 & I2 & (h & I3 & I3') & I4). pose proof (I4 t w Hw) as HWk. unfold wok in HWk.
  assert (SEED : forall es, seeds_of es = [] -> seeds_of (r_log r ++ es) = seeds_of (r_log r)).
  { intros es Hes. unfold seeds_of in *. rewrite flat_map_app, Hes, app_nil_r. auto. }
  destruct a, (w_ph w) eqn:Eph; try (intros E; injection E as <-; auto; fail).
  - destruct (_ <? _)%N; intros E; injection E as <-; auto. cbn [set_w r_next r_ws r_log r_seen]. rewrite upd_length. split; auto.
    eapply idx_w; eauto; unfold pend, trys, pf, wok; rewrite ?Eph; cbn [set_ph w_ph]; auto.
  - unfold check. intros E. destruct (N.ltb_spec polled count), (N.ltb_spec (r_next r) (N.of_nat size)); cbn [andb] in E; injection E as <-;
      cbn [set_w r_next r_ws r_log r_seen]; rewrite upd_length; (split; auto); eapply idx_w; eauto; unfold pend, trys, pf, wok; rewrite ?Eph; cbn [set_ph w_ph]; auto.
  - (* fetch *) intros E. injection E as <-. unfold fetch. cbn [r_next r_ws r_log r_seen]. rewrite upd_length. split; auto.
    set (rem := (count - polled)%N). assert (Hrem : (rem <= count)%N) by (unfold rem; lia).
    set (w' := set_ph _ w). pose proof (cnt_flat_upd pf (r_ws r) t w w' 0 Hw) as HF. fold (F (r_ws r)) in HF. fold (F (upd t w' (r_ws r))) in HF.
    assert (E1 : cnt (pf w) 0 = 1) by (unfold pf; rewrite Eph; cbn [count_occ]; destruct (Nat.eq_dec 0 0); lia). assert (E2 : pf w' = []) by reflexivity.
    rewrite E1, E2 in HF. cbn [count_occ] in HF.
    assert (HFl : F (upd t w' (r_ws r)) + 1 <= length (r_ws r)) by (rewrite HF; rewrite Nat.add_0_r; apply F_le).
    assert (HB : (r_next r + rem + count * N.of_nat (F (upd t w' (r_ws r))) <= N.of_nat size + count * N.of_nat (length (r_ws r)))%N) by (destruct I1; nia).
    assert (Hw32 : u32 (r_next r + rem) = (r_next r + rem)%N) by (unfold u32; apply N.mod_small; nia).
    unfold w' in *. clear w'. rewrite Hw32 in *. set (w' := set_ph _ w) in *. split; [|split; [|split]].
    + right. rewrite upd_length. exact HB.
    + intros i. specialize (I2 i). pose proof (cnt_flat_upd pend (r_ws r) t w w' i Hw) as HP.
      assert (Ep : pend w = []) by (unfold pend; rewrite Eph; auto). rewrite Ep in HP. cbn [count_occ] in HP.
      unfold w' in HP at 2. unfold pend at 3 in HP. cbn [set_ph w_ph] in HP. rewrite cnt_seq in HP.
      destruct (Nat.ltb_spec i (Nat.min (N.to_nat (r_next r)) size)), (Nat.ltb_spec i (Nat.min (N.to_nat (r_next r + rem)) size));
      destruct (Nat.leb_spec (N.to_nat (r_next r)) i), (Nat.ltb_spec i (N.to_nat (r_next r) + (N.to_nat (N.min (r_next r + rem) (N.of_nat size)) - N.to_nat (r_next r)))); cbn [andb] in HP; lia.
    + exists h. split; auto. intros i. specialize (I3' i). pose proof (cnt_flat_upd trys (r_ws r) t w w' i Hw) as HP.
      change (trys w') with (@nil nat) in HP. cbn [count_occ] in HP. lia.
    + eapply wok_upd; eauto. unfold wok, w'. cbn [set_ph w_ph]. lia.
  - (* scan *) unfold scan. destruct (N.ltb_spec cur to) as [Hc|Hc].
    + destruct (nth_error border (N.to_nat cur)) as [u|] eqn:Eb; [|discriminate]. destruct (nth_error (r_trk r) u) as [x|]; [|discriminate].
      assert (GEN : forall w', pend w' = seq (N.to_nat (cur + 1)) (N.to_nat to - N.to_nat (cur + 1)) -> (trys w' = [] \/ trys w' = [N.to_nat cur]) -> pf w' = [] -> wok w' ->
         IDX (r_next r) (upd t w' (r_ws r)) (seeds_of (r_log r)) (r_seen r ++ [N.to_nat cur])).
      { intros w' P1 P2 P3 P4. assert (Ep : pend w = N.to_nat cur :: pend w').
        { rewrite P1. unfold pend. rewrite Eph. replace (N.to_nat to - N.to_nat cur) with (S (N.to_nat to - N.to_nat (cur + 1))) by lia.
          cbn [seq]. do 2 f_equal. lia. }
        split; [|split; [|split]].
        - rewrite upd_length. pose proof (cnt_flat_upd pf (r_ws r) t w w' 0 Hw) as HF. fold (F (r_ws r)) in HF. fold (F (upd t w' (r_ws r))) in HF.
          rewrite P3 in HF. cbn [count_occ] in HF. destruct I1; [auto|right; nia].
        - intros i. specialize (I2 i). pose proof (cnt_flat_upd pend (r_ws r) t w w' i Hw) as HP. rewrite Ep in HP. rewrite count_occ_app. cbn [count_occ] in *.
          rewrite <- I2. destruct (Nat.eq_dec (N.to_nat cur) i); lia.
        - exists h. split; auto. intros i. specialize (I3' i). pose proof (cnt_flat_upd trys (r_ws r) t w w' i Hw) as HP. rewrite count_occ_app.
          destruct P2 as [P2|P2]; rewrite P2 in HP; cbn [count_occ] in *; destruct (Nat.eq_dec (N.to_nat cur) i); lia.
        - eapply wok_upd; eauto. }
      intros E. destruct (x =? 0)%Z; injection E as <-; cbn [set_w r_next r_ws r_log r_seen]; rewrite upd_length; (split; auto); apply GEN; auto.
      * right. unfold trys. cbn [set_ph w_ph]. f_equal. lia.
      * unfold wok. cbn [set_ph w_ph]. split; [lia|]. rewrite <- Eb. f_equal. lia.
    + intros E. injection E as <-. cbn [set_w r_next r_ws r_log r_seen]. rewrite upd_length. split; auto. eapply idx_w; eauto; unfold pend, trys, pf, wok; rewrite ?Eph; cbn [set_ph w_ph]; auto.
      replace (N.to_nat to - N.to_nat cur) with 0 by lia. auto.
  - (* lock *) unfold lock_seed. destruct (nth_error (r_trk r) u) as [x|]; [|discriminate]. destruct HWk as [[Hc Hto] Hb]. intros E. destruct (x =? 0)%Z; injection E as <-;
      cbn [set_w set_trk r_next r_ws r_log r_seen]; rewrite upd_length; (split; auto).
    + set (w' := mkW _ _ _ _ _). split; [|split; [|split]].
      * rewrite upd_length. pose proof (cnt_flat_upd pf (r_ws r) t w w' 0 Hw) as HF. fold (F (r_ws r)) in HF. fold (F (upd t w' (r_ws r))) in HF.
        change (pf w') with (@nil nat) in HF. cbn [count_occ] in HF. destruct I1; [auto|right; nia].
      * intros i. specialize (I2 i). pose proof (cnt_flat_upd pend (r_ws r) t w w' i Hw) as HP. assert (Ep : pend w' = pend w) by (unfold pend; rewrite Eph; auto).
        rewrite Ep in HP. rewrite <- I2. lia.
      * exists (h ++ [N.to_nat cur - 1]). split.
        -- unfold seeds_of. rewrite flat_map_app, map_app. fold (seeds_of (r_log r)). rewrite I3. cbn [map flat_map app]. do 2 f_equal. apply nth_error_nth; auto.
        -- intros i. specialize (I3' i). pose proof (cnt_flat_upd trys (r_ws r) t w w' i Hw) as HP. change (trys w') with (@nil nat) in HP.
           assert (Et : trys w = [N.to_nat cur - 1]) by (unfold trys; rewrite Eph; auto). rewrite Et in HP. rewrite count_occ_app. cbn [count_occ] in *. destruct (Nat.eq_dec (N.to_nat cur - 1) i); lia.
      * eapply wok_upd; eauto.
    + eapply idx_w; eauto; unfold pend, trys, pf, wok; rewrite ?Eph; cbn [set_ph w_ph]; auto.
  - (* touched *) unfold lock_touched. destruct (nth_error (r_trk r) v) as [x|]; [|discriminate]. intros E. destruct (x =? 0)%Z; injection E as <-;
      cbn [set_w set_trk r_next r_ws r_log r_seen]; rewrite upd_length; (split; auto); rewrite ?SEED by auto; eapply idx_w; eauto; unfold pend, trys, pf, wok; rewrite ?Eph; cbn [set_ph w_ph]; auto.
  - (* release *) unfold release. intros E.
    assert (G : forall w', pend w' = [] -> trys w' = [] -> pf w' = [] -> wok w' -> IDX (r_next r) (upd t w' (r_ws r)) (seeds_of (r_log r)) (r_seen r)).
    { intros w' P1 P2 P3 P4. eapply idx_w; eauto. rewrite P1. unfold pend. rewrite Eph. auto. }
    destruct todo as [|[s u] rest]; [injection E as <-; cbn [set_w r_next r_ws r_log r_seen]; rewrite upd_length; split; auto; apply G; reflexivity|].
    destruct (s && negb us); [injection E as <-; cbn [set_w r_next r_ws r_log r_seen]; rewrite upd_length; split; auto; apply G; reflexivity|].
    destruct (nth_error (r_trk r) u) as [x|]; [|discriminate].
    destruct (x =? -1)%Z; [|destruct (x =? wid t)%Z]; injection E as <-; cbn [set_w r_next r_ws r_log r_seen]; rewrite upd_length; (split; auto); rewrite ?SEED by auto; apply G; reflexivity.
  - (* store *) destruct (_ <? _); [|discriminate]. intros E. injection E as <-. cbn [set_w set_trk r_next r_ws r_log r_seen]; rewrite upd_length. split; auto.
    rewrite SEED by (unfold ret; destruct (x =? 0)%Z; auto). eapply idx_w; eauto; unfold pend, trys, pf, wok; rewrite ?Eph; cbn [set_ph w_ph]; auto.
  - destruct (_ <? _); [|intros E; injection E as <-; auto]. destruct (nth_error (r_trk r) v) as [x|]; [|discriminate]. intros E. injection E as <-.
    destruct (x =? 0)%Z; auto. cbn [set_w r_next r_ws r_log r_seen]; rewrite upd_length; (split; auto); eapply idx_w; eauto; unfold pend, trys, pf, wok; rewrite ?Eph; cbn [set_ph w_ph]; auto.
  - destruct (existsb _ _); intros E; injection E as <-; auto. cbn [set_w set_trk r_next r_ws r_log r_seen]; rewrite upd_length; (split; auto); rewrite ?SEED by auto; eapply idx_w; eauto; unfold pend, trys, pf, wok; rewrite ?Eph; cbn [set_ph w_ph]; auto.
  - destruct (existsb _ _); intros E; injection E as <-; auto. cbn [set_trk r_next r_ws r_log r_seen]; (split; auto); rewrite ?SEED by auto. auto.
  - intros E; injection E as <-. cbn [set_w r_next r_ws r_log r_seen]; rewrite upd_length; (split; auto); eapply idx_w; eauto; unfold pend, trys, pf, wok; rewrite ?Eph; cbn [set_ph w_ph]; auto.
Qed.
End R.
