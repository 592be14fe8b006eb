(* Invariants of a round: ownership, and the border nodes handed out. *)
From Verif Require Import Lib.Prelude Spec.Ownership Model.FmRoundModel.

Lemma exclusive_app l1 : forall o l2, o_exclusive o (l1 ++ l2) <-> o_exclusive o l1 /\ o_exclusive (fold_left o_step l1 o) l2.
Proof. induction l1 as [|e l1 IH]; intros o l2; cbn [app o_exclusive fold_left]; [tauto|]. rewrite IH. tauto. Qed.
Lemma ne_upd {A} (l : list A) t x j : t < length l -> nth_error (upd t x l) j = if j =? t then Some x else nth_error l j.
Proof. intros H. rewrite upd_nth_error, (Nat.eqb_sym j t). destruct (Nat.ltb_spec t (length l)); [|lia]. rewrite andb_true_r. auto. Qed.

Section R.
Variables (n : nat) (count : N) (us um : bool) (border : list nat).
Notation r_step := (r_step n count us um border).
Notation size := (length border).

Definition own (log : list oev) : nat -> ostate := fold_left o_step log (fun _ => Free).
Lemma own_app l1 l2 : own (l1 ++ l2) = fold_left o_step l2 (own l1).
Proof. unfold own. apply fold_left_app. Qed.

Definition held (w : worker) : list nat :=
  match w_ph w with
  | Rel todo => map snd todo
  | Store _ u todo => u :: map snd todo
  | _ => w_seeds w ++ w_touched w
  end.
Definition tro (T : nat) (o : ostate) (x : Z) : Prop :=
  match o with Free => x = 0%Z | Retired => x = (-2)%Z | Held t => t < T /\ (x = wid t \/ x = (-1)%Z \/ x = (-2)%Z) end.
Definition runinv (o : nat -> ostate) (trk : list Z) (t : nat) (w : worker) : Prop :=
  (forall u, nth u trk 0%Z = wid t -> In u (w_pq w)) /\ (forall u, In u (w_pq w) -> nth u trk 0%Z = wid t) /\
  (forall u, In u (w_pop w) -> o u = Held t /\ nth u trk 0%Z <> wid t).
Definition winv (o : nat -> ostate) (trk : list Z) (t : nat) (w : worker) : Prop :=
  NoDup (held w) /\ (forall u, In u (held w) <-> o u = Held t) /\
  match w_ph w with
  | Idle => w_seeds w = [] /\ w_touched w = [] /\ w_pq w = [] /\ w_pop w = []
  | Rel _ => w_pq w = [] /\ w_pop w = []
  | Store x _ _ => w_pq w = [] /\ w_pop w = [] /\ (x = 0 \/ x = -2)%Z
  | PLock _ _ _ u => u < n /\ runinv o trk t w
  | Touch v => v < n /\ runinv o trk t w
  | _ => runinv o trk t w
  end.
Definition OWN (trk : list Z) (ws : list worker) (log : list oev) : Prop :=
  o_exclusive (fun _ => Free) log /\ length trk = n /\ (forall u, n <= u -> own log u = Free) /\
  (forall u, u < n -> tro (length ws) (own log u) (nth u trk 0%Z)) /\
  (forall t w, nth_error ws t = Some w -> winv (own log) trk t w).

Lemma wid_inj a b : wid a = wid b -> a = b. Proof. unfold wid. lia. Qed.
Lemma winv_frame o o' trk trk' t w : (forall u, o' u = Held t <-> o u = Held t) ->
  (forall u, nth u trk' 0%Z = wid t <-> nth u trk 0%Z = wid t) -> winv o trk t w -> winv o' trk' t w.
Proof.
  intros Ho Ht (H1 & H2 & H3).
  assert (HR : runinv o trk t w -> runinv o' trk' t w).
  { intros (R1 & R2 & R3). split; [intros u Hu; apply R1, Ht; auto|]. split; [intros u Hu; apply Ht; auto|].
    intros u Hu. destruct (R3 u Hu). split; [apply Ho; auto|]. rewrite Ht. auto. }
  split; auto. split; [intros u; rewrite H2, Ho; tauto|]. destruct (w_ph w); tauto.
Qed.

(** Worker [t] changes its own state only. *)
Lemma own_w trk ws log t w w' : OWN trk ws log -> nth_error ws t = Some w ->
  (winv (own log) trk t w -> winv (own log) trk t w') -> OWN trk (upd t w' ws) log.
Proof.
  intros (H1 & H2 & H3 & H4 & H5) Hw Hw'. split; auto. split; auto. split; auto. rewrite upd_length. split; auto.
  intros t' w1 E. assert (Hlt : t < length ws) by (apply nth_error_Some; congruence). rewrite ne_upd in E by auto.
  destruct (Nat.eqb_spec t' t) as [->|]; [|apply H5; auto]. injection E as <-. apply Hw', H5; auto.
Qed.
(** Worker [t] changes the state of node [u] (and its own). *)
Lemma own_trk trk ws log t w w' u x es : OWN trk ws log -> nth_error ws t = Some w -> u < n ->
  (own log u = Free \/ own log u = Held t) ->
  (forall v, v <> u -> own (log ++ es) v = own log v) -> (forall t', own (log ++ es) u = Held t' -> t' = t) ->
  tro (length ws) (own (log ++ es) u) x -> (forall t', x = wid t' -> t' = t) ->
  o_exclusive (own log) es -> (winv (own log) trk t w -> winv (own (log ++ es)) (upd u x trk) t w') -> OWN (upd u x trk) (upd t w' ws) (log ++ es).
Proof.
  intros (H1 & H2 & H3 & H4 & H5) Hw Hu Ho Hv Hu' Htr Hx He Hw'.
  assert (Hlt : t < length ws) by (apply nth_error_Some; congruence).
  split; [apply exclusive_app; auto|]. split; [rewrite upd_length; auto|]. split; [intros v Hn; rewrite Hv by lia; auto|].
  rewrite upd_length. split.
  - intros v Hvn. destruct (Nat.eq_dec v u) as [->|Hne]; [rewrite upd_nth_same by lia; auto|]. rewrite upd_nth_other, Hv by auto. auto.
  - intros t' w1 E. rewrite ne_upd in E by auto. destruct (Nat.eqb_spec t' t) as [->|Hne].
    + injection E as <-. apply Hw', H5; auto.
    + apply (winv_frame (own log) _ trk); [| |apply H5; auto].
      * intros v. destruct (Nat.eq_dec v u) as [->|]; [|rewrite Hv by auto; tauto].
        split; [intros C; apply Hu' in C; congruence|]. intros C. destruct Ho as [Ho|Ho]; rewrite Ho in C; congruence.
      * intros v. destruct (Nat.eq_dec v u) as [->|]; [|rewrite upd_nth_other by auto; tauto]. rewrite upd_nth_same by lia.
        split; [intros C; apply Hx in C; congruence|]. intros C. exfalso. specialize (H4 u Hu). destruct Ho as [Ho|Ho]; rewrite Ho in H4; cbn [tro] in H4.
        -- rewrite C in H4. unfold wid in H4. lia.
        -- rewrite C in H4. destruct H4 as [_ [E'|H4]]; [apply wid_inj in E'; congruence|unfold wid in H4; lia].
Qed.

Lemma own_lock log t u es : (es = [OLock t u] \/ es = [OLock t u; OSeed t u]) ->
  own (log ++ es) = fun v => if v =? u then Held t else own log v.
Proof. intros [->| ->]; rewrite own_app; reflexivity. Qed.
Lemma lock_winv o trk t w u ph' seeds' touched' : length trk = n -> u < n -> o u = Free -> nth u trk 0%Z = 0%Z ->
  winv o trk t w -> runinv o trk t w -> held w = w_seeds w ++ w_touched w ->
  Permutation (u :: w_seeds w ++ w_touched w) (seeds' ++ touched') ->
  let w' := {| w_ph := ph'; w_seeds := seeds'; w_touched := touched'; w_pq := w_pq w ++ [u]; w_pop := w_pop w |} in
  (match ph' with Run | PScan _ _ _ => True | _ => False end) ->
  winv (fun v => if v =? u then Held t else o v) (upd u (wid t) trk) t w'.
Proof.
  intros HL Hu Ho Ht (H1 & H2 & _) (R1 & R2 & R3) Hh HP w' Hph.
  assert (Hni : ~ In u (held w)) by (rewrite H2; congruence). rewrite Hh in *.
  assert (Eh : held w' = seeds' ++ touched') by (unfold held, w'; cbn [w_ph w_seeds w_touched]; destruct ph'; tauto).
  assert (HR : runinv (fun v => if v =? u then Held t else o v) (upd u (wid t) trk) t w').
  { cbn [w' w_pq w_pop]. split; [|split]; cbn [w' w_pq w_pop]; intros v Hv.
    - apply in_app_iff. destruct (Nat.eq_dec v u) as [->|]; [right; left; auto|left]. rewrite upd_nth_other in Hv by auto. auto.
    - apply in_app_iff in Hv. destruct (Nat.eq_dec v u) as [->|]; [apply upd_nth_same; lia|]. rewrite upd_nth_other by auto. apply R2. destruct Hv as [|[|[]]]; [auto|congruence].
    - destruct (R3 v Hv) as [E1 E2]. destruct (Nat.eqb_spec v u) as [->|]; [congruence|]. rewrite upd_nth_other by auto. auto. }
  split; [|split].
  - rewrite Eh. eapply Permutation_NoDup; [exact HP|]. constructor; auto.
  - intros v. rewrite Eh. split.
    + intros Hv. apply (Permutation_in _ (Permutation_sym HP)) in Hv. destruct Hv as [<-|Hv]; [rewrite Nat.eqb_refl; auto|].
      destruct (v =? u); auto. apply H2; auto.
    + intros E. apply (Permutation_in _ HP). destruct (Nat.eqb_spec v u) as [Ev|]; [left; auto|right]. apply H2; auto.
  - cbn [w' w_ph]. destruct ph'; tauto.
Qed.

Ltac nochange HO Hw := eapply own_w; [exact HO|exact Hw|].
Lemma step_own e r : OWN (r_trk r) (r_ws r) (r_log r) -> (forall t w p c to, nth_error (r_ws r) t = Some w -> w_ph w = PScan p c to -> (to <= N.of_nat size)%N) ->
  (forall u, In u border -> u < n) ->
  exists r', r_step e r = Some r' /\ OWN (r_trk r') (r_ws r') (r_log r').
Proof.
  intros HO HS HB. destruct e as [t a]. unfold FmRoundModel.r_step. destruct (nth_error (r_ws r) t) as [w|] eqn:Hw; [|exists r; auto].
  assert (HO' := HO). destruct HO' as (H1 & H2 & H3 & H4 & H5). pose proof (H5 t w Hw) as HW. assert (HW' := HW). destruct HW' as (N1 & N2 & N3).
  assert (Hlt : t < length (r_ws r)) by (apply nth_error_Some; congruence).
  assert (NE : forall v, v < n -> nth_error (r_trk r) v = Some (nth v (r_trk r) 0%Z)) by (intros; apply nth_error_nth'; lia).
  assert (FR : forall v, v < n -> nth v (r_trk r) 0%Z = 0%Z -> own (r_log r) v = Free).
  { intros v Hv E. specialize (H4 v Hv). rewrite E in H4. destruct (own (r_log r) v); auto; cbn [tro] in H4; unfold wid in H4; lia. }
  destruct a, (w_ph w) eqn:Eph; try (exists r; split; [reflexivity|exact HO]).
  - (* ABatch *) destruct (_ <? _)%N; [|exists r; auto]. eexists. split; [reflexivity|]. cbn [set_w r_trk r_ws r_log]. nochange HO Hw.
    intros _. destruct N3 as (E1 & E2 & E3 & E4). unfold held in N1, N2. rewrite Eph in N1, N2. rewrite E1, E2 in *.
    assert (HNo : forall u, own (r_log r) u <> Held t) by (intros u C; apply N2 in C; destruct C).
    split; [|split]; unfold held, set_ph; cbn [w_ph w_seeds w_touched w_pq w_pop]; rewrite ?E1, ?E2; auto.
    split; [|split]; cbn [w_pq w_pop]; rewrite ?E3, ?E4; [|intros u []|intros u []].
    intros u Hu. exfalso. destruct (Nat.lt_ge_cases u n) as [Hun|Hun]; [|rewrite nth_overflow in Hu by lia; unfold wid in Hu; lia].
    specialize (H4 u Hun). rewrite Hu in H4. destruct (own (r_log r) u) as [|t'|] eqn:Eo; cbn [tro] in H4; unfold wid in H4; try lia.
    apply (HNo u). rewrite Eo. f_equal. lia.
  - (* check *) eexists. split; [reflexivity|]. unfold check. destruct (_ && _)%N; cbn [set_w r_trk r_ws r_log]; nochange HO Hw; intros (W1 & W2 & W3);
      unfold winv, held in *; rewrite Eph in *; cbn [set_ph w_ph w_seeds w_touched]; auto.
  - (* fetch *) eexists. split; [reflexivity|]. unfold fetch. cbn [r_trk r_ws r_log]. nochange HO Hw. intros (W1 & W2 & W3).
    unfold winv, held in *. rewrite Eph in *. cbn [set_ph w_ph w_seeds w_touched]. auto.
  - (* scan *) unfold scan. destruct (N.ltb_spec cur to) as [Hc|Hc].
    + pose proof (HS t w _ _ _ Hw Eph) as Hto. destruct (nth_error border (N.to_nat cur)) as [u|] eqn:Eb; [|apply nth_error_None in Eb; lia].
      assert (Hu : u < n) by (apply HB; eapply nth_error_In; eauto). rewrite (NE u Hu). eexists. split; [reflexivity|].
      destruct (_ =? 0)%Z; cbn [set_w r_trk r_ws r_log]; nochange HO Hw; intros (W1 & W2 & W3); unfold winv, held in *; rewrite Eph in *; cbn [set_ph w_ph w_seeds w_touched]; auto.
    + eexists. split; [reflexivity|]. cbn [set_w r_trk r_ws r_log]. nochange HO Hw; intros (W1 & W2 & W3); unfold winv, held in *; rewrite Eph in *; cbn [set_ph w_ph w_seeds w_touched]; auto.
  - (* lock seed *) unfold lock_seed. destruct N3 as [Hu HR]. rewrite (NE u Hu). eexists. split; [reflexivity|]. destruct (Z.eqb_spec (nth u (r_trk r) 0%Z) 0) as [E|E].
    + cbn [set_w set_trk r_trk r_ws r_log]. pose proof (FR u Hu E) as Hf. pose proof (own_lock (r_log r) t u [OLock t u; OSeed t u] (or_intror eq_refl)) as EO.
      eapply own_trk; [exact HO|exact Hw|exact Hu|auto| | | | | |].
      * intros v Hv. rewrite EO. destruct (Nat.eqb_spec v u); [contradiction|auto].
      * intros t'. rewrite EO, Nat.eqb_refl. congruence.
      * rewrite EO, Nat.eqb_refl. cbn [tro]. auto.
      * intros t' C. symmetry. apply wid_inj; auto.
      * cbn [o_exclusive o_legal o_step]. rewrite Nat.eqb_refl. auto.
      * intros _. rewrite EO. apply lock_winv; auto.
        -- unfold held. rewrite Eph. auto.
        -- rewrite <- app_assoc. cbn [app]. apply Permutation_middle.
    + cbn [set_w r_trk r_ws r_log]. nochange HO Hw; intros (W1 & W2 & W3); unfold winv, held in *; rewrite Eph in *; cbn [set_ph w_ph w_seeds w_touched]; tauto.
  - (* lock touched *) unfold lock_touched. destruct N3 as [Hu HR]. rewrite (NE v Hu). eexists. split; [reflexivity|]. destruct (Z.eqb_spec (nth v (r_trk r) 0%Z) 0) as [E|E].
    + cbn [set_w set_trk r_trk r_ws r_log]. pose proof (FR v Hu E) as Hf. pose proof (own_lock (r_log r) t v [OLock t v] (or_introl eq_refl)) as EO.
      eapply own_trk; [exact HO|exact Hw|exact Hu|auto| | | | | |].
      * intros x Hv. rewrite EO. destruct (Nat.eqb_spec x v); [contradiction|auto].
      * intros t'. rewrite EO, Nat.eqb_refl. congruence.
      * rewrite EO, Nat.eqb_refl. cbn [tro]. auto.
      * intros t' C. symmetry. apply wid_inj; auto.
      * cbn [o_exclusive o_legal o_step]. auto.
      * intros _. rewrite EO. apply lock_winv; auto.
        -- unfold held. rewrite Eph. auto.
        -- rewrite app_assoc. apply Permutation_cons_append.
    + cbn [set_w r_trk r_ws r_log]. nochange HO Hw; intros (W1 & W2 & W3); unfold winv, held in *; rewrite Eph in *; cbn [set_ph w_ph w_seeds w_touched]; tauto.
  - (* release *) unfold release. destruct todo as [|[seed u] rest].
    + eexists. split; [reflexivity|]. cbn [set_w r_trk r_ws r_log]. nochange HO Hw. intros (W1 & W2 & W3). unfold winv, held in *. rewrite Eph in *.
      cbn [idle_worker w_ph w_seeds w_touched w_pq w_pop app map] in *. tauto.
    + assert (Hh : own (r_log r) u = Held t) by (apply N2; unfold held; rewrite Eph; left; auto).
      assert (Hu : u < n) by (destruct (Nat.lt_ge_cases u n); auto; rewrite H3 in Hh by auto; discriminate).
      assert (ST : forall x, (x = 0 \/ x = -2)%Z -> OWN (r_trk r) (upd t (set_ph (Store x u rest) w) (r_ws r)) (r_log r)).
      { intros x Hx. nochange HO Hw. intros (W1 & W2 & W3). unfold winv, held in *. rewrite Eph in *. cbn [set_ph w_ph w_pq w_pop map snd] in *. tauto. }
      destruct (seed && negb us); [eexists; split; [reflexivity|]; apply ST; auto|]. rewrite (NE u Hu).
      destruct (Z.eqb_spec (nth u (r_trk r) 0%Z) (-1)); [eexists; split; [reflexivity|]; apply ST; destruct um; auto|].
      destruct (Z.eqb_spec (nth u (r_trk r) 0%Z) (wid t)); [eexists; split; [reflexivity|]; apply ST; auto|].
      eexists; split; [reflexivity|]. cbn [set_w r_trk r_ws r_log].
      assert (E2 : nth u (r_trk r) 0%Z = (-2)%Z) by (specialize (H4 u Hu); rewrite Hh in H4; cbn [tro] in H4; lia).
      assert (EO : own (r_log r ++ [ORetire t u]) = fun v => if v =? u then Retired else own (r_log r) v) by (rewrite own_app; reflexivity).
      assert (Etr : r_trk r = upd u (-2)%Z (r_trk r)).
      { apply (list_ext 0%Z); [rewrite upd_length; auto|]. intros i Hi. destruct (Nat.eq_dec i u) as [->|]; [rewrite upd_nth_same by lia; auto|rewrite upd_nth_other by auto; auto]. }
      rewrite Etr. eapply own_trk; [exact HO|exact Hw|exact Hu|auto| | | | | |].
      * intros v Hv. rewrite EO. destruct (Nat.eqb_spec v u); [contradiction|auto].
      * intros t'. rewrite EO, Nat.eqb_refl. discriminate.
      * rewrite EO, Nat.eqb_refl. reflexivity.
      * intros t' C. unfold wid in C. lia.
      * cbn [o_exclusive o_legal]. auto.
      * intros (W1 & W2 & W3). rewrite EO. unfold winv, held in *. rewrite Eph in *. cbn [set_ph w_ph w_pq w_pop map snd] in *.
        inversion W1 as [|? ? Hni W1']; subst. split; auto. split; auto. intros v. destruct (Nat.eqb_spec v u) as [->|Hne]; [split; [contradiction|discriminate]|].
        rewrite <- W2. cbn [In]. intuition congruence.
  - (* store *) assert (Hh : own (r_log r) u = Held t) by (apply N2; unfold held; rewrite Eph; left; auto).
    assert (Hu : u < n) by (destruct (Nat.lt_ge_cases u n); auto; rewrite H3 in Hh by auto; discriminate).
    destruct (Nat.ltb_spec u (length (r_trk r))); [|lia]. eexists; split; [reflexivity|]. cbn [set_w set_trk r_trk r_ws r_log].
    destruct N3 as (P1 & P2 & Hx).
    assert (EO : own (r_log r ++ [ret t u x]) = fun v => if v =? u then (if (x =? 0)%Z then Free else Retired) else own (r_log r) v)
      by (rewrite own_app; unfold ret; destruct (x =? 0)%Z; reflexivity).
    eapply own_trk; [exact HO|exact Hw|exact Hu|auto| | | | | |].
    + intros v Hv. rewrite EO. destruct (Nat.eqb_spec v u); [contradiction|auto].
    + intros t'. rewrite EO, Nat.eqb_refl. destruct (x =? 0)%Z; discriminate.
    + rewrite EO, Nat.eqb_refl. destruct Hx as [->| ->]; reflexivity.
    + intros t' C. unfold wid in C. lia.
    + unfold ret. destruct (x =? 0)%Z; cbn [o_exclusive o_legal]; auto.
    + intros (W1 & W2 & W3). rewrite EO. unfold winv, held in *. rewrite Eph in *. cbn [set_ph w_ph w_pq w_pop map snd] in *.
      inversion W1 as [|? ? Hni W1']; subst. split; auto. split; auto. intros v. destruct (Nat.eqb_spec v u) as [->|Hne].
      * split; [contradiction|destruct (x =? 0)%Z; discriminate].
      * rewrite <- W2. cbn [In]. intuition congruence.
  - (* touch *) destruct (Nat.ltb_spec v n) as [Hv|]; [|exists r; auto]. rewrite (NE v Hv). eexists. split; [reflexivity|].
    destruct (_ =? 0)%Z; [|exact HO]. cbn [set_w r_trk r_ws r_log]. nochange HO Hw. intros (W1 & W2 & W3); unfold winv, held in *; rewrite Eph in *; cbn [set_ph w_ph w_seeds w_touched]; auto.
  - (* pop *) destruct (existsb _ _) eqn:Ee; [|exists r; auto]. apply existsb_exists in Ee. destruct Ee as (u' & Hin & Eu). apply Nat.eqb_eq in Eu. subst u'.
    destruct N3 as (R1 & R2 & R3). pose proof (R2 u Hin) as Ht.
    assert (Hu : u < n) by (destruct (Nat.lt_ge_cases u n); auto; rewrite nth_overflow in Ht by lia; unfold wid in Ht; lia).
    assert (Hh : own (r_log r) u = Held t).
    { specialize (H4 u Hu). rewrite Ht in H4. destruct (own (r_log r) u) as [|t'|]; cbn [tro] in H4; unfold wid in H4; try lia. f_equal. lia. }
    eexists; split; [reflexivity|]. cbn [set_w set_trk r_trk r_ws r_log].
    assert (EO : own (r_log r ++ [OMark t u]) = own (r_log r)) by (rewrite own_app; reflexivity).
    eapply own_trk; [exact HO|exact Hw|exact Hu|auto| | | | | |]; rewrite ?EO; auto.
    + intros t' C. congruence.
    + rewrite Hh. cbn [tro]. auto.
    + intros t' C. unfold wid in C. lia.
    + cbn [o_exclusive o_legal]. auto.
    + intros (W1 & W2 & W3); unfold winv, held in *; rewrite Eph in *. cbn [w_ph w_seeds w_touched w_pq w_pop]. split; auto. split; auto.
      split; [|split]; cbn [w_pq w_pop]; intros v Hv.
      * destruct (Nat.eq_dec v u) as [->|]; [rewrite upd_nth_same in Hv by lia; unfold wid in Hv; lia|]. rewrite upd_nth_other in Hv by auto. apply in_in_remove; auto.
      * apply in_remove in Hv. destruct Hv as [Hv Hne]. rewrite upd_nth_other by auto. auto.
      * apply in_app_iff in Hv. destruct (Nat.eq_dec v u) as [->|].
        -- rewrite upd_nth_same by lia. split; auto. unfold wid. lia.
        -- destruct Hv as [Hv|[|[]]]; [|congruence]. rewrite upd_nth_other by auto. apply R3; auto.
  - (* commit *) destruct (existsb _ _) eqn:Ee; [|exists r; auto]. apply existsb_exists in Ee. destruct Ee as (u' & Hin & Eu). apply Nat.eqb_eq in Eu. subst u'.
    destruct N3 as (R1 & R2 & R3). destruct (R3 u Hin) as [Hh Ht].
    assert (Hu : u < n) by (destruct (Nat.lt_ge_cases u n); auto; rewrite H3 in Hh by auto; discriminate).
    eexists; split; [reflexivity|]. cbn [set_w set_trk r_trk r_ws r_log].
    assert (EO : own (r_log r ++ [OMark t u]) = own (r_log r)) by (rewrite own_app; reflexivity).
    assert (Ew : r_ws r = upd t w (r_ws r)).
    { apply (list_ext w); [rewrite upd_length; auto|]. intros i Hi. destruct (Nat.eq_dec i t) as [->|]; [rewrite upd_nth_same by lia; apply nth_error_nth; auto|rewrite upd_nth_other by auto; auto]. }
    rewrite Ew. eapply own_trk; [exact HO|exact Hw|exact Hu|auto| | | | | |]; rewrite ?EO; auto.
    + intros t' C. congruence.
    + rewrite Hh. cbn [tro]. auto.
    + intros t' C. unfold wid in C. lia.
    + cbn [o_exclusive o_legal]. auto.
    + intros (W1 & W2 & W3); unfold winv, held in *; rewrite Eph in *. split; auto. split; auto. split; [|split]; intros v Hv.
      * destruct (Nat.eq_dec v u) as [->|]; [rewrite upd_nth_same in Hv by lia; unfold wid in Hv; lia|]. rewrite upd_nth_other in Hv by auto. auto.
      * destruct (Nat.eq_dec v u) as [->|]; [rewrite (R2 u Hv) in Ht; congruence|]. rewrite upd_nth_other by auto. auto.
      * destruct (R3 v Hv). split; auto. destruct (Nat.eq_dec v u) as [->|]; [rewrite upd_nth_same by lia; unfold wid; lia|]. rewrite upd_nth_other by auto. auto.
  - (* end *) eexists; split; [reflexivity|]. cbn [set_w r_trk r_ws r_log]. nochange HO Hw. intros (W1 & W2 & W3); unfold winv, held in *; rewrite Eph in *. cbn [w_ph w_seeds w_touched w_pq w_pop].
    rewrite map_app, !map_map. cbn [snd]. rewrite !map_id. auto.
Qed.
End R.
