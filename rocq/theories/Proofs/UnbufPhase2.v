(* Second phase of unbuffered contraction, and the result. *)
From Verif Require Import Lib.Prelude Lib.Count Spec.Graph Spec.Quotient Spec.RatingMap Model.CsrModel Model.RatingMapModel Model.ContractModel Model.UnbufModel.
From Verif Require Import Proofs.CsrProofs Proofs.PermProofs Proofs.RatingMapProofs Proofs.QuotientProofs Proofs.ContractPreProofs Proofs.ContractProofs Proofs.UnbufProofs Proofs.UnbufPhase1.

Lemma acc_get_app v a b : acc_get v (a ++ b) = (acc_get v a + acc_get v b)%Z.
Proof. unfold acc_get. rewrite filter_app, map_app, zsum_app. reflexivity. Qed.
Lemma acc_get_perm v a b : Permutation a b -> acc_get v a = acc_get v b.
Proof. intros P. induction P; rewrite ?acc_get_cons; lia. Qed.
Lemma acc_get_one v e : acc_get v [e] = if Nat.eqb (fst e) v then snd e else 0%Z.
Proof. rewrite acc_get_cons. unfold acc_get. cbn. lia. Qed.
Lemma acc_get_nonneg v l : (forall e, In e l -> (0 < snd e)%Z) -> (0 <= acc_get v l)%Z.
Proof.
  induction l as [|e l IH]; intros H; [unfold acc_get; cbn; lia|]. rewrite acc_get_cons. specialize (IH (fun x Hx => H x (or_intror Hx))). specialize (H e (or_introl eq_refl)). destruct (Nat.eqb (fst e) v); lia.
Qed.
Lemma acc_get_pos v l : (forall e, In e l -> (0 < snd e)%Z) -> ((0 < acc_get v l)%Z <-> In v (map fst l)).
Proof.
  induction l as [|e l IH]; intros H; [unfold acc_get; cbn; split; [lia|intros []]|]. rewrite acc_get_cons.
  specialize (IH (fun x Hx => H x (or_intror Hx))). pose proof (acc_get_nonneg v l (fun x Hx => H x (or_intror Hx))) as N.
  specialize (H e (or_introl eq_refl)). cbn [map]. destruct (Nat.eqb_spec (fst e) v) as [E|E].
  - split; [intros _; left; exact E|lia].
  - rewrite Z.add_0_l, IH. split; [intros Hi; right; exact Hi|intros [Hi|Hi]; [contradiction|exact Hi]].
Qed.
Lemma concat_upd_get {A} (l : list (list A)) t x : t < length l -> nth t l [] = [] -> Permutation (concat (upd t x l)) (x ++ concat l).
Proof. intros Ht E. pose proof (concat_upd_perm l t x Ht) as C. rewrite E in C. exact C. Qed.

Section Collect.
Variables (T c_n thr : nat) (ops : list (nat * Z)).
Hypothesis Hops : forall e, In e ops -> fst e < c_n /\ (0 < snd e)%Z.

Record sinv (st : sst) : Prop := mkSinv {
  si_l : length (s_local st) = T;
  si_f : length (s_flush st) = T;
  si_u : length (s_used st) = T;
  si_a : length (s_arr st) = c_n;
  si_tn : NoDup (s_todo st);
  si_tl : forall i, In i (s_todo st) -> i < length ops;
  si_sum : forall v, (nth v (s_arr st) 0 + acc_get v (concat (s_local st)) + acc_get v (concat (s_flush st)) +
             acc_get v (map (fun i => nth i ops (0%nat, 0%Z)) (s_todo st)) = acc_get v ops)%Z;
  si_pos : forall e, In e (concat (s_local st) ++ concat (s_flush st)) -> fst e < c_n /\ (0 < snd e)%Z;
  si_nn : forall v, (0 <= nth v (s_arr st) 0)%Z;
  si_used : forall v, (0 < nth v (s_arr st) 0)%Z <-> In v (concat (s_used st));
  si_nd : NoDup (concat (s_used st)) }.

Lemma acc_add_in k v l e : In e (acc_add k v l) -> e = (k, v) \/ In e l \/ exists x, In (k, x) l /\ e = (k, (x + v)%Z).
Proof.
  induction l as [|[a b] l IH]; cbn [acc_add].
  - intros [<-|[]]. auto.
  - destruct (Nat.eqb_spec a k) as [->|Hne].
    + intros [<-|H]; [right; right; exists b; split; [left; reflexivity|reflexivity]|right; left; right; exact H].
    + intros [<-|H]; [right; left; left; reflexivity|]. destruct (IH H) as [H'|[H'|(x & H1 & H2)]]; auto; [right; left; right; exact H'|].
      right. right. exists x. split; [right; exact H1|exact H2].
Qed.

Lemma filter_remove_perm i l : NoDup l -> In i l -> Permutation l (i :: filter (fun j => negb (j =? i)) l).
Proof.
  induction l as [|a l IH]; intros HN Hi; [destruct Hi|]. inversion HN as [|? ? Ha HN']; subst. cbn [filter]. destruct (Nat.eqb_spec a i) as [->|Hne]; cbn [negb].
  - apply perm_skip. assert (E : filter (fun j => negb (j =? i)) l = l).
    { clear - Ha. induction l as [|b l IH]; [reflexivity|]. cbn [filter]. destruct (Nat.eqb_spec b i) as [->|]; [exfalso; apply Ha; left; reflexivity|]. cbn [negb]. f_equal. apply IH. intros H. apply Ha. right. exact H. }
    rewrite E. reflexivity.
  - destruct Hi as [->|Hi]; [contradiction|]. rewrite (IH HN' Hi) at 1. apply perm_swap.
Qed.

Lemma in_concat_nth {A} (l : list (list A)) t e : In e (nth t l []) -> In e (concat l).
Proof.
  intros H. apply in_concat. exists (nth t l []). split; [|exact H]. apply nth_In. destruct (lt_dec t (length l)) as [L|L]; [exact L|]. rewrite nth_overflow in H by lia. destruct H.
Qed.

Lemma sstep_ok st ev : sinv st -> sstep T thr ops st ev = Bad \/ exists st', sstep T thr ops st ev = Ok st' /\ sinv st'.
Proof.
  intros [I1 I2 I3 I4 I5 I6 I7 I8 I9 I10 I11]. destruct ev as [t i|l t|t]; cbn [sstep].
  - destruct (t <? T) eqn:Et; [|left; reflexivity]. apply Nat.ltb_lt in Et. destruct (existsb (Nat.eqb i) (s_todo st)) eqn:Ei; [|left; reflexivity].
    apply existsb_In in Ei. cbn [negb orb]. destruct (nth t (s_flush st) []) as [|x0 r0] eqn:Ef; [|left; reflexivity]. right.
    assert (Ho : In (nth i ops (0, 0%Z)) ops) by (apply nth_In, I6, Ei). destruct (Hops _ Ho) as [O1 O2].
    destruct (nth i ops (0, 0%Z)) as [k w] eqn:Eo. cbn [fst snd] in *.
    set (todo := filter (fun j => negb (j =? i)) (s_todo st)). set (l := acc_add k w (nth t (s_local st) [])).
    assert (Ptodo := filter_remove_perm i (s_todo st) I5 Ei). fold todo in Ptodo.
    assert (Ntodo : NoDup todo) by apply NoDup_filter, I5.
    assert (Ltodo : forall j, In j todo -> j < length ops) by (intros j Hj; apply filter_In in Hj; apply I6, Hj).
    assert (Gtodo : forall v, acc_get v (map (fun i => nth i ops (0, 0%Z)) (s_todo st)) = ((if Nat.eqb k v then w else 0) + acc_get v (map (fun i => nth i ops (0%nat, 0%Z)) todo))%Z).
    { intros v. rewrite (acc_get_perm v _ _ (Permutation_map _ Ptodo)). cbn [map]. rewrite acc_get_cons, Eo. reflexivity. }
    assert (Gl : forall v, acc_get v l = (acc_get v (nth t (s_local st) []) + if Nat.eqb k v then w else 0)%Z) by (intros v; apply acc_get_add).
    assert (Pl : forall e, In e l -> fst e < c_n /\ (0 < snd e)%Z).
    { intros e He. apply acc_add_in in He. destruct He as [->|[He|(x & Hx & ->)]]; [auto| |].
      - apply I8, in_or_app. left. apply in_concat_nth in He. exact He.
      - cbn. apply in_concat_nth in Hx. destruct (I8 _ (in_or_app _ _ _ (or_introl Hx))) as [_ H]. cbn in H. lia. }
    assert (C : forall x, Permutation (nth t (s_local st) [] ++ concat (upd t x (s_local st))) (x ++ concat (s_local st))) by (intros x; apply concat_upd_perm; lia).
    destruct (thr <=? length l).
    + eexists. split; [reflexivity|]. constructor; cbn [s_local s_flush s_arr s_used s_todo]; rewrite ?upd_length; auto.
      * intros v. specialize (I7 v). pose proof (acc_get_perm v _ _ (C [])) as C1. cbn [app] in C1. rewrite acc_get_app in C1.
        rewrite (acc_get_perm v _ _ (concat_upd_get (s_flush st) t l ltac:(lia) Ef)), acc_get_app, Gl. rewrite Gtodo in I7. lia.
      * intros e He. rewrite in_app_iff in He. destruct He as [He|He].
        -- apply I8, in_or_app. left. apply (Permutation_in _ (C [])). apply in_or_app. right. exact He.
        -- apply (Permutation_in _ (concat_upd_get (s_flush st) t l ltac:(lia) Ef)), in_app_or in He. destruct He as [He|He]; [apply Pl, He|]. apply I8, in_or_app. right. exact He.
    + eexists. split; [reflexivity|]. constructor; cbn [s_local s_flush s_arr s_used s_todo]; rewrite ?upd_length; auto.
      * intros v. specialize (I7 v). pose proof (acc_get_perm v _ _ (C l)) as C1. rewrite !acc_get_app, Gl in C1. rewrite Gtodo in I7. lia.
      * intros e He. rewrite in_app_iff in He. destruct He as [He|He]; [|apply I8, in_or_app; right; exact He].
        assert (He' : In e (l ++ concat (s_local st))) by (apply (Permutation_in _ (C l)), in_or_app; right; exact He).
        apply in_app_or in He'. destruct He' as [He'|He']; [apply Pl, He'|apply I8, in_or_app; left; exact He'].
  - destruct (t <? T) eqn:Et; [|left; reflexivity]. apply Nat.ltb_lt in Et. destruct (l <? T) eqn:El; [|left; reflexivity]. apply Nat.ltb_lt in El. cbn [negb orb].
    destruct (nth t (s_flush st) []) as [|x0 r0] eqn:Ef; [|left; reflexivity]. right.
    assert (C := concat_upd_perm (s_local st) l [] ltac:(lia)). cbn [app] in C.
    assert (F := concat_upd_get (s_flush st) t (nth l (s_local st) []) ltac:(lia) Ef).
    eexists. split; [reflexivity|]. constructor; cbn [s_local s_flush s_arr s_used s_todo]; rewrite ?upd_length; auto.
    + intros v. specialize (I7 v). rewrite (acc_get_perm v _ _ F), acc_get_app. pose proof (acc_get_perm v _ _ C) as C1. rewrite acc_get_app in C1. lia.
    + intros e He. rewrite in_app_iff in He. destruct He as [He|He].
      * apply I8, in_or_app. left. apply (Permutation_in _ C), in_or_app. right. exact He.
      * apply (Permutation_in _ F), in_app_or in He. destruct He as [He|He]; apply I8, in_or_app; [left; apply in_concat_nth in He; exact He|right; exact He].
  - destruct (nth t (s_flush st) []) as [|[v w] rest] eqn:Ef; [left; reflexivity|right].
    assert (Ht : t < T) by (destruct (lt_dec t T) as [L|L]; [exact L|]; rewrite nth_overflow in Ef by lia; discriminate).
    assert (Hvw : In (v, w) (concat (s_flush st))) by (apply (in_concat_nth _ t); rewrite Ef; left; reflexivity).
    destruct (I8 _ (in_or_app _ _ _ (or_intror Hvw))) as [V1 V2]. cbn [fst snd] in *. rewrite I4, (proj2 (Nat.ltb_lt _ _) V1).
    assert (C : Permutation (concat (s_flush st)) ((v, w) :: concat (upd t rest (s_flush st)))).
    { pose proof (concat_upd_perm (s_flush st) t rest ltac:(lia)) as C. rewrite Ef in C. cbn [app] in C. apply (Permutation_app_inv_l rest). rewrite <- C. rewrite <- Permutation_middle. reflexivity. }
    assert (Ha : forall x, nth x (upd v (nth v (s_arr st) 0 + w)%Z (s_arr st)) 0%Z = (nth x (s_arr st) 0 + if Nat.eqb v x then w else 0)%Z).
    { intros x. rewrite upd_nth, I4, (proj2 (Nat.ltb_lt _ _) V1), andb_true_r. destruct (Nat.eqb_spec v x) as [->|]; lia. }
    eexists. split; [reflexivity|]. constructor; cbn [s_local s_flush s_arr s_used s_todo]; rewrite ?upd_length; auto.
    + destruct (nth v (s_arr st) 0 =? 0)%Z; rewrite ?upd_length; exact I3.
    + intros x. specialize (I7 x). rewrite Ha. rewrite (acc_get_perm x _ _ C), acc_get_cons in I7. cbn [fst snd] in I7. lia.
    + intros e He. apply I8. rewrite in_app_iff in *. destruct He as [He|He]; [left; exact He|right]. apply (Permutation_in _ (Permutation_sym C)). right. exact He.
    + intros x. rewrite Ha. specialize (I9 x). destruct (Nat.eqb v x); lia.
    + intros x. rewrite Ha. destruct (Z.eqb_spec (nth v (s_arr st) 0%Z) 0%Z) as [E0|E0].
      * assert (U : Permutation (concat (upd t (nth t (s_used st) [] ++ [v]) (s_used st))) (v :: concat (s_used st))).
        { apply (Permutation_app_inv_l (nth t (s_used st) [])). rewrite concat_upd_perm by lia. rewrite <- app_assoc. reflexivity. }
        specialize (I10 x). destruct (Nat.eqb_spec v x) as [->|Hne].
        -- split; [intros _; apply (Permutation_in _ (Permutation_sym U)); left; reflexivity|lia].
        -- rewrite Z.add_0_r, I10. split; [intros H; apply (Permutation_in _ (Permutation_sym U)); right; exact H|].
           intros H. apply (Permutation_in _ U) in H. destruct H as [H|H]; [contradiction|exact H].
      * rewrite <- I10. specialize (I9 v). specialize (I9). destruct (Nat.eqb_spec v x) as [->|Hne]; lia.
    + destruct (Z.eqb_spec (nth v (s_arr st) 0%Z) 0%Z) as [E0|E0]; [|exact I11].
      assert (U : Permutation (concat (upd t (nth t (s_used st) [] ++ [v]) (s_used st))) (v :: concat (s_used st))).
      { apply (Permutation_app_inv_l (nth t (s_used st) [])). rewrite concat_upd_perm by lia. rewrite <- app_assoc. reflexivity. }
      apply (Permutation_NoDup (Permutation_sym U)). constructor; [|exact I11]. rewrite <- I10. lia.
Qed.

Definition s_init : sst := mkSst (repeat [] T) (repeat [] T) (repeat 0%Z c_n) (repeat [] T) (seq 0 (length ops)).
Lemma s_init_inv : sinv s_init.
Proof.
  assert (C : forall A n, concat (repeat (@nil A) n) = []) by (intros A n; apply concat_all_nil; intros x Hx; apply repeat_spec in Hx; exact Hx).
  constructor; cbn [s_init s_local s_flush s_arr s_used s_todo]; rewrite ?repeat_length, ?C; auto using seq_NoDup.
  - intros i Hi. apply in_seq in Hi. lia.
  - intros v. rewrite nth_repeat, map_nth_seq. unfold acc_get at 1 2. cbn. lia.
  - intros e [].
  - intros v. rewrite nth_repeat. lia.
  - intros v. rewrite nth_repeat. split; [lia|intros []].
  - constructor.
Qed.

Lemma srun_ok evs : forall st, sinv st -> srun T thr ops evs (Ok st) = Bad \/ exists st', srun T thr ops evs (Ok st) = Ok st' /\ sinv st'.
Proof.
  assert (HB : forall evs, srun T thr ops evs Bad = Bad) by (induction evs0; [reflexivity|assumption]).
  induction evs as [|ev evs IH]; intros st I; [right; exists st; auto|]. unfold srun. cbn [fold_left obind].
  destruct (sstep_ok st ev I) as [->|(st' & -> & I')]; [left; apply HB|]. apply (IH _ I').
Qed.

Lemma forallb_nil_concat {A} (l : list (list A)) : forallb is_nil l = true -> concat l = [].
Proof. intros H. rewrite forallb_forall in H. apply concat_all_nil. intros x Hx. specialize (H x Hx). destruct x; [reflexivity|discriminate]. Qed.

Lemma s_complete_ok st : sinv st -> s_complete st = true -> (forall v, nth v (s_arr st) 0%Z = acc_get v ops) /\ NoDup (concat (s_used st)) /\
  (forall v, In v (concat (s_used st)) <-> In v (map fst ops)).
Proof.
  intros [I1 I2 I3 I4 I5 I6 I7 I8 I9 I10 I11] H. unfold s_complete in H. apply andb_true_iff in H. destruct H as [H H3]. apply andb_true_iff in H. destruct H as [H1 H2].
  apply forallb_nil_concat in H2, H3. destruct (s_todo st); [|discriminate]. rewrite H2, H3 in I7.
  assert (G : forall v, nth v (s_arr st) 0%Z = acc_get v ops) by (intros v; rewrite <- I7; unfold acc_get at 1 2 3; cbn; lia).
  split; [exact G|]. split; [exact I11|]. intros v. rewrite <- I10, G. apply acc_get_pos. intros e He. apply Hops, He.
Qed.
End Collect.

(** The entries collected are those of a sequential accumulation. *)
Lemma add_pairs_in rops k v : In (k, v) (add_pairs rops) <-> In (RAdd k v) rops.
Proof.
  unfold add_pairs. rewrite in_flat_map. split.
  - intros (o & Ho & H). destruct o as [a b|]; [|destruct H]. destruct H as [E|[]]. injection E as -> ->. exact Ho.
  - intros H. exists (RAdd k v). split; [exact H|left; reflexivity].
Qed.
Lemma add_pairs_total rops v : acc_get v (add_pairs rops) = ops_total v rops.
Proof.
  induction rops as [|o rops IH]; [reflexivity|]. unfold add_pairs, ops_total in *. cbn [flat_map map zsum]. rewrite acc_get_app, IH. destruct o as [k w|]; [|reflexivity].
  rewrite acc_get_one. reflexivity.
Qed.
Lemma collected_perm rops arr used : no_clear rops -> (forall v, arr v = acc_get v (add_pairs rops)) -> NoDup used ->
  (forall v, In v used <-> In v (map fst (add_pairs rops))) -> Permutation (map (fun v => (v, arr v)) used) (acc_run rops).
Proof.
  intros HC Ha HN Hu. apply NoDup_Permutation.
  - apply (NoDup_map_inv fst). rewrite map_map. cbn [fst]. rewrite map_id. exact HN.
  - apply (NoDup_map_inv fst). apply acc_run_nodup.
  - intros [v x].
    assert (G : acc_get v (acc_run rops) = arr v) by (rewrite Ha, add_pairs_total; unfold acc_run; rewrite acc_fold_get by exact HC; unfold acc_get; cbn; lia).
    assert (K : In v used <-> In v (map fst (acc_run rops))).
    { rewrite Hu, <- (touched_iff v (acc_run rops)). unfold acc_run. rewrite (acc_fold_touched rops HC). split.
      - intros H. apply in_map_iff in H. destruct H as ([k w] & <- & H). right. exists w. apply add_pairs_in, H.
      - intros [H|[w H]]; [discriminate|]. apply add_pairs_in in H. change v with (fst (v, w)). apply in_map, H. }
    split.
    + intros H. apply in_map_iff in H. destruct H as (v' & E & H). injection E as -> <-. apply K in H. apply in_map_iff in H. destruct H as ([v' y] & E & H). cbn in E. subst v'.
      rewrite (acc_get_in v y _ (acc_run_nodup rops) H) in G. rewrite <- G. exact H.
    + intros H. rewrite (acc_get_in v x _ (acc_run_nodup rops) H) in G. apply in_map_iff. exists v. split; [rewrite G; reflexivity|]. apply K. change v with (fst (v, x)). apply in_map, H.
Qed.

Section Second.
Variables (T c_n m thr : nat) (wt : nat -> Z) (rops : nat -> list rop) (fd : nat -> nat).
Let good c E := Permutation E (acc_run (rops c)).
Hypothesis Hclear : forall c, no_clear (rops c).
Hypothesis Hops : forall c, c < c_n -> forall k v, In (RAdd k v) (rops c) -> k < c_n /\ (0 < v)%Z.
Hypothesis Hgood : forall c E, c < c_n -> good c E -> length E <= fd c.
Hypothesis Hm : psum fd c_n <= m.

Lemma pairs_ok c : c < c_n -> forall e, In e (add_pairs (rops c)) -> fst e < c_n /\ (0 < snd e)%Z.
Proof. intros Hc [k v] He. apply add_pairs_in in He. apply (Hops c Hc k v He). Qed.

(** Claiming the ranges of one node. *)
Section Claims.
Variables (arr : list Z) (used : list (list nat)) (asg : list rcd) (c : nat).
Let ent t := map (fun v => (v, nth v arr 0%Z)) (nth t used []).
Hypothesis Hul : length used = T.
Hypothesis Hfull : fits c_n m (asg ++ [(c, map (fun v => (v, nth v arr 0%Z)) (concat used))]).

Lemma flat_seq_concat {A} (ll : list (list A)) : flat_map (fun t => nth t ll []) (seq 0 (length ll)) = concat ll.
Proof. rewrite flat_map_concat_map, map_nth_seq. reflexivity. Qed.
Lemma flat_ent ts : flat_map ent ts = map (fun v => (v, nth v arr 0%Z)) (flat_map (fun t => nth t used []) ts).
Proof. induction ts as [|t ts IH]; [reflexivity|]. cbn [flat_map]. rewrite map_app, IH. reflexivity. Qed.

Lemma claimed_fits ts : NoDup ts -> (forall t, In t ts -> t < T) -> fits c_n m (asg ++ [(c, flat_map ent ts)]).
Proof.
  intros HN Ht. destruct Hfull as (F1 & F2 & F3). rewrite map_app in F1. cbn [map fst] in F1.
  assert (HL : length (flat_map ent ts) <= length (concat used)).
  { rewrite flat_ent, map_length, length_flat_map_list_sum. etransitivity; [apply (nodup_sum_le _ T); assumption|].
    unfold psum. rewrite <- Hul, <- length_flat_map_list_sum, flat_seq_concat. reflexivity. }
  split; [rewrite map_app; exact F1|]. split.
  - intros r Hr. apply in_app_or in Hr. destruct Hr as [Hr|[<-|[]]]; [apply F2, in_or_app; left; exact Hr|]. cbn [fst].
    apply (F2 (c, map (fun v => (v, nth v arr 0%Z)) (concat used))), in_or_app. right. left. reflexivity.
  - rewrite rdeg_app, rdeg_one in *. cbn [snd] in *. rewrite map_length in F3. lia.
Qed.

Lemma crun_ok evs : forall ts st P, minv T wt st (asg ++ [(c, flat_map ent ts)]) P -> NoDup ts -> (forall t, In t ts -> t < T) ->
  crun T c_n m arr used evs (Ok (ts, st)) = Bad \/
  exists ts' st' P', crun T c_n m arr used evs (Ok (ts, st)) = Ok (ts', st') /\ minv T wt st' (asg ++ [(c, flat_map ent ts')]) P' /\ NoDup ts' /\ (forall t, In t ts' -> t < T).
Proof.
  assert (HB : forall evs, crun T c_n m arr used evs Bad = Bad) by (induction evs0; [reflexivity|assumption]).
  induction evs as [|ev evs IH]; intros ts st P I HN Ht; [right; exists ts, st, P; auto|]. unfold crun. cbn [fold_left obind].
  destruct ev as [t|t]; cbn [cstep].
  - destruct (t <? T) eqn:Et; [|left; apply HB]. apply Nat.ltb_lt in Et. destruct (existsb (Nat.eqb t) ts) eqn:Ets; [left; apply HB|]. cbn [negb orb].
    destruct (nth t (u_pend st) []) as [|w0 r0] eqn:Ep; [|left; apply HB].
    assert (Hnt : ~ In t ts) by (intros H; apply existsb_In in H; congruence).
    apply (IH (ts ++ [t]) _ P).
    + fold (ent t). destruct I as [I1 I2 I3 I4 I5]. rewrite flat_map_app. cbn [flat_map]. rewrite app_nil_r. constructor; cbn [fetch u_c u_e u_pend u_mem].
      * rewrite I1, !app_length. cbn. lia.
      * rewrite I2, !rdeg_app, !rdeg_one. cbn [snd]. rewrite app_length. lia.
      * rewrite upd_length. exact I3.
      * rewrite asg_writes_grow. rewrite <- I4. rewrite I2, rdeg_app, rdeg_one. cbn [snd Nat.add]. rewrite <- app_assoc. apply Permutation_app_head.
        rewrite (concat_upd_get (u_pend st) t _ ltac:(lia) Ep). apply Permutation_app_comm.
      * exact I5.
    + apply nodup_snoc; assumption.
    + intros x Hx. apply in_app_or in Hx. destruct Hx as [Hx|[<-|[]]]; auto.
  - destruct (do_write_ok T c_n m wt st _ P t I (claimed_fits ts HN Ht)) as [->|(st' & P' & -> & M & _)]; cbn [obind]; [left; apply HB|].
    apply (IH ts st' P' M HN Ht).
Qed.
End Claims.

Lemma no_pending_concat st : no_pending st = true -> concat (u_pend st) = [].
Proof. intros H. apply forallb_nil_concat. exact H. Qed.

Lemma second_node_ok st asg P c sev cev : minv T wt st asg P -> no_pending st = true ->
  NoDup (map fst asg ++ [c]) -> c < c_n -> (forall r, In r asg -> fst r < c_n /\ good (fst r) (snd r)) ->
  second_node T c_n m wt thr (add_pairs (rops c)) c sev cev st = Bad \/
  exists st' P' E, second_node T c_n m wt thr (add_pairs (rops c)) c sev cev st = Ok st' /\ good c E /\ minv T wt st' (asg ++ [(c, E)]) P' /\ no_pending st' = true.
Proof.
  intros I Hp HN Hc HG. unfold second_node. fold (s_init T c_n (add_pairs (rops c))).
  destruct (srun_ok T c_n thr (add_pairs (rops c)) (pairs_ok c Hc) sev _ (s_init_inv T c_n (add_pairs (rops c)))) as [->|(s & -> & SI)]; [left; reflexivity|].
  cbn [obind]. destruct (s_complete s) eqn:Es; [|left; reflexivity]. cbn [negb].
  destruct (s_complete_ok T c_n _ (pairs_ok c Hc) s SI Es) as (S1 & S2 & S3).
  assert (G : good c (map (fun v => (v, nth v (s_arr s) 0%Z)) (concat (s_used s)))) by (apply (collected_perm (rops c) (fun v => nth v (s_arr s) 0%Z)); auto).
  assert (Hfull : fits c_n m (asg ++ [(c, map (fun v => (v, nth v (s_arr s) 0%Z)) (concat (s_used s)))])).
  { apply (good_fits c_n m good fd Hgood Hm); [rewrite map_app; exact HN|]. intros r Hr. apply in_app_or in Hr. destruct Hr as [Hr|[<-|[]]]; [apply HG, Hr|auto]. }
  pose proof Hfull as HL. apply (fits_length wt) in HL. rewrite app_length in HL. cbn in HL. pose proof I as [I1 I2 I3 I4 I5].
  rewrite (proj2 (Nat.ltb_lt _ _) Hc), (proj2 (Nat.ltb_lt (u_c st) c_n)) by lia. cbn [negb orb].
  set (st1 := mkUst _ _ _ _ _ _ _).
  assert (M1 : minv T wt st1 (asg ++ [(c, flat_map (fun t => map (fun v => (v, nth v (s_arr s) 0%Z)) (nth t (s_used s) [])) [])])
                 (P ++ [mkWr ARemap c (Z.of_nat (u_c st)); mkWr ANode (u_c st) (Z.of_nat (u_e st)); mkWr ANw (u_c st) (wt c)])).
  { constructor; cbn [st1 u_c u_e u_pend u_mem flat_map].
    - rewrite I1, app_length. cbn. lia.
    - rewrite I2, rdeg_app, rdeg_one. cbn. lia.
    - exact I3.
    - rewrite asg_writes_app. cbn [asg_writes neighbourhood_writes app Nat.add]. change (edge_writes (rdeg asg) []) with (@nil wr).
      rewrite <- I4, (no_pending_concat st Hp), !app_nil_r, I1, I2. reflexivity.
    - unfold run_stores. rewrite fold_left_app. cbn [fold_left]. rewrite I5. reflexivity. }
  destruct (crun_ok (s_arr s) (s_used s) asg c (si_u _ _ _ _ SI) Hfull cev [] st1 _ M1 (NoDup_nil _) ltac:(intros t [])) as [->|(ts & st2 & P2 & -> & M2 & N2 & T2)]; [left; reflexivity|].
  cbn [obind]. destruct (forallb (fun t => existsb (Nat.eqb t) ts) (seq 0 T)) eqn:Ea; [|left; reflexivity]. destruct (no_pending st2) eqn:En; [|left; reflexivity].
  cbn [andb]. right. do 3 eexists. split; [reflexivity|]. split; [|split; [exact M2|exact En]].
  assert (PT : Permutation ts (seq 0 T)).
  { apply NoDup_Permutation; [exact N2|apply seq_NoDup|]. intros t. rewrite in_seq. split; [intros H; apply T2 in H; lia|]. intros H. rewrite forallb_forall in Ea. apply existsb_In, Ea, in_seq. lia. }
  unfold good. rewrite <- G. rewrite flat_ent. apply Permutation_map. rewrite (Permutation_flat_map _ PT). rewrite <- (si_u _ _ _ _ SI), flat_seq_concat. reflexivity.
Qed.

Lemma second_phase_ok sched cs : forall st asg P, minv T wt st asg P -> no_pending st = true ->
  NoDup (map fst asg ++ cs) -> (forall c, In c cs -> c < c_n) -> (forall r, In r asg -> fst r < c_n /\ good (fst r) (snd r)) ->
  let res := fold_left (fun st c_u => obind st (second_node T c_n m wt thr (add_pairs (rops c_u)) c_u (fst (sched c_u)) (snd (sched c_u)))) cs (Ok st) in
  res = Bad \/ exists st' asg' P', res = Ok st' /\ minv T wt st' asg' P' /\ no_pending st' = true /\ map fst asg' = map fst asg ++ cs /\
    (forall r, In r asg' -> fst r < c_n /\ good (fst r) (snd r)).
Proof.
  assert (HB : forall cs, fold_left (fun st c_u => obind st (second_node T c_n m wt thr (add_pairs (rops c_u)) c_u (fst (sched c_u)) (snd (sched c_u)))) cs Bad = Bad) by (induction cs0; [reflexivity|assumption]).
  induction cs as [|c cs IH]; intros st asg P I Hp HN Hlt HG.
  - right. exists st, asg, P. rewrite app_nil_r. auto.
  - cbn [fold_left obind].
    assert (HN1 : NoDup (map fst asg ++ [c])) by (apply (NoDup_app_l _ cs); rewrite <- app_assoc; exact HN).
    destruct (second_node_ok st asg P c (fst (sched c)) (snd (sched c)) I Hp HN1 (Hlt c (or_introl eq_refl)) HG) as [->|(st' & P' & E & -> & G & M & N)]; [left; apply HB|].
    destruct (IH st' (asg ++ [(c, E)]) P' M N) as [R|(st2 & asg2 & P2 & R & M2 & N2 & K2 & G2)].
    + rewrite map_app, <- app_assoc. exact HN.
    + intros x Hx. apply Hlt. right. exact Hx.
    + intros r Hr. apply in_app_or in Hr. destruct Hr as [Hr|[<-|[]]]; [apply HG, Hr|]. split; [apply Hlt; left; reflexivity|exact G].
    + left. exact R.
    + right. exists st2, asg2, P2. rewrite map_app, <- app_assoc in K2. auto.
Qed.
End Second.
