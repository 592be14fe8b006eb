(* Parallel compression: runs, the result, progress. *)
From Verif Require Import Lib.Prelude Lib.Slice Lib.Count Model.VarintModel Model.CompressModel Model.CompressParModel
  Proofs.FmRoundProofs Proofs.CompressParBase Proofs.CompressParProofs.
Local Open Scope nat_scope.

Lemma run_app c sort nbs chunks lcap a : forall b s s', p_run c sort nbs chunks lcap a s = Some s' ->
  p_run c sort nbs chunks lcap (a ++ b) s = p_run c sort nbs chunks lcap b s'.
Proof.
  induction a as [|t a IH]; intros b s s' H; cbn [p_run app] in *; [injection H as ->; auto|].
  destruct (p_step c sort nbs chunks lcap t s); [apply IH; auto|discriminate].
Qed.
Lemma list_sum_upd {A} (f : A -> nat) x d l : forall t, t < length l ->
  list_sum (map f (upd t x l)) + f (nth t l d) = list_sum (map f l) + f x.
Proof.
  induction l as [|a l IH]; intros [|t] H; cbn [length] in H; try lia.
  - change (upd 0 x (a :: l)) with (x :: l). cbn [map list_sum fold_right nth]. unfold list_sum. cbn [fold_right map]. lia.
  - change (upd (S t) x (a :: l)) with (a :: upd t x l). specialize (IH t ltac:(lia)). unfold list_sum in *. cbn [map fold_right nth]. lia.
Qed.

Section Top.
Variable c : cconf.
Variable sort : list nbr -> list nbr.
Variable nbs : list (list nbr).
Variable chunks : list (nat * nat * Z).
Variable lcap : Z.
Variables T cap : nat.
Hypothesis Hwi : (0 < c_wi c)%Z.
Hypothesis Hwe : (0 < c_we c)%Z.
Hypothesis HT : tiles 0 (length nbs) chunks.
Notation C := (length chunks).
Notation st := (chunk_start chunks).
Notation lo := (chunk_offs c sort nbs chunks).
Notation da := (chunk_data c sort nbs chunks).
Notation csz := (csz c sort nbs chunks).
Notation off := (off c sort nbs chunks).
Hypothesis Hsmall : (off C < 2 ^ c_wi c)%Z.
Hypothesis Hcap : (off C <= Z.of_nat cap)%Z.
Hypothesis Hlcap : forall ch, ch < C -> (csz ch <= lcap)%Z.
Notation INV := (INV c sort nbs chunks T cap).
Notation step := (p_step c sort nbs chunks lcap).
Notation run := (p_run c sort nbs chunks lcap).
Notation init := (p_init nbs chunks T cap).

Lemma Hst ch ch' : ch < ch' < C -> st ch + length (lo ch) <= st ch'.
Proof.
  intros H. rewrite (offs_len c sort nbs Hwe Hwi chunks 0 ch HT) by lia. destruct (tiles_nth _ _ _ ch HT ltac:(lia)) as (_ & H1 & _ & H2).
  specialize (H2 ch' H). unfold chunk_start in *. lia.
Qed.
Lemma Hend ch : ch < C -> st ch + length (lo ch) <= length nbs.
Proof.
  intros H. rewrite (offs_len c sort nbs Hwe Hwi chunks 0 ch HT) by lia. destruct (tiles_nth _ _ _ ch HT ltac:(lia)) as (_ & H1 & _ & H2).
  unfold chunk_start in *. lia.
Qed.

Lemma init_inv : INV init (fun _ => SNew) 0.
Proof.
  assert (NR : forall p (d : bool) n, p < n -> nth p (repeat false n) d = false).
  { intros p d n H. rewrite (nth_indep _ d false) by (rewrite repeat_length; auto). apply nth_repeat. }
  assert (NN : forall t x, nth_error (repeat (@None (nat * stage)) T) t = Some x -> x = None).
  { intros t x H. apply nth_error_In in H. now apply repeat_spec in H. }
  constructor; cbn [p_init p_rem p_counter p_lock p_buf p_nodes p_mem p_size p_tot p_thr].
  - lia.
  - rewrite !repeat_length. auto.
  - lia.
  - auto.
  - lia.
  - lia.
  - lia.
  - split; [|split].
    + intros t ch x H. apply NN in H. discriminate.
    + intros; lia.
    + intros t t' ch x x' H. apply NN in H. discriminate.
  - intros p Hp. rewrite NR by auto. split; [discriminate|]. intros [(ch & H & _)|(H & _)]; lia.
  - split; [|lia]. rewrite nth_repeat. reflexivity.
  - lia.
  - intros ch i H1 H2. cbn in H2. lia.
  - intros ch i H1 H2. cbn in H2. lia.
  - symmetry. apply sumn_zero_ext. auto.
  - rewrite sumn_zero_ext by auto. unfold wrap_s. rewrite Z.mod_small; [lia|]. split; [apply Z.pow_nonneg; lia|]. apply Z.pow_lt_mono_r; lia.
Qed.

Lemma run_inv ts : forall s pr e, INV s pr e -> exists s' pr' e', run ts s = Some s' /\ INV s' pr' e'.
Proof.
  induction ts as [|t ts IH]; intros s pr e I; cbn [p_run]; [exists s, pr, e; auto|].
  destruct (step_ok c sort nbs chunks lcap T cap Hwi Hwe Hst Hend Hsmall Hcap Hlcap t s pr e I) as (s1 & pr1 & e1 & E & I1). rewrite E. eapply IH; eauto.
Qed.

(** The result. *)
Lemma finished_done s pr e : INV s pr e -> p_finished s = true -> forall ch, ch < C -> pr ch = SDone.
Proof.
  intros I F ch Hc. unfold p_finished in F. apply andb_true_iff in F. destruct F as (F1 & F2). apply Nat.eqb_eq in F1.
  pose proof (v_cnt _ _ _ _ _ _ _ _ _ I). destruct (v_thr _ _ _ _ _ _ _ _ _ I) as (_ & B & _).
  specialize (B ch ltac:(lia)). destruct (pr ch); auto; destruct B as (t & Et); try discriminate;
  rewrite forallb_forall in F2; specialize (F2 _ (nth_error_In _ _ Et)); discriminate.
Qed.
Lemma find_chunk (sz : nat -> nat) : forall N q, q < list_sum (map sz (seq 0 N)) ->
  exists ch j, ch < N /\ j < sz ch /\ q = list_sum (map sz (seq 0 ch)) + j.
Proof.
  induction N as [|N IH]; intros q H; [cbn in H; lia|]. rewrite seq_S, map_app, list_sum_app in H. cbn in H.
  destruct (Nat.lt_ge_cases q (list_sum (map sz (seq 0 N)))) as [L|G].
  - destruct (IH q L) as (ch & j & H1 & H2 & H3). exists ch, j. repeat split; auto; lia.
  - exists N, (q - list_sum (map sz (seq 0 N))). repeat split; lia.
Qed.
Lemma off_list ch : Z.to_nat (off ch) = list_sum (map (fun i => length (da i)) (seq 0 ch)).
Proof.
  induction ch as [|ch IH]; [reflexivity|]. rewrite off_S, seq_S, map_app, list_sum_app, <- IH. cbn.
  pose proof (off_nonneg c sort nbs chunks ch). unfold CompressParProofs.csz. lia.
Qed.

Lemma result s pr e m : INV s pr e -> p_finished s = true -> p_build c nbs m s = cn_build c sort m nbs.
Proof.
  intros I F. pose proof (finished_done _ _ _ I F) as FD. destruct I as [Icnt Ilen Ie Inew Irel Iheld Iearly Ithr Ilock Ibuf Ival Inodes Imem Isize Itot].
  destruct Ilen as (L1 & L2 & L3 & L4 & L5).
  assert (SZ : p_size s = off C).
  { rewrite Isize. apply sumn_ext. intros ch Hc. rewrite FD by auto. reflexivity. }
  assert (TT : p_tot s = wrap_s (c_we c) (sumn C (chunk_tot c sort nbs chunks))).
  { rewrite Itot. f_equal. apply sumn_ext. intros ch Hc. rewrite FD by auto. reflexivity. }
  destruct (seq_chunks c sort nbs Hwe Hwi chunks 0 HT) as (S1 & S2 & S3 & S4 & S5 & S6). cbv zeta in *. rewrite skipn_O in *. rewrite Nat.sub_0_r in S6.
  unfold p_build, cn_build. destruct (build_loop c sort 0 nbs [] 0) as [[o d] t]. cbn [fst snd] in *.
  change (fun ch => Z.of_nat (length (chunk_data c sort nbs chunks ch))) with csz in *.
  change (sumn C csz) with (off C) in S3. pose proof (off_nonneg c sort nbs chunks C) as ON.
  assert (EN : upd (length nbs) (p_size s) (p_nodes s) = o ++ [wrap_u (c_wi c) (Z.of_nat (length d))]).
  { apply list_ext with (d := 0%Z); [rewrite upd_length, app_length, S6; cbn [length]; lia|]. intros u Hu. rewrite upd_length, L3 in Hu.
    destruct (Nat.eq_dec u (length nbs)) as [->|N].
    - rewrite upd_nth_same by lia. rewrite app_nth2, S6, Nat.sub_diag by lia. cbn [nth]. rewrite S3, SZ. symmetry. apply wrap_u_id. lia.
    - rewrite upd_nth_other by lia. rewrite app_nth1 by lia. destruct (tiles_cover _ _ _ u HT ltac:(lia)) as (ch & Hc & Hr).
      pose proof (offs_len c sort nbs Hwe Hwi chunks 0 ch HT Hc) as OL. fold (chunk_start chunks ch) in *.
      replace u with (st ch + (u - st ch)) by lia. rewrite Inodes; auto; [|rewrite FD by auto; cbn; lia|lia].
      change (off ch) with (sumn ch csz). rewrite <- (S1 ch (u - st ch)) by (auto; lia). f_equal. lia. }
  assert (EE : map (fun b => match b with Some x => x | None => 0%Z end) (firstn (Z.to_nat (p_size s)) (p_mem s)) = d).
  { rewrite SZ. apply list_ext with (d := 0%Z); [rewrite map_length, firstn_length, L4; lia|]. intros q Hq. rewrite map_length, firstn_length in Hq.
    assert (Hq' : q < Z.to_nat (off C)) by lia. rewrite off_list in Hq'. destruct (find_chunk _ _ _ Hq') as (ch & j & H1 & H2 & H3).
    rewrite <- off_list in H3. etransitivity; [exact (map_nth (fun b => match b with Some x => x | None => 0%Z end) (firstn (Z.to_nat (off C)) (p_mem s)) None q)|].
    cbv beta. rewrite nth_firstn_lt by lia. subst q.
    rewrite Imem; auto; [|rewrite FD by auto; cbn; lia]. rewrite <- (S2 ch j) by auto.
    change (sumn ch csz) with (off ch). destruct (nth_error d (Z.to_nat (off ch) + j)) as [x|] eqn:Ex.
    - symmetry. now apply nth_error_nth.
    - apply nth_error_None in Ex. lia. }
  rewrite EN, EE. f_equal. destruct (c_ew c); auto. rewrite TT. rewrite <- S5. symmetry. apply cg_wrap; auto.
Qed.

(** ** Progress *)
Definition rk (th : option (nat * stage)) : nat :=
  match th with
  | None => 0
  | Some (ch, x) =>
      let nd := length (da ch) in let nl := length (lo ch) in
      match x with
      | SNew | SDone => 0
      | STot => 1
      | SCopy _ j => 2 + (nd - j)
      | SSize _ => 3 + nd
      | SNode _ i => 4 + nd + (nl - i)
      | SRel _ => 5 + nd + nl
      | SWrite _ => 6 + nd + nl
      | SUnl _ => 7 + nd + nl
      | SRead => 8 + nd + nl
      | SLock => 9 + nd + nl
      | SComp => 10 + nd + nl
      end
  end.
Definition Kc : nat := 11 + list_sum (map (fun ch => length (da ch) + length (lo ch)) (seq 0 C)).
Definition mu (s : pstate) : nat := p_rem s * Kc + list_sum (map rk (p_thr s)).
Lemma Kc_gt ch : ch < C -> 10 + length (da ch) + length (lo ch) < Kc.
Proof.
  intros H. unfold Kc. assert (G : forall (f : nat -> nat) N, ch < N -> f ch <= list_sum (map f (seq 0 N))).
  { intros f N. induction N as [|N IH]; intros HN; [lia|]. rewrite seq_S, map_app, list_sum_app. 
    assert (E1 : list_sum (map f [0 + N]) = f N) by (cbn; lia). rewrite E1.
    destruct (Nat.eq_dec ch N) as [->|]; [lia|]. specialize (IH ltac:(lia)). lia. }
  specialize (G (fun ch => length (da ch) + length (lo ch)) C H). cbv beta in G. lia.
Qed.
(** A thread that cannot do anything. *)
Definition blocked (t : nat) (s : pstate) : Prop :=
  match nth_error (p_thr s) t with
  | None => True
  | Some None => p_rem s = 0
  | Some (Some (ch, x)) => match x with SNew | SDone => True | SLock => nth (c_prev s ch) (p_lock s) true = true | _ => False end
  end.
Lemma step_mu t s pr e s' : INV s pr e -> step t s = Some s' -> (blocked t s /\ s' = s) \/ mu s' < mu s.
Proof.
  intros I. unfold p_step, blocked. destruct (nth_error (p_thr s) t) as [th|] eqn:Et; [|intros H; injection H as <-; left; auto].
  assert (Ht : t < length (p_thr s)) by (apply nth_error_Some; congruence).
  assert (En : nth t (p_thr s) None = th) by (now apply nth_error_nth).
  assert (U : forall x, list_sum (map rk (upd t x (p_thr s))) + rk th = list_sum (map rk (p_thr s)) + rk x).
  { intros x. rewrite <- En. apply list_sum_upd. auto. }
  unfold mu. destruct th as [[ch x]|].
  - destruct x as [| | | |v|v|v|v i|v|v j| |]; intros H;
      try (match type of H with context [nth (c_prev s ch) (p_lock s) true] => destruct (nth (c_prev s ch) (p_lock s) true) eqn:EL; [injection H as <-; left; auto|] end);
      try (destruct (lcap <? Z.of_nat (length (da ch)))%Z; [discriminate|]);
      try (destruct (nth_error (lo ch) i) eqn:Eo);
      try (destruct (nth_error (da ch) j) eqn:Eo; [destruct (Z.to_nat v + j <? length (p_mem s)); [|discriminate]|]);
      try (injection H as <-); try (left; split; auto; fail); right;
      cbn [set_stage set_locks p_rem p_thr];
      match goal with |- context [upd t ?y (p_thr s)] => specialize (U y) end; cbn [rk] in U; try lia.
    + assert (i < length (lo ch)) by (apply nth_error_Some; congruence). lia.
    + assert (j < length (da ch)) by (apply nth_error_Some; congruence). lia.
  - destruct (p_rem s) as [|rem] eqn:Er; intros H; [injection H as <-; left; auto|].
    destruct (nth (c_pos s (p_counter s)) (p_lock s) true); [discriminate|]. injection H as <-. right. cbn [p_rem p_thr].
    specialize (U (Some (p_counter s, SComp))). cbn [rk] in U.
    pose proof (v_cnt _ _ _ _ _ _ _ _ _ I). pose proof (Kc_gt (p_counter s) ltac:(lia)). nia.
Qed.

Hypothesis HTpos : 0 < T.
Lemma unblocked s pr e : INV s pr e -> p_finished s = false -> exists t, t < T /\ ~ blocked t s.
Proof.
  intros I F. pose proof I as [Icnt Ilen Ie Inew Irel Iheld Iearly Ithr Ilock Ibuf Ival Inodes Imem Isize Itot].
  pose proof (cnt_bound _ _ _ _ _ _ _ _ _ I) as CB.
  destruct Ilen as (L1 & L2 & L3 & L4 & L5). destruct Ithr as (TA & TB & TD).
  assert (LT : forall t x, nth_error (p_thr s) t = Some x -> t < T) by (intros t x H; rewrite <- L5; apply nth_error_Some; congruence).
  destruct (Nat.lt_ge_cases e (p_counter s)) as [L|G].
  - pose proof (Iheld e ltac:(lia)) as He. destruct (TB e L) as (t & Et); [intros X; rewrite X in He; discriminate|].
    exists t. split; [eapply LT; eauto|]. unfold blocked. rewrite Et. rewrite (prev_eq T s e L2). destruct (pr e) eqn:Ep; try discriminate; auto.
    intros EL. apply Ilock in EL; [|apply prevp_lt]. destruct EL as [(ch & H1 & H2)|(_ & H & _)]; [|cbn in H; discriminate].
    revert H2. unfold prevp. apply mod_neq; lia.
  - assert (p_counter s = e) by lia. subst e.
    destruct (forallb (fun th => match th with None => true | Some _ => false end) (p_thr s)) eqn:FB.
    + unfold p_finished in F. rewrite FB, andb_true_r in F. apply Nat.eqb_neq in F. exists 0. split; auto. unfold blocked.
      destruct (nth_error (p_thr s) 0) as [th|] eqn:Et; [|apply nth_error_None in Et; lia].
      rewrite forallb_forall in FB. specialize (FB th (nth_error_In _ _ Et)). destruct th; [discriminate|auto].
    + assert (exists th, In th (p_thr s) /\ th <> None) as (th & Hi & Hn).
      { clear -FB. induction (p_thr s) as [|a l IH]; [discriminate|]. cbn in FB. destruct a; [exists (Some p); split; [left; auto|discriminate]|].
        destruct (IH FB) as (th & H1 & H2). exists th. split; [right; auto|auto]. }
      apply In_nth_error in Hi. destruct Hi as (t & Et). exists t. split; [eapply LT; eauto|]. unfold blocked. rewrite Et.
      destruct th as [[ch x]|]; [|congruence]. destruct (TA _ _ _ Et) as (H1 & H2 & H3). specialize (Irel ch H1). rewrite H2 in Irel.
      destruct x; try discriminate; auto; congruence.
Qed.

Lemma fair_finish (f : nat -> nat) : (forall t N, t < T -> exists j, N <= j /\ f j = t) ->
  exists N s, run (map f (seq 0 N)) init = Some s /\ p_finished s = true.
Proof.
  intros Hf.
  assert (G : forall m k s pr e, run (map f (seq 0 k)) init = Some s -> INV s pr e -> mu s <= m -> exists N s', run (map f (seq 0 N)) init = Some s' /\ p_finished s' = true).
  { induction m as [m IH] using lt_wf_ind. intros k s pr e R I Hm.
    destruct (p_finished s) eqn:F; [exists k, s; auto|].
    destruct (unblocked _ _ _ I F) as (t & Ht & NB). destruct (Hf t k Ht) as (j & Hj & Ej).
    (* either the state changes before j or at j *)
    assert (D : forall d, (exists k' s' pr' e', run (map f (seq 0 k')) init = Some s' /\ INV s' pr' e' /\ mu s' < mu s) \/ run (map f (seq 0 (k + d))) init = Some s).
    { induction d as [|d [IHd|IHd]]; [right; now rewrite Nat.add_0_r|left; auto|].
      destruct (step_ok c sort nbs chunks lcap T cap Hwi Hwe Hst Hend Hsmall Hcap Hlcap (f (k + d)) s pr e I) as (s1 & pr1 & e1 & E & I1).
      assert (R1 : run (map f (seq 0 (k + S d))) init = Some s1).
      { replace (k + S d) with (S (k + d)) by lia. rewrite seq_S, map_app, (run_app _ _ _ _ _ _ _ _ _ IHd). cbn [map p_run plus]. now rewrite E. }
      destruct (step_mu _ _ _ _ _ I E) as [(_ & ->)|L]; [right; auto|left; exists (k + S d), s1, pr1, e1; auto]. }
    assert (X : exists k' s' pr' e', run (map f (seq 0 k')) init = Some s' /\ INV s' pr' e' /\ mu s' < mu s).
    { destruct (D (j - k)) as [X|R1]; auto. replace (k + (j - k)) with j in R1 by lia.
      destruct (step_ok c sort nbs chunks lcap T cap Hwi Hwe Hst Hend Hsmall Hcap Hlcap t s pr e I) as (s1 & pr1 & e1 & E & I1).
      exists (S j), s1, pr1, e1. split; [|split; auto].
      - rewrite seq_S, map_app, (run_app _ _ _ _ _ _ _ _ _ R1). cbn [map p_run plus]. now rewrite Ej, E.
      - destruct (step_mu _ _ _ _ _ I E) as [(B & _)|L]; [contradiction|auto]. }
    destruct X as (k' & s' & pr' & e' & R' & I' & L). apply (IH (mu s') ltac:(lia) k' s' pr' e' R' I'). lia. }
  apply (G (mu init) 0 init (fun _ => SNew) 0); auto. apply init_inv.
Qed.
End Top.
