(* Parallel compression: the invariant of the concurrent part. *)
From Verif Require Import Lib.Prelude Lib.Slice Model.VarintModel Model.CompressModel Model.CompressParModel Proofs.FmRoundProofs.
Local Open Scope nat_scope.

Lemma mod_neq B a b : a < b -> b - a < B -> a mod B <> b mod B.
Proof.
  intros H1 H2 E. assert (B <> 0) by lia. pose proof (Nat.div_mod a B H). pose proof (Nat.div_mod b B H).
  assert (b - a = B * (b / B - a / B)) by nia. destruct (b / B - a / B); nia.
Qed.
Lemma wrap_s_add w a b : (0 < w)%Z -> wrap_s w (wrap_s w a + b) = wrap_s w (a + b).
Proof.
  intros Hw. unfold wrap_s. f_equal. assert (0 < 2 ^ w)%Z by (apply Z.pow_pos_nonneg; lia).
  replace ((a + 2 ^ (w - 1)) mod 2 ^ w - 2 ^ (w - 1) + b + 2 ^ (w - 1))%Z with ((a + 2 ^ (w - 1)) mod 2 ^ w + b)%Z by lia.
  rewrite Z.add_mod_idemp_l by lia. f_equal. lia.
Qed.
Lemma wrap_u_id w a : (0 <= a < 2 ^ w)%Z -> wrap_u w a = a.
Proof. intros. unfold wrap_u. now apply Z.mod_small. Qed.

(** Properties of stages. *)
Definition released (x : stage) : bool := match x with SNode _ _ | SSize _ | SCopy _ _ | STot | SDone => true | _ => false end.
Definition held (x : stage) : bool := match x with SComp | SLock | SRead | SUnl _ | SWrite _ | SRel _ => true | _ => false end.
Definition early (x : stage) : bool := match x with SComp | SLock => true | _ => false end.
Definition inner (x : stage) : bool := match x with SRead | SUnl _ => true | _ => false end.
Definition is_rel (x : stage) : bool := match x with SRel _ => true | _ => false end.
Definition sized (x : stage) : bool := match x with SCopy _ _ | STot | SDone => true | _ => false end.
Definition is_done (x : stage) : bool := match x with SDone => true | _ => false end.
Definition fupd (pr : nat -> stage) (ch : nat) (x : stage) : nat -> stage := fun i => if i =? ch then x else pr i.
Lemma fupd_same pr ch x : fupd pr ch x ch = x. Proof. unfold fupd. now rewrite Nat.eqb_refl. Qed.
Lemma fupd_other pr ch x i : i <> ch -> fupd pr ch x i = pr i.
Proof. intros. unfold fupd. destruct (Nat.eqb_spec i ch); congruence. Qed.

(** Threads and chunks. *)
Definition TH (cnt : nat) (pr : nat -> stage) (thr : list (option (nat * stage))) : Prop :=
  (forall t ch x, nth_error thr t = Some (Some (ch, x)) -> ch < cnt /\ pr ch = x /\ x <> SDone) /\
  (forall ch, ch < cnt -> pr ch <> SDone -> exists t, nth_error thr t = Some (Some (ch, pr ch))) /\
  (forall t t' ch x x', nth_error thr t = Some (Some (ch, x)) -> nth_error thr t' = Some (Some (ch, x')) -> t = t').

Lemma TH_step cnt pr thr t ch x x' : TH cnt pr thr -> nth_error thr t = Some (Some (ch, x)) -> x' <> SDone ->
  TH cnt (fupd pr ch x') (upd t (Some (ch, x')) thr).
Proof.
  intros (A & B & D) E N. assert (Ht : t < length thr) by (apply nth_error_Some; congruence). destruct (A _ _ _ E) as (Hc & Hp & Hn).
  split; [|split].
  - intros t1 c1 x1 E1. rewrite ne_upd in E1 by auto. destruct (Nat.eqb_spec t1 t) as [E2|E2].
    + injection E1 as <- <-. rewrite fupd_same. auto.
    + destruct (A _ _ _ E1) as (P1 & P2 & P3). rewrite fupd_other; auto. intros ->. apply E2. eapply D; eauto.
  - intros c1 H1 H2. destruct (Nat.eq_dec c1 ch) as [->|Hne].
    + exists t. rewrite ne_upd, Nat.eqb_refl, fupd_same by auto. reflexivity.
    + rewrite fupd_other in * by auto. destruct (B c1 H1 H2) as (t1 & E1). exists t1. rewrite ne_upd by auto.
      destruct (Nat.eqb_spec t1 t) as [E2|E2]; [congruence|auto].
  - intros t1 t2 c1 x1 x2 E1 E2. rewrite ne_upd in E1, E2 by auto. destruct (Nat.eqb_spec t1 t), (Nat.eqb_spec t2 t); subst; auto.
    + injection E1 as <- <-. eapply D; eauto.
    + injection E2 as <- <-. eapply D; eauto.
    + eapply D; eauto.
Qed.
Lemma TH_done cnt pr thr t ch x : TH cnt pr thr -> nth_error thr t = Some (Some (ch, x)) ->
  TH cnt (fupd pr ch SDone) (upd t None thr).
Proof.
  intros (A & B & D) E. assert (Ht : t < length thr) by (apply nth_error_Some; congruence). destruct (A _ _ _ E) as (Hc & Hp & Hn).
  split; [|split].
  - intros t1 c1 x1 E1. rewrite ne_upd in E1 by auto. destruct (Nat.eqb_spec t1 t) as [E2|E2]; [discriminate|].
    destruct (A _ _ _ E1) as (P1 & P2 & P3). rewrite fupd_other; auto. intros ->. apply E2. eapply D; eauto.
  - intros c1 H1 H2. destruct (Nat.eq_dec c1 ch) as [->|Hne]; [rewrite fupd_same in H2; congruence|].
    rewrite fupd_other in * by auto. destruct (B c1 H1 H2) as (t1 & E1). exists t1. rewrite ne_upd by auto.
    destruct (Nat.eqb_spec t1 t) as [E2|E2]; [congruence|auto].
  - intros t1 t2 c1 x1 x2 E1 E2. rewrite ne_upd in E1, E2 by auto. destruct (Nat.eqb_spec t1 t), (Nat.eqb_spec t2 t); subst; try discriminate.
    eapply D; eauto.
Qed.
Lemma TH_new cnt pr thr t x : TH cnt pr thr -> nth_error thr t = Some None -> x <> SDone ->
  TH (S cnt) (fupd pr cnt x) (upd t (Some (cnt, x)) thr).
Proof.
  intros (A & B & D) E N. assert (Ht : t < length thr) by (apply nth_error_Some; congruence).
  split; [|split].
  - intros t1 c1 x1 E1. rewrite ne_upd in E1 by auto. destruct (Nat.eqb_spec t1 t) as [E2|E2].
    + injection E1 as <- <-. rewrite fupd_same. repeat split; auto; lia.
    + destruct (A _ _ _ E1) as (P1 & P2 & P3). rewrite fupd_other by lia. repeat split; auto; lia.
  - intros c1 H1 H2. destruct (Nat.eq_dec c1 cnt) as [->|Hne].
    + exists t. rewrite ne_upd, Nat.eqb_refl, fupd_same by auto. reflexivity.
    + rewrite fupd_other in * by auto. destruct (B c1 ltac:(lia) H2) as (t1 & E1). exists t1. rewrite ne_upd by auto.
      destruct (Nat.eqb_spec t1 t) as [E2|E2]; [congruence|auto].
  - intros t1 t2 c1 x1 x2 E1 E2. rewrite ne_upd in E1, E2 by auto. destruct (Nat.eqb_spec t1 t), (Nat.eqb_spec t2 t); subst; auto.
    + injection E1 as <- <-. destruct (A _ _ _ E2); lia.
    + injection E2 as <- <-. destruct (A _ _ _ E1); lia.
    + eapply D; eauto.
Qed.

(** Chunks held by the threads. *)
Definition chunks_of (thr : list (option (nat * stage))) : list nat := flat_map (fun th => match th with Some (ch, _) => [ch] | None => [] end) thr.
Lemma chunks_of_le thr : length (chunks_of thr) <= length thr.
Proof. unfold chunks_of. induction thr as [|[[ch x]|] thr IH]; cbn [flat_map app length] in *; lia. Qed.
Lemma chunks_of_lt thr t : nth_error thr t = Some None -> length (chunks_of thr) < length thr.
Proof.
  revert t. induction thr as [|a thr IH]; intros [|t] H; cbn in H; try discriminate.
  - injection H as ->. cbn. pose proof (chunks_of_le thr). unfold chunks_of in *. lia.
  - specialize (IH t H). unfold chunks_of in *. cbn [flat_map length]. destruct a as [[ch x]|]; cbn [app length]; lia.
Qed.
Lemma held_range cnt pr thr e : TH cnt pr thr -> (forall ch, e <= ch < cnt -> held (pr ch) = true) -> cnt - e <= length (chunks_of thr).
Proof.
  intros (_ & B & _) H. rewrite <- (seq_length (cnt - e) e). apply NoDup_incl_length; [apply seq_NoDup|].
  intros ch Hc. apply in_seq in Hc. assert (Hh := H ch ltac:(lia)).
  destruct (B ch ltac:(lia)) as (t & E); [intros X; rewrite X in Hh; discriminate|].
  unfold chunks_of. apply in_flat_map. exists (Some (ch, pr ch)). split; [eapply nth_error_In; eauto|left; auto].
Qed.

Section Pos.
Variable T : nat.
Definition prevp (ch : nat) : nat := (ch + T) mod S T.
Lemma pos_eq s ch : length (p_buf s) = S T -> c_pos s ch = ch mod S T.
Proof. unfold c_pos. now intros ->. Qed.
Lemma prev_eq s ch : length (p_buf s) = S T -> c_prev s ch = prevp ch.
Proof.
  intros H. unfold c_prev. rewrite (pos_eq s ch H), H. unfold prevp. set (B := S T). assert (HB : B <> 0) by (unfold B; lia).
  pose proof (Nat.div_mod ch B HB). pose proof (Nat.mod_upper_bound ch B HB).
  destruct (Nat.eqb_spec (ch mod B) 0) as [E|E].
  - apply Nat.mod_unique with (q := ch / B); unfold B in *; lia.
  - apply Nat.mod_unique with (q := ch / B + 1); unfold B in *; lia.
Qed.
Lemma prevp_lt ch : prevp ch < S T. Proof. apply Nat.mod_upper_bound. lia. Qed.
Lemma prevp_S ch : prevp (S ch) = ch mod S T.
Proof. unfold prevp. replace (S ch + T) with (ch + 1 * S T) by lia. rewrite Nat.mod_add by lia. reflexivity. Qed.
Lemma mod_lt ch : ch mod S T < S T. Proof. apply Nat.mod_upper_bound. lia. Qed.
End Pos.

Section Conc.
Variable c : cconf.
Variable sort : list nbr -> list nbr.
Variable nbs : list (list nbr).
Variable chunks : list (nat * nat * Z).
Variable lcap : Z.
Variables T cap : nat.
Notation prevp := (prevp T).
Notation C := (length chunks).
Notation st := (chunk_start chunks).
Notation lo := (chunk_offs c sort nbs chunks).
Notation da := (chunk_data c sort nbs chunks).
Notation ct := (chunk_tot c sort nbs chunks).
Definition csz (ch : nat) : Z := Z.of_nat (length (da ch)).
Definition off (ch : nat) : Z := sumn ch csz.

Lemma csz_nonneg ch : (0 <= csz ch)%Z. Proof. unfold csz. lia. Qed.
Lemma off_S ch : off (S ch) = (off ch + csz ch)%Z. Proof. apply sumn_S. Qed.
Lemma off_nonneg ch : (0 <= off ch)%Z. Proof. apply sumn_nonneg. intros. apply csz_nonneg. Qed.
Lemma off_mono a b : a <= b -> (off a <= off b)%Z.
Proof. induction 1 as [|b H IH]; [lia|]. rewrite off_S. pose proof (csz_nonneg b). lia. Qed.

Hypothesis Hwi : (0 < c_wi c)%Z.
Hypothesis Hwe : (0 < c_we c)%Z.
Hypothesis Hst : forall ch ch', ch < ch' < C -> st ch + length (lo ch) <= st ch'.
Hypothesis Hend : forall ch, ch < C -> st ch + length (lo ch) <= length nbs.
Hypothesis Hsmall : (off C < 2 ^ c_wi c)%Z.
Hypothesis Hcap : (off C <= Z.of_nat cap)%Z.
Hypothesis Hlcap : forall ch, ch < C -> (csz ch <= lcap)%Z.

Definition val_ok (ch : nat) (x : stage) : Prop :=
  match x with SUnl v | SWrite v | SRel v | SNode v _ | SSize v | SCopy v _ => v = off ch | _ => True end.
Definition nodes_done (ch : nat) (x : stage) : nat :=
  match x with SNode _ i => i | SSize _ | SCopy _ _ | STot | SDone => length (lo ch) | _ => 0 end.
Definition bytes_done (ch : nat) (x : stage) : nat :=
  match x with SCopy _ j => j | STot | SDone => length (da ch) | _ => 0 end.

Record INV (s : pstate) (pr : nat -> stage) (e : nat) : Prop := mkINV {
  v_cnt : p_counter s + p_rem s = C;
  v_len : length (p_lock s) = S T /\ length (p_buf s) = S T /\ length (p_nodes s) = length nbs + 1 /\ length (p_mem s) = cap /\ length (p_thr s) = T;
  v_e : e <= p_counter s;
  v_new : forall ch, p_counter s <= ch -> pr ch = SNew;
  v_rel : forall ch, ch < e -> released (pr ch) = true;
  v_held : forall ch, e <= ch < p_counter s -> held (pr ch) = true;
  v_early : forall ch, e < ch < p_counter s -> early (pr ch) = true;
  v_thr : TH (p_counter s) pr (p_thr s);
  v_lock : forall p, p < S T -> (nth p (p_lock s) true = true <->
             (exists ch, e <= ch < p_counter s /\ ch mod S T = p) \/ (e < p_counter s /\ inner (pr e) = true /\ p = prevp e));
  v_buf : nth (prevp e) (p_buf s) 0%Z = off e /\ (e < p_counter s -> is_rel (pr e) = true -> nth (e mod S T) (p_buf s) 0%Z = off (S e));
  v_val : forall ch, ch < p_counter s -> val_ok ch (pr ch);
  v_nodes : forall ch i, ch < C -> i < nodes_done ch (pr ch) -> i < length (lo ch) ->
             nth (st ch + i) (p_nodes s) 0%Z = wrap_u (c_wi c) (off ch + nth i (lo ch) 0%Z);
  v_mem : forall ch j, ch < C -> j < bytes_done ch (pr ch) -> j < length (da ch) ->
             nth (Z.to_nat (off ch) + j) (p_mem s) None = nth_error (da ch) j;
  v_size : p_size s = sumn C (fun ch => if sized (pr ch) then csz ch else 0%Z);
  v_tot : p_tot s = wrap_s (c_we c) (sumn C (fun ch => if is_done (pr ch) then ct ch else 0%Z)) }.

Lemma cnt_bound s pr e : INV s pr e -> p_counter s - e <= T.
Proof. intros I. destruct (v_len _ _ _ I) as (_ & _ & _ & _ & L). rewrite <- L. etransitivity; [apply (held_range _ _ _ _ (v_thr _ _ _ I) (v_held _ _ _ I))|apply chunks_of_le]. Qed.
Lemma cnt_bound_idle s pr e t : INV s pr e -> nth_error (p_thr s) t = Some None -> p_counter s - e < T.
Proof.
  intros I H. destruct (v_len _ _ _ I) as (_ & _ & _ & _ & L). rewrite <- L.
  eapply Nat.le_lt_trans; [apply (held_range _ _ _ _ (v_thr _ _ _ I) (v_held _ _ _ I))|]. eapply chunks_of_lt; eauto.
Qed.

(** Changing one stage. *)
Lemma size_change pr ch x : ch < C -> sumn C (fun i => if sized (fupd pr ch x i) then csz i else 0%Z) =
  (sumn C (fun i => if sized (pr i) then csz i else 0) + ((if sized x then csz ch else 0) - (if sized (pr ch) then csz ch else 0)))%Z.
Proof.
  intros H. rewrite (sumn_change C ch _ (fun i => if sized (pr i) then csz i else 0%Z)); auto.
  - now rewrite fupd_same.
  - intros i Hi Hn. now rewrite fupd_other.
Qed.
Lemma tot_change pr ch x : ch < C -> sumn C (fun i => if is_done (fupd pr ch x i) then ct i else 0%Z) =
  (sumn C (fun i => if is_done (pr i) then ct i else 0) + ((if is_done x then ct ch else 0) - (if is_done (pr ch) then ct ch else 0)))%Z.
Proof.
  intros H. rewrite (sumn_change C ch _ (fun i => if is_done (pr i) then ct i else 0%Z)); auto.
  - now rewrite fupd_same.
  - intros i Hi Hn. now rewrite fupd_other.
Qed.

Ltac dch ch := unfold fupd; match goal with |- context [?a =? ch] => destruct (Nat.eqb_spec a ch) as [?E|?E] end.

Lemma step_ok t s pr e : INV s pr e -> exists s' pr' e', p_step c sort nbs chunks lcap t s = Some s' /\ INV s' pr' e'.
Proof.
  intros I. pose proof (cnt_bound _ _ _ I) as CB. destruct I as [Icnt Ilen Ie Inew Irel Iheld Iearly Ithr Ilock Ibuf Ival Inodes Imem Isize Itot] eqn:EI.
  clear EI. destruct Ilen as (L1 & L2 & L3 & L4 & L5). unfold p_step.
  destruct (nth_error (p_thr s) t) as [[[ch x]|]|] eqn:Et.
  2:{ (* next *)
    destruct (p_rem s) as [|rem] eqn:Er; [exists s, pr, e; auto|].
    assert (CB' := cnt_bound_idle _ _ _ _ I Et). assert (Hc : p_counter s < C) by lia.
    rewrite (pos_eq T s _ L2).
    assert (FR : nth (p_counter s mod S T) (p_lock s) true = false).
    { destruct (nth _ (p_lock s) true) eqn:E; auto. exfalso. apply Ilock in E; [|apply mod_lt].
      destruct E as [(ch & H1 & H2)|(H1 & H2 & H3)].
      - revert H2. apply mod_neq; lia.
      - unfold CompressParProofs.prevp in H3. revert H3. apply mod_neq; lia. }
    rewrite FR. eexists _, (fupd pr (p_counter s) SComp), e. split; [reflexivity|]. constructor; cbn [p_rem p_counter p_lock p_buf p_nodes p_mem p_size p_tot p_thr].
    - lia.
    - rewrite !upd_length. auto.
    - lia.
    - intros ch H. rewrite fupd_other by lia. apply Inew. lia.
    - intros ch H. rewrite fupd_other by lia. auto.
    - intros ch H. dch (p_counter s); [reflexivity|]. apply Iheld. lia.
    - intros ch H. dch (p_counter s); [reflexivity|]. apply Iearly. lia.
    - apply TH_new; auto. discriminate.
    - intros p Hp. rewrite upd_nth by lia. destruct (Nat.eqb_spec (p_counter s mod S T) p) as [E|E].
      + assert (X : (p_counter s mod S T <? length (p_lock s)) = true) by (apply Nat.ltb_lt; rewrite L1; apply mod_lt). rewrite X. cbn [andb]. split; auto. intros _. left. exists (p_counter s). split; [lia|auto].
      +        cbn [andb]; rewrite (Ilock p Hp); (split; [intros [(ch & H1 & H2)|(H1 & H2 & H3)]; [left; exists ch; split; [lia|auto]|right; rewrite fupd_other by lia; repeat split; auto; lia]|
          intros [(ch & H1 & H2)|(H1 & H2 & H3)]; [left; exists ch; split; [destruct (Nat.eq_dec ch (p_counter s)); subst; [congruence|lia]|auto]|
            right; destruct (Nat.eq_dec e (p_counter s)) as [E2|E2]; [rewrite <- E2, fupd_same in H2; discriminate|rewrite fupd_other in H2 by lia; repeat split; auto; lia]]]).
    - destruct Ibuf as [B1 B2]. split; auto. intros H1. dch (p_counter s); [discriminate|]. apply B2. lia.
    - intros ch H. dch (p_counter s); [cbn; auto|]. apply Ival. lia.
    - intros ch i H. dch (p_counter s); [cbn; lia|]. apply Inodes; auto.
    - intros ch i H. dch (p_counter s); [cbn; lia|]. apply Imem; auto.
    - rewrite size_change by auto. cbn [sized]. rewrite (Inew (p_counter s)) by lia. cbn. lia.
    - rewrite tot_change by auto. cbn [is_done]. rewrite (Inew (p_counter s)) by lia. cbn [is_done]. rewrite Itot. f_equal. lia. }
  2:{ exists s, pr, e. auto. }
  pose proof Ithr as (TA & TB & TD). destruct (TA _ _ _ Et) as (Hc & Hpr & Hnd). assert (HcC : ch < C) by lia.
  pose proof (Ival ch Hc) as HV. rewrite Hpr in HV.
  assert (HE : forall y, pr ch = y -> held y = true -> early y = false -> ch = e).
  { intros y Hy H1 H2. destruct (Nat.lt_trichotomy ch e) as [H|[H|H]]; auto.
    - specialize (Irel ch H). rewrite Hy in Irel. destruct y; discriminate.
    - specialize (Iearly ch ltac:(lia)). rewrite Hy in Iearly. congruence. }
  assert (HR : released (pr ch) = true -> ch < e).
  { intros H. destruct (Nat.lt_ge_cases ch e); auto. specialize (Iheld ch ltac:(lia)). destruct (pr ch); discriminate. }
  assert (HH : held (pr ch) = true -> e <= ch).
  { intros H. destruct (Nat.lt_ge_cases ch e); auto. specialize (Irel ch ltac:(lia)). destruct (pr ch); discriminate. }
  (* steps that only change the stage, keeping its classification *)
  destruct x as [| | | |v|v|v|v i|v|v j| |].
  - (* SNew *) exists s, pr, e. auto.
  - (* SComp *)
    destruct (Z.ltb_spec lcap (Z.of_nat (length (da ch)))) as [X|X]; [specialize (Hlcap ch HcC); unfold csz in Hlcap; lia|].
    eexists _, (fupd pr ch SLock), e. split; [reflexivity|].
    assert (He : e <= ch) by (apply HH; rewrite Hpr; auto).
    constructor; cbn [set_stage p_rem p_counter p_lock p_buf p_nodes p_mem p_size p_tot p_thr].
    + auto.
    + rewrite upd_length. auto.
    + auto.
    + intros i H. rewrite fupd_other by lia. auto.
    + intros i H. rewrite fupd_other by lia. auto.
    + intros i H. dch ch; auto.
    + intros i H. dch ch; auto.
    + eapply TH_step; eauto. discriminate.
    + intros p Hp. rewrite (Ilock p Hp). destruct (Nat.eq_dec e ch) as [E|E].
      * subst ch. rewrite fupd_same, Hpr. cbn [inner]. split; intros [H|(H1 & H2 & H3)]; try discriminate; left; auto.
      * rewrite fupd_other by auto. tauto.
    + destruct Ibuf as [B1 B2]. split; auto. intros H1. dch ch; [discriminate|auto].
    + intros i H. dch ch; [cbn; auto|auto].
    + intros i k H. dch ch; [cbn; lia|auto].
    + intros i k H. dch ch; [cbn; lia|auto].
    + rewrite size_change by auto. rewrite Hpr. cbn [sized]. lia.
    + rewrite tot_change by auto. rewrite Hpr. cbn [is_done]. rewrite Itot. f_equal. lia.
  - (* SLock *)
    rewrite (prev_eq T s _ L2). destruct (nth (prevp ch) (p_lock s) true) eqn:EL; [exists s, pr, e; auto|].
    assert (He : e <= ch) by (apply HH; rewrite Hpr; auto).
    assert (ch = e).
    { destruct (Nat.eq_dec ch e) as [|N]; auto. exfalso. assert (nth (prevp ch) (p_lock s) true = true); [|congruence].
      apply Ilock; [apply prevp_lt|]. left. exists (ch - 1). split; [lia|]. destruct ch as [|k]; [lia|]. rewrite prevp_S. f_equal. lia. }
    subst ch. eexists _, (fupd pr e SRead), e. split; [reflexivity|].
    constructor; cbn [set_stage set_locks p_rem p_counter p_lock p_buf p_nodes p_mem p_size p_tot p_thr].
    + auto.
    + rewrite !upd_length. auto.
    + auto.
    + intros i H. rewrite fupd_other by lia. auto.
    + intros i H. rewrite fupd_other by lia. auto.
    + intros i H. dch e; auto.
    + intros i H. rewrite fupd_other by lia. auto.
    + eapply TH_step; eauto. discriminate.
    + intros p Hp. rewrite fupd_same. cbn [inner]. rewrite upd_nth by (rewrite L1; apply prevp_lt).
      destruct (Nat.eqb_spec (prevp e) p) as [E|E].
      * assert (X : (prevp e <? length (p_lock s)) = true) by (apply Nat.ltb_lt; rewrite L1; apply prevp_lt). rewrite X. cbn [andb]. split; auto.
      * cbn [andb]. rewrite (Ilock p Hp), Hpr. cbn [inner]. split; [intros [H|(_ & H & _)]; [auto|discriminate]|].
        intros [H|(_ & _ & H)]; [auto|congruence].
    + destruct Ibuf as [B1 B2]. split; auto. rewrite fupd_same. discriminate.
    + intros i H. dch e; [cbn; auto|auto].
    + intros i k H. dch e; [cbn; lia|auto].
    + intros i k H. dch e; [cbn; lia|auto].
    + rewrite size_change by auto. rewrite Hpr. cbn [sized]. lia.
    + rewrite tot_change by auto. rewrite Hpr. cbn [is_done]. rewrite Itot. f_equal. lia.
  - (* SRead *)
    assert (ch = e) by (eapply HE; eauto). subst ch. rewrite (prev_eq T s _ L2). destruct Ibuf as [B1 B2]. rewrite B1.
    eexists _, (fupd pr e (SUnl (off e))), e. split; [reflexivity|].
    constructor; cbn [set_stage p_rem p_counter p_lock p_buf p_nodes p_mem p_size p_tot p_thr].
    + auto.
    + rewrite !upd_length. auto.
    + auto.
    + intros i H. rewrite fupd_other by lia. auto.
    + intros i H. rewrite fupd_other by lia. auto.
    + intros i H. dch e; auto.
    + intros i H. rewrite fupd_other by lia. auto.
    + eapply TH_step; eauto. discriminate.
    + intros p Hp. rewrite fupd_same. rewrite (Ilock p Hp), Hpr. cbn [inner]. tauto.
    + split; auto. rewrite fupd_same. discriminate.
    + intros i H. dch e; [subst; cbn; auto|auto].
    + intros i k H. dch e; [cbn; lia|auto].
    + intros i k H. dch e; [cbn; lia|auto].
    + rewrite size_change by auto. rewrite Hpr. cbn [sized]. lia.
    + rewrite tot_change by auto. rewrite Hpr. cbn [is_done]. rewrite Itot. f_equal. lia.
  - (* SUnl *)
    assert (ch = e) by (eapply HE; eauto). subst ch. rewrite (prev_eq T s _ L2). cbn in HV. subst v.
    eexists _, (fupd pr e (SWrite (off e))), e. split; [reflexivity|].
    constructor; cbn [set_stage set_locks p_rem p_counter p_lock p_buf p_nodes p_mem p_size p_tot p_thr].
    + auto.
    + rewrite !upd_length. auto.
    + auto.
    + intros i H. rewrite fupd_other by lia. auto.
    + intros i H. rewrite fupd_other by lia. auto.
    + intros i H. dch e; auto.
    + intros i H. rewrite fupd_other by lia. auto.
    + eapply TH_step; eauto. discriminate.
    + intros p Hp. rewrite fupd_same. cbn [inner]. rewrite upd_nth by (rewrite L1; apply prevp_lt).
      destruct (Nat.eqb_spec (prevp e) p) as [E|E].
      * assert (X : (prevp e <? length (p_lock s)) = true) by (apply Nat.ltb_lt; rewrite L1; apply prevp_lt). rewrite X. cbn [andb]. split; [discriminate|].
        intros [(ch & H1 & H2)|(_ & H & _)]; [|discriminate]. exfalso. subst p. unfold CompressParProofs.prevp in H2. revert H2. apply mod_neq; lia.
      * cbn [andb]. rewrite (Ilock p Hp), Hpr. cbn [inner]. split; [intros [H|(_ & _ & H)]; [auto|congruence]|].
        intros [H|(_ & H & _)]; [auto|discriminate].
    + destruct Ibuf as [B1 B2]. split; auto. rewrite fupd_same. discriminate.
    + intros i H. dch e; [subst; cbn; auto|auto].
    + intros i k H. dch e; [cbn; lia|auto].
    + intros i k H. dch e; [cbn; lia|auto].
    + rewrite size_change by auto. rewrite Hpr. cbn [sized]. lia.
    + rewrite tot_change by auto. rewrite Hpr. cbn [is_done]. rewrite Itot. f_equal. lia.
  - (* SWrite *)
    assert (ch = e) by (eapply HE; eauto). subst ch. rewrite (pos_eq T s _ L2). cbn in HV. subst v.
    assert (W : wrap_u (c_wi c) (off e + wrap_u (c_wi c) (Z.of_nat (length (da e)))) = off (S e)).
    { pose proof (off_mono (S e) C ltac:(lia)). rewrite off_S in *. fold (csz e). pose proof (off_nonneg e). pose proof (csz_nonneg e).
      rewrite (wrap_u_id _ (csz e)) by lia. apply wrap_u_id. lia. }
    rewrite W. eexists _, (fupd pr e (SRel (off e))), e. split; [reflexivity|].
    constructor; cbn [set_stage p_rem p_counter p_lock p_buf p_nodes p_mem p_size p_tot p_thr].
    + auto.
    + rewrite !upd_length. auto.
    + auto.
    + intros i H. rewrite fupd_other by lia. auto.
    + intros i H. rewrite fupd_other by lia. auto.
    + intros i H. dch e; auto.
    + intros i H. rewrite fupd_other by lia. auto.
    + eapply TH_step; eauto. discriminate.
    + intros p Hp. rewrite fupd_same. rewrite (Ilock p Hp), Hpr. cbn [inner]. tauto.
    + destruct Ibuf as [B1 B2]. split.
      * rewrite upd_nth_other; auto. unfold CompressParProofs.prevp. apply mod_neq; lia.
      * intros _ _. rewrite upd_nth_same; auto. rewrite L2. apply mod_lt.
    + intros i H. dch e; [subst; cbn; auto|auto].
    + intros i k H. dch e; [cbn; lia|auto].
    + intros i k H. dch e; [cbn; lia|auto].
    + rewrite size_change by auto. rewrite Hpr. cbn [sized]. lia.
    + rewrite tot_change by auto. rewrite Hpr. cbn [is_done]. rewrite Itot. f_equal. lia.
  - (* SRel *)
    assert (ch = e) by (eapply HE; eauto). subst ch. rewrite (pos_eq T s _ L2). cbn in HV. subst v.
    eexists _, (fupd pr e (SNode (off e) 0)), (S e). split; [reflexivity|].
    constructor; cbn [set_stage set_locks p_rem p_counter p_lock p_buf p_nodes p_mem p_size p_tot p_thr].
    + auto.
    + rewrite !upd_length. auto.
    + lia.
    + intros i H. rewrite fupd_other by lia. auto.
    + intros i H. dch e; auto. apply Irel. lia.
    + intros i H. rewrite fupd_other by lia. apply Iheld. lia.
    + intros i H. rewrite fupd_other by lia. apply Iearly. lia.
    + eapply TH_step; eauto. discriminate.
    + intros p Hp. rewrite fupd_other by lia. rewrite upd_nth by (rewrite L1; apply mod_lt).
      assert (NI : S e < p_counter s -> inner (pr (S e)) = false) by (intros H; specialize (Iearly (S e) ltac:(lia)); destruct (pr (S e)); auto; discriminate).
      destruct (Nat.eqb_spec (e mod S T) p) as [E|E].
      * assert (X : (e mod S T <? length (p_lock s)) = true) by (apply Nat.ltb_lt; rewrite L1; apply mod_lt). rewrite X. cbn [andb]. split; [discriminate|].
        intros [(ch & H1 & H2)|(H1 & H2 & _)]; [|rewrite NI in H2 by auto; discriminate]. exfalso. subst p. symmetry in H2. revert H2. apply mod_neq; lia.
      * cbn [andb]. rewrite (Ilock p Hp), Hpr. cbn [inner]. split.
        -- intros [(ch & H1 & H2)|(_ & H & _)]; [left; exists ch; split; auto; destruct (Nat.eq_dec ch e); [subst; congruence|lia]|discriminate].
        -- intros [(ch & H1 & H2)|(H1 & H2 & _)]; [left; exists ch; split; auto; lia|rewrite NI in H2 by auto; discriminate].
    + destruct Ibuf as [B1 B2]. split.
      * rewrite prevp_S. apply B2; auto. rewrite Hpr. auto.
      * intros H1 H2. rewrite fupd_other in H2 by lia. specialize (Iearly (S e) ltac:(lia)). destruct (pr (S e)); discriminate.
    + intros i H. dch e; [subst; cbn; auto|auto].
    + intros i k H. dch e; [cbn; lia|auto].
    + intros i k H. dch e; [cbn; lia|auto].
    + rewrite size_change by auto. rewrite Hpr. cbn [sized]. lia.
    + rewrite tot_change by auto. rewrite Hpr. cbn [is_done]. rewrite Itot. f_equal. lia.
  - (* SNode *)
    assert (He : ch < e) by (apply HR; rewrite Hpr; auto). cbn in HV. subst v.
    destruct (nth_error (lo ch) i) as [o|] eqn:Eo.
    + assert (Hi : i < length (lo ch)) by (apply nth_error_Some; congruence).
      eexists _, (fupd pr ch (SNode (off ch) (S i))), e. split; [reflexivity|].
      constructor; cbn [set_stage p_rem p_counter p_lock p_buf p_nodes p_mem p_size p_tot p_thr].
      * auto.
      * rewrite !upd_length. auto.
      * auto.
      * intros k H. rewrite fupd_other by lia. auto.
      * intros k H. dch ch; auto.
      * intros k H. rewrite fupd_other by lia. auto.
      * intros k H. rewrite fupd_other by lia. auto.
      * eapply TH_step; eauto. discriminate.
      * intros p Hp. rewrite fupd_other by lia. auto.
      * rewrite fupd_other by lia. auto.
      * intros k H. dch ch; [subst; cbn; auto|auto].
      * intros k q H. pose proof (Hend ch HcC) as Z1. pose proof (Hend k H) as Z2. dch ch.
        -- subst k. cbn [nodes_done]. intros H1 H2. destruct (Nat.eq_dec q i) as [->|N].
           ++ rewrite upd_nth_same by lia. f_equal. f_equal. symmetry. now apply nth_error_nth.
           ++ rewrite upd_nth_other by lia. apply Inodes; auto. rewrite Hpr. cbn. lia.
        -- intros H1 H2. rewrite upd_nth_other; auto. destruct (Nat.lt_trichotomy k ch) as [H3|[H3|H3]]; [|lia|].
           ++ pose proof (Hst k ch ltac:(lia)). lia.
           ++ pose proof (Hst ch k ltac:(lia)). lia.
      * intros k q H. dch ch; [cbn; lia|auto].
      * rewrite size_change by auto. rewrite Hpr. cbn [sized]. lia.
      * rewrite tot_change by auto. rewrite Hpr. cbn [is_done]. rewrite Itot. f_equal. lia.
    + apply nth_error_None in Eo. eexists _, (fupd pr ch (SSize (off ch))), e. split; [reflexivity|].
      constructor; cbn [set_stage p_rem p_counter p_lock p_buf p_nodes p_mem p_size p_tot p_thr].
      * auto.
      * rewrite !upd_length. auto.
      * auto.
      * intros k H. rewrite fupd_other by lia. auto.
      * intros k H. dch ch; auto.
      * intros k H. rewrite fupd_other by lia. auto.
      * intros k H. rewrite fupd_other by lia. auto.
      * eapply TH_step; eauto. discriminate.
      * intros p Hp. rewrite fupd_other by lia. auto.
      * rewrite fupd_other by lia. auto.
      * intros k H. dch ch; [subst; cbn; auto|auto].
      * intros k q H. dch ch; [subst k; intros H1 H2; apply Inodes; auto; rewrite Hpr; cbn; lia|auto].
      * intros k q H. dch ch; [cbn; lia|auto].
      * rewrite size_change by auto. rewrite Hpr. cbn [sized]. lia.
      * rewrite tot_change by auto. rewrite Hpr. cbn [is_done]. rewrite Itot. f_equal. lia.
  - (* SSize *)
    assert (He : ch < e) by (apply HR; rewrite Hpr; auto). cbn in HV. subst v.
    assert (SB : (p_size s + csz ch <= off C)%Z).
    { rewrite Isize. unfold off. assert (X := size_change pr ch (SCopy 0 0) HcC). rewrite Hpr in X. cbn [sized] in X.
      rewrite Z.sub_0_r in X. rewrite <- X. apply sumn_le. intros k Hk. pose proof (csz_nonneg k). destruct (sized _); lia. }
    assert (S0 : (0 <= p_size s)%Z).
    { rewrite Isize. apply sumn_nonneg. intros k Hk. pose proof (csz_nonneg k). destruct (sized _); lia. }
    assert (W : wrap_u (c_wi c) (p_size s + wrap_u (c_wi c) (Z.of_nat (length (da ch)))) = (p_size s + csz ch)%Z).
    { fold (csz ch). pose proof (csz_nonneg ch). rewrite (wrap_u_id _ (csz ch)) by lia. apply wrap_u_id. lia. }
    rewrite W. eexists _, (fupd pr ch (SCopy (off ch) 0)), e. split; [reflexivity|].
    constructor; cbn [set_stage p_rem p_counter p_lock p_buf p_nodes p_mem p_size p_tot p_thr].
    + auto.
    + rewrite !upd_length. auto.
    + auto.
    + intros k H. rewrite fupd_other by lia. auto.
    + intros k H. dch ch; auto.
    + intros k H. rewrite fupd_other by lia. auto.
    + intros k H. rewrite fupd_other by lia. auto.
    + eapply TH_step; eauto. discriminate.
    + intros p Hp. rewrite fupd_other by lia. auto.
    + rewrite fupd_other by lia. auto.
    + intros k H. dch ch; [subst; cbn; auto|auto].
    + intros k q H. dch ch; [subst k; intros H1 H2; apply Inodes; auto; rewrite Hpr; cbn; lia|auto].
    + intros k q H. dch ch; [cbn; lia|auto].
    + rewrite size_change by auto. rewrite Hpr. cbn [sized]. lia.
    + rewrite tot_change by auto. rewrite Hpr. cbn [is_done]. rewrite Itot. f_equal. lia.
  - (* SCopy *)
    assert (He : ch < e) by (apply HR; rewrite Hpr; auto). cbn in HV. subst v.
    pose proof (off_nonneg ch). pose proof (off_mono (S ch) C ltac:(lia)) as OM. rewrite off_S in OM.
    destruct (nth_error (da ch) j) as [b|] eqn:Eo.
    + assert (Hj : j < length (da ch)) by (apply nth_error_Some; congruence).
      assert (X : (Z.to_nat (off ch) + j <? length (p_mem s)) = true) by (apply Nat.ltb_lt; rewrite L4; unfold csz in OM; lia).
      rewrite X. eexists _, (fupd pr ch (SCopy (off ch) (S j))), e. split; [reflexivity|].
      constructor; cbn [set_stage p_rem p_counter p_lock p_buf p_nodes p_mem p_size p_tot p_thr].
      * auto.
      * rewrite !upd_length. auto.
      * auto.
      * intros k H1. rewrite fupd_other by lia. auto.
      * intros k H1. dch ch; auto.
      * intros k H1. rewrite fupd_other by lia. auto.
      * intros k H1. rewrite fupd_other by lia. auto.
      * eapply TH_step; eauto. discriminate.
      * intros p Hp. rewrite fupd_other by lia. auto.
      * rewrite fupd_other by lia. auto.
      * intros k H1. dch ch; [subst; cbn; auto|auto].
      * intros k q H1. dch ch; [subst k; intros H2 H3; apply Inodes; auto; rewrite Hpr; cbn; lia|auto].
      * apply Nat.ltb_lt in X. intros k q H1. dch ch.
        -- subst k. cbn [bytes_done]. intros H2 H3. destruct (Nat.eq_dec q j) as [->|N].
           ++ rewrite upd_nth_same by lia. auto.
           ++ rewrite upd_nth_other by lia. apply Imem; auto. rewrite Hpr. cbn. lia.
        -- intros H2 H3. rewrite upd_nth_other; auto. pose proof (off_nonneg k). unfold csz in OM.
           destruct (Nat.lt_trichotomy k ch) as [H5|[H5|H5]]; [|lia|].
           ++ pose proof (off_mono (S k) ch ltac:(lia)) as O2. rewrite off_S in O2. unfold csz in O2. lia.
           ++ pose proof (off_mono (S ch) k ltac:(lia)) as O2. rewrite off_S in O2. unfold csz in O2. lia.
      * rewrite size_change by auto. rewrite Hpr. cbn [sized]. lia.
      * rewrite tot_change by auto. rewrite Hpr. cbn [is_done]. rewrite Itot. f_equal. lia.
    + apply nth_error_None in Eo. eexists _, (fupd pr ch STot), e. split; [reflexivity|].
      constructor; cbn [set_stage p_rem p_counter p_lock p_buf p_nodes p_mem p_size p_tot p_thr].
      * auto.
      * rewrite !upd_length. auto.
      * auto.
      * intros k H1. rewrite fupd_other by lia. auto.
      * intros k H1. dch ch; auto.
      * intros k H1. rewrite fupd_other by lia. auto.
      * intros k H1. rewrite fupd_other by lia. auto.
      * eapply TH_step; eauto. discriminate.
      * intros p Hp. rewrite fupd_other by lia. auto.
      * rewrite fupd_other by lia. auto.
      * intros k H1. dch ch; [subst; cbn; auto|auto].
      * intros k q H1. dch ch; [subst k; intros H2 H3; apply Inodes; auto; rewrite Hpr; cbn; lia|auto].
      * intros k q H1. dch ch; [subst k; intros H2 H3; apply Imem; auto; rewrite Hpr; cbn; lia|auto].
      * rewrite size_change by auto. rewrite Hpr. cbn [sized]. lia.
      * rewrite tot_change by auto. rewrite Hpr. cbn [is_done]. rewrite Itot. f_equal. lia.
  - (* STot *)
    assert (He : ch < e) by (apply HR; rewrite Hpr; auto).
    eexists _, (fupd pr ch SDone), e. split; [reflexivity|].
    constructor; cbn [set_stage p_rem p_counter p_lock p_buf p_nodes p_mem p_size p_tot p_thr].
    + auto.
    + rewrite !upd_length. auto.
    + auto.
    + intros k H1. rewrite fupd_other by lia. auto.
    + intros k H1. dch ch; auto.
    + intros k H1. rewrite fupd_other by lia. auto.
    + intros k H1. rewrite fupd_other by lia. auto.
    + eapply TH_done; eauto.
    + intros p Hp. rewrite fupd_other by lia. auto.
    + rewrite fupd_other by lia. auto.
    + intros k H1. dch ch; [subst; cbn; auto|auto].
    + intros k q H1. dch ch; [subst k; intros H2 H3; apply Inodes; auto; rewrite Hpr; cbn; lia|auto].
    + intros k q H1. dch ch; [subst k; intros H2 H3; apply Imem; auto; rewrite Hpr; cbn; lia|auto].
    + rewrite size_change by auto. rewrite Hpr. cbn [sized]. lia.
    + rewrite tot_change by auto. rewrite Hpr. cbn [is_done]. rewrite Itot, wrap_s_add by lia. f_equal. lia.
  - (* SDone *) congruence.
Qed.
End Conc.
