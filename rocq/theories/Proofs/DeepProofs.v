(* Block counts and labels during uncoarsening. *)
From Verif Require Import Lib.Prelude Spec.Induced Spec.ExtendSpec Spec.Level Model.MathModel Model.PartUtilsModel Model.SubgraphModel Model.ExtendModel Model.DeepModel
  Proofs.PartUtilsProofs Proofs.SubgraphPar Proofs.FinalK Proofs.ExtendBase Proofs.ExtendStep Proofs.ExtendTop.

Lemma pow_nat_N e : exists l, N.to_nat (2 ^ e) = 2 ^ l.
Proof. exists (N.to_nat e). rewrite <- (N2Nat.id e) at 1. rewrite <- pow_N_nat. apply Nat2N.id. Qed.

Lemma k_for_n_ok n c k : 2 <= k -> (N.of_nat k < 2 ^ 31)%N -> 1 <= c -> (N.of_nat (n / c) <= 2 ^ 31)%N ->
  exists d, k_for_n n c k = Some d /\ 2 <= d /\ level_ok d k /\ (d = k \/ n / c <= d).
Proof.
  intros H2 Hk Hc Hn. unfold k_for_n.
  destruct (k_for_n_spec (N.of_nat n) (N.of_nat c) (N.of_nat k)) as (d & E & B & L & Q); try lia.
  rewrite E. exists (N.to_nat d). split; [reflexivity|]. split; [lia|]. split.
  - split; [lia|]. split; [lia|]. destruct L as [->|(e & ->)]; [right; lia|left; apply pow_nat_N].
  - destruct Q as [->|Q]; [left; lia|right]. rewrite <- Nat2N.inj_div in Q. lia.
Qed.

Lemma last_cons {A} (x : A) l d : last (x :: l) d = last l x.
Proof. revert x d. induction l as [|y l IH]; intros x d; auto. rewrite (IH y x), <- (IH y d). reflexivity. Qed.

(** ** Uncoarsening *)
Section Deep.
Context {M : Type}.
Variables (ext : nat -> lgraph -> M -> list nat -> nat -> nat -> option (M * list nat))
          (refine : nat -> nat -> lgraph -> nat -> list nat -> list nat) (c k : nat) (refine_after : bool).
Variables (J : lgraph -> M -> Prop) (next : lgraph -> lgraph -> Prop).
Hypothesis Hk2 : 2 <= k.
Hypothesis Hk31 : (N.of_nat k < 2 ^ 31)%N.
Hypothesis Hc : 1 <= c.
Hypothesis Hnext : forall g g' mem, next g g' -> J g mem -> J g' mem.
Hypothesis Hrefine : forall lvl ph g kp part, labelled g kp part -> labelled g kp (refine lvl ph g kp part).

(** What extending needs to guarantee on the graphs of the hierarchy. *)
Definition ext_ok (G : lgraph -> Prop) : Prop := forall lvl g mem part l desired, G g -> lg_ok g -> J g mem -> labelled g (2 ^ l) part ->
  2 ^ l <= desired -> level_ok desired k ->
  exists mem' part', ext lvl g mem part (2 ^ l) desired = Some (mem', part') /\ J g mem' /\ refines part part' desired.

Lemma project_ok g part map kp : labelled g kp part -> (forall x, In x map -> x < length g) ->
  exists part', project part map = Some part' /\ length part' = length map /\ (forall x, In x part' -> x < kp) /\
    forall u, u < length map -> nth u part' 0 = nth (nth u map 0) part 0.
Proof.
  intros (L & B) H. unfold project. destruct (all_some_map (nth_error part) 0 map) as (r & E & Lr & Em).
  { intros x Hx. apply nth_error_Some. rewrite L. auto. }
  assert (Hn : forall u, u < length map -> nth u r 0 = nth (nth u map 0) part 0).
  { intros u Hu. assert (E1 := f_equal (fun l => nth_error l u) Em). cbn beta in E1. rewrite !nth_error_map in E1.
    rewrite (nth_error_nth' map 0) in E1 by auto. rewrite (nth_error_nth' r 0) in E1 by lia. cbn [option_map] in E1.
    injection E1 as E1. symmetry. now apply nth_error_nth. }
  exists r. repeat split; auto. intros x Hx. destruct (In_nth r x 0 Hx) as (u & Hu & <-). rewrite Hn by lia.
  apply B, nth_In. rewrite L. apply H, nth_In. lia.
Qed.

Definition st_ok (g : lgraph) (st : @dstate M) : Prop :=
  let '(g', mem, part, kp, _, tr) := st in g' = g /\ lg_ok g /\ J g mem /\ labelled g kp part /\ level_ok kp k /\ (forall x, In x tr -> level_ok x k).

Lemma lt_level_pow kp d : level_ok kp k -> d <= k -> kp < d -> exists l, kp = 2 ^ l.
Proof. intros (_ & _ & [H|H]) Hd Hlt; auto. lia. Qed.

Lemma uncoarsen_loop_ok G : ext_ok G -> forall lvs g st, levels_ok c next g lvs -> (forall lv, In lv lvs -> G (lv_g lv)) -> st_ok g st ->
  exists st', uncoarsen_loop ext refine c k refine_after lvs st = Some st' /\ st_ok (finest g lvs) st'.
Proof.
  intros Hext. induction lvs as [|lv rest IH]; intros g st Hl HG Hst.
  - exists st. auto.
  - destruct Hl as (L1 & L2 & L3 & L4 & L5 & L6). cbn [uncoarsen_loop].
    assert (Hfin : finest g (lv :: rest) = finest (lv_g lv) rest).
    { unfold finest. cbn [map]. apply last_cons. }
    rewrite Hfin.
    destruct st as [[[[[g' mem] part] kp] rf] tr]. destruct Hst as (-> & S1 & S2 & S3 & S4 & S5).
    unfold uncoarsen_step.
    destruct (project_ok g part (lv_map lv) kp S3 L4) as (p1 & E1 & P1 & P2 & _). rewrite E1.
    assert (Lab1 : labelled (lv_g lv) kp p1) by (split; [congruence|auto]).
    apply (Hrefine (length rest) 0) in Lab1. set (p2 := refine (length rest) 0 (lv_g lv) kp p1) in *.
    destruct (k_for_n_ok (length (lv_g lv)) c k Hk2 Hk31 Hc L2) as (d & Ed & D1 & D2 & D3). rewrite Ed.
    assert (Jn : J (lv_g lv) mem) by (eapply Hnext; eauto).
    destruct (Nat.ltb_spec kp d) as [Hlt|Hge].
    + destruct D2 as (D21 & D22 & D23). destruct (lt_level_pow kp d S4 D22 Hlt) as (l & ->).
      destruct (Hext (length rest) (lv_g lv) mem p2 l d) as (m' & p3 & Ee & Jm & (R1 & R2 & _)); auto; try lia.
      { apply HG; left; auto. } { split; auto. }
      rewrite Ee. apply IH; auto; [intros; apply HG; right; auto|].
      assert (Lab3 : labelled (lv_g lv) d p3) by (split; [destruct Lab1; congruence|auto]).
      assert (LD : level_ok d k) by (split; auto).
      split; [reflexivity|]. split; [exact L1|]. split; [exact Jm|]. split; [|split; [exact LD|]].
      * destruct refine_after; [apply Hrefine; exact Lab3|exact Lab3].
      * intros x [<-|Hx]; auto.
    + apply IH; auto; [intros; apply HG; right; auto|].
      split; [reflexivity|]. split; [exact L1|]. split; [exact Jn|]. split; [exact Lab1|]. split; [exact S4|exact S5].
Qed.

Theorem uncoarsen_ok (G : lgraph -> Prop) lvs g mem part kp : ext_ok G -> levels_ok c next g lvs -> G g -> (forall lv, In lv lvs -> G (lv_g lv)) ->
  lg_ok g -> J g mem -> labelled g kp part -> level_ok kp k ->
  exists mem' part' tr, uncoarsen ext refine c k refine_after lvs g mem part kp = Some (finest g lvs, mem', part', k, true, tr) /\
    labelled (finest g lvs) k part' /\ forall x, In x tr -> level_ok x k.
Proof.
  intros Hext Hl Hg HG Hok Hj Hlab Hlv.
  destruct (uncoarsen_loop_ok G Hext lvs g (g, mem, part, kp, false, [kp]) Hl HG) as (st' & E & S').
  { split; [reflexivity|]. split; [exact Hok|]. split; [exact Hj|]. split; [exact Hlab|]. split; [exact Hlv|].
    intros x [<-|[]]; auto. }
  unfold uncoarsen. rewrite E. destruct st' as [[[[[g' m'] p'] kp'] rf] tr]. destruct S' as (-> & S1 & S2 & S3 & S4 & S5).
  set (p1 := if rf then p' else refine 0 2 (finest g lvs) kp' p').
  assert (Lab1 : labelled (finest g lvs) kp' p1) by (unfold p1; destruct rf; [auto|apply Hrefine; auto]).
  assert (Gf : G (finest g lvs)).
  { unfold finest. clear - Hg HG. revert g Hg. induction lvs as [|lv rest IH]; intros g Hg; auto. cbn [map].
    rewrite last_cons. apply IH; [intros; apply HG; right; auto|apply HG; left; auto]. }
  destruct (Nat.ltb_spec kp' k) as [Hlt|Hge].
  - destruct (lt_level_pow kp' k S4 (le_n k) Hlt) as (l & ->).
    assert (LK : level_ok k k) by (split; [lia|split; [lia|right; auto]]).
    destruct (Hext 0 (finest g lvs) m' p1 l k) as (m2 & p2 & Ee & Jm & (R1 & R2 & _)); auto; try lia.
    rewrite Ee. do 3 eexists. split; [reflexivity|]. split.
    + apply Hrefine. split; [destruct Lab1; congruence|auto].
    + intros x [<-|Hx]; auto.
  - assert (kp' = k) by (destruct S4 as (_ & H & _); lia). subst kp'.
    do 3 eexists. split; [reflexivity|]. auto.
Qed.
End Deep.

(** ** Lazy extraction *)
Theorem deep_lazy_ok ub k factor threads last_lvl nthreads choices tid refine c refine_after lvs g mems part kp :
  2 <= k -> (N.of_nat k < 2 ^ 31)%N -> 1 <= c -> (factor = 0 \/ exists j, 1 <= j /\ factor = 2 ^ j) ->
  (forall lvl g kp, choice_ok g kp (choices lvl g kp)) -> (forall b, tid b < nthreads) -> length mems = nthreads ->
  (forall lvl ph g kp part, labelled g kp part -> labelled g kp (refine lvl ph g kp part)) ->
  (forall m, In m mems -> lazy_mem_ok (lg_is_nw g) (lg_is_ew g) m) ->
  levels_ok c weights_carry g lvs -> lg_ok g -> labelled g kp part -> level_ok kp k ->
  exists mems' part' tr,
    uncoarsen (ext_lazy ub k factor threads last_lvl nthreads choices tid) refine c k refine_after lvs g mems part kp =
      Some (finest g lvs, mems', part', k, true, tr) /\
    labelled (finest g lvs) k part' /\ forall x, In x tr -> level_ok x k.
Proof.
  intros Hk2 Hk31 Hc Hf Hch Ht Lm Hr Hm Hl Hok Hlab Hlv.
  apply (uncoarsen_ok _ refine c k refine_after
     (fun g ms => length ms = nthreads /\ forall m, In m ms -> lazy_mem_ok (lg_is_nw g) (lg_is_ew g) m) weights_carry Hk2 Hk31 Hc) with (G := fun _ => True); auto.
  - intros g1 g2 ms (W1 & W2) (L & H). split; auto. intros m Hin. destruct (H m Hin) as (A & B). split; auto.
  - intros lvl g1 ms p l desired _ Hok1 (L & H) (Lp & Bp) Hle Hd. unfold ext_lazy.
    destruct (extend_lazy_partition_ok ub g1 k factor threads (choices lvl g1) tid ms p l desired) as (ms' & p' & E & L' & H' & R); auto.
    { intros b. rewrite L. auto. }
    rewrite E. do 2 eexists. split; [reflexivity|]. split; auto.
    destruct (lvl =? last_lvl); [|split; [congruence|auto]].
    split; [apply repeat_length|]. intros m Hin. apply repeat_spec in Hin. subst m. split; intros _; cbn; lia.
Qed.

(** ** Asynchronous initial partitioning *)
Lemma num_copies_pow c n conv a : 1 <= c -> n <= c * 2 ^ 30 ->
  exists t', async_threads c n conv (2 ^ a) = Some t' /\ exists a', t' = 2 ^ a'.
Proof.
  intros Hc Hn. unfold async_threads, num_copies. assert (P := pow2_pos a).
  destruct (conv || (n <=? 2 * c)) eqn:E.
  - exists 1. split; [|exists 0; auto]. destruct (2 ^ a) eqn:E2; [lia|]. rewrite Nat.div_same; auto.
  - destruct (Nat.eqb_spec c 0); [lia|].
    set (q := ((N.of_nat n + N.of_nat c - 1) / N.of_nat c)%N).
    assert (Hq : (q <= 2 ^ 30)%N).
    { unfold q. assert (q < 2 ^ 30 + 1)%N; [|lia]. apply N.div_lt_upper_bound; [lia|].
      assert (E3 := pow_N_nat 30). assert (N.of_nat n <= N.of_nat c * N.of_nat (2 ^ 30))%N by lia. rewrite E3 in H. 
      change (2 ^ N.of_nat 30)%N with (2 ^ 30)%N in H. lia. }
    assert (He : (N.log2_up q <= 30)%N) by (rewrite <- (N.log2_up_pow2 30) by lia; apply N.log2_up_le_mono; auto).
    destruct (N.leb_spec 31 (N.log2_up q)); [lia|].
    set (e := N.to_nat (N.log2_up q)).
    destruct (Nat.ltb_spec (2 ^ a) (2 ^ e)) as [Hlt|Hge].
    + exists (2 ^ a). split; eauto. rewrite Nat.div_1_r. auto.
    + assert (e <= a) by (apply (Nat.pow_le_mono_r_iff 2); lia).
      assert (Ea : 2 ^ a = 2 ^ (a - e) * 2 ^ e) by (rewrite <- Nat.pow_add_r; f_equal; lia).
      assert (Q : 2 ^ a / 2 ^ e = 2 ^ (a - e)) by (rewrite Ea; apply Nat.div_mul, Nat.pow_nonzero; lia).
      assert (R : 2 ^ a / 2 ^ (a - e) = 2 ^ e) by (rewrite Ea, Nat.mul_comm; apply Nat.div_mul, Nat.pow_nonzero; lia).
      rewrite Q. assert (Pe := pow2_pos (a - e)). destruct (2 ^ (a - e)) eqn:E4; [lia|]. rewrite R. eauto.
Qed.

Lemma async_k_ok c k sizes conv : 2 <= k -> (N.of_nat k < 2 ^ 31)%N -> 1 <= c -> (forall d, sizes d <= c * 2 ^ 30) ->
  forall fuel depth a r, async_k fuel c k sizes conv depth (2 ^ a) = Some r -> 2 <= r /\ level_ok r k.
Proof.
  intros H2 Hk Hc Hs. induction fuel as [|fuel IH]; intros depth a r E; [discriminate|]. cbn [async_k] in E.
  destruct (Nat.eqb_spec (2 ^ a) 1) as [E1|E1].
  - injection E as <-. split; auto. split; [lia|]. split; auto. left. exists 1. reflexivity.
  - destruct (num_copies_pow c (sizes (S depth)) (conv (S depth)) a Hc (Hs _)) as (t' & Et & a' & ->). rewrite Et in E.
    destruct (async_k fuel c k sizes conv (S depth) (2 ^ a')) as [kc|] eqn:Ek; [|discriminate].
    destruct (IH _ _ _ Ek) as (K1 & K2).
    destruct (k_for_n_ok (sizes depth) c k H2 Hk Hc) as (kn & En & N1 & N2 & _).
    { assert (sizes depth / c <= 2 ^ 30) by (apply Nat.div_le_upper_bound; [lia|apply Hs]).
      assert (P := pow_N_nat 30). assert (N.of_nat (sizes depth / c) <= N.of_nat (2 ^ 30))%N by lia. rewrite P in H0.
      change (2 ^ N.of_nat 30)%N with (2 ^ 30)%N in H0. lia. }
    rewrite En in E. assert (P := pow2_pos a).
    assert (LM : level_ok (Nat.min k (Nat.max kn (2 ^ a))) k).
    { destruct N2 as (A1 & A2 & A3). destruct (Nat.min_spec k (Nat.max kn (2 ^ a))) as [(B1 & ->)|(B1 & ->)].
      - split; [lia|]. split; [lia|]. right; auto.
      - split; [lia|]. split; [lia|]. destruct (Nat.max_spec kn (2 ^ a)) as [(B2 & ->)|(B2 & ->)]; eauto. }
    destruct (Nat.ltb_spec kc (Nat.min k (Nat.max kn (2 ^ a)))); injection E as <-; split; auto. lia.
Qed.

Lemma async_k_total c k sizes conv : 2 <= k -> (N.of_nat k < 2 ^ 31)%N -> 1 <= c -> (forall d, sizes d <= c * 2 ^ 30) ->
  (forall d, conv (S d) = false -> sizes (S d) < sizes d) ->
  forall fuel depth a, sizes depth + 2 <= fuel -> exists r, async_k fuel c k sizes conv depth (2 ^ a) = Some r.
Proof.
  intros H2 Hk Hc Hs Hsh.
  assert (KN : forall d, exists kn, k_for_n (sizes d) c k = Some kn).
  { intros d. destruct (k_for_n_ok (sizes d) c k H2 Hk Hc) as (kn & En & _); eauto.
    assert (sizes d / c <= 2 ^ 30) by (apply Nat.div_le_upper_bound; [lia|apply Hs]).
    assert (P := pow_N_nat 30). assert (N.of_nat (sizes d / c) <= N.of_nat (2 ^ 30))%N by lia. rewrite P in H0.
    change (2 ^ N.of_nat 30)%N with (2 ^ 30)%N in H0. lia. }
  induction fuel as [|fuel IH]; intros depth a Hf; [lia|]. cbn [async_k].
  destruct (Nat.eqb_spec (2 ^ a) 1); [eauto|].
  destruct (KN depth) as (kn & ->).
  destruct (num_copies_pow c (sizes (S depth)) (conv (S depth)) a Hc (Hs _)) as (t' & Et & a' & E'). rewrite Et.
  destruct (conv (S depth)) eqn:Ec.
  - unfold async_threads, num_copies in Et. cbn [orb] in Et. assert (P := pow2_pos a).
    destruct (2 ^ a) eqn:E2; [lia|]. rewrite Nat.div_same in Et by lia. injection Et as <-.
    destruct fuel as [|fuel]; [lia|]. cbn [async_k]. rewrite Nat.eqb_refl. eauto.
  - subst t'. destruct (IH (S depth) a') as (r & ->); [specialize (Hsh depth Ec); lia|]. eauto.
Qed.
