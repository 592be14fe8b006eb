From Verif Require Import Lib.Prelude Model.MathModel Model.DistDeepModel Spec.DistDeepSpec Proofs.MathProofs.
Local Open Scope N_scope.

Lemma pow_divides a b : 2 ^ a <= 2 ^ b -> 2 ^ b = 2 ^ a * 2 ^ (b - a) /\ a <= b.
Proof. intros H. apply N.pow_le_mono_r_iff in H; [|lia]. split; [|lia]. rewrite <- N.pow_add_r. f_equal. lia. Qed.
Lemma last_cons {A} (t : list A) : forall x y, last (y :: t) x = last t y.
Proof. induction t as [|z l IH]; intros x y; [reflexivity|]. transitivity (last (z :: l) x); [reflexivity|]. exact (eq_trans (IH x z) (eq_sym (IH y z))). Qed.
Lemma last_app {A} (s1 s2 : list A) : forall x, last (s1 ++ s2) x = last s2 (last s1 x).
Proof. induction s1 as [|y t IH]; intros x; [reflexivity|]. cbn [app]. rewrite !last_cons. apply IH. Qed.
Lemma splits_app K s1 : forall f l s2, splits K f s1 -> last s1 f = l -> splits K l s2 -> splits K f (s1 ++ s2).
Proof.
  induction s1 as [|x t IH]; intros f l s2 H E H2; [cbn in E; subst; exact H2|]. destruct H as (A & B). split; [exact A|]. apply (IH x l); [exact B| |exact H2].
  rewrite last_cons in E. exact E.
Qed.
Lemma ceil2_64_some x : 0 < x -> x <= 2 ^ 30 -> ceil2 64 x = Some (2 ^ N.log2_up x) /\ 2 ^ N.log2_up x <= 2 ^ 30.
Proof.
  intros Hx Hw. pose proof (log2_up_le_pow x 30 Hx Hw) as L. assert (P : 2 ^ N.log2_up x <= 2 ^ 30) by (apply N.pow_le_mono_r; lia). split; [|exact P].
  unfold ceil2. rewrite ceil_log2_some; [|lia|eapply N.le_lt_trans; [exact Hw|reflexivity]]. unfold int_one_shl. rewrite (proj2 (N.ltb_lt _ _)) by lia. f_equal. apply N.mod_small.
  eapply N.le_lt_trans; [exact P|reflexivity].
Qed.

Section Deep.
Variables a k C input_n : N.
Let K := 2 ^ a.
Hypothesis Ha : 1 <= a.
Hypothesis HC : 0 < C.
Hypothesis Hwrap : k * K < 2 ^ 32.

(** From a power of two to a larger one. *)
Lemma next_power b i : i < b -> 2 ^ b <= k -> next_blocks K (2 ^ b) (2 ^ i) = 2 ^ N.min b (i + a).
Proof.
  intros Hi Hb. unfold next_blocks. assert (L : 2 ^ i < 2 ^ b) by (apply N.pow_lt_mono_r; lia). rewrite N.mod_small by (unfold K in *; nia). unfold K. rewrite <- N.pow_add_r.
  assert (M : N.min (2 ^ b) (2 ^ (i + a)) = 2 ^ N.min b (i + a)).
  { destruct (N.le_gt_cases b (i + a)) as [H|H].
    - rewrite (N.min_l b) by lia. apply N.min_l. apply N.pow_le_mono_r; lia.
    - rewrite (N.min_r b) by lia. apply N.min_r. apply N.pow_le_mono_r; lia. }
  rewrite M. set (j := N.min b (i + a)). assert (i <= j) by (unfold j; lia). replace (2 ^ j) with (2 ^ (j - i) * 2 ^ i) by (rewrite <- N.pow_add_r; f_equal; lia).
  rewrite N.div_mul by (apply N.pow_nonzero; lia). lia.
Qed.
Lemma loop_power b : 2 ^ b <= k -> forall m i, (N.to_nat (b - i) <= m)%nat -> i <= b -> exists steps, extend_loop K (2 ^ b) (2 ^ i) steps (2 ^ b) /\ splits K (2 ^ i) steps /\ last steps (2 ^ i) = 2 ^ b.
Proof.
  intros Hb. induction m as [|m IH]; intros i Hm Hi.
  - assert (i = b) by lia. subst i. exists []. split; [apply extend_done; lia|]. split; [exact I|reflexivity].
  - destruct (N.eq_dec i b) as [->|Ne]; [exists []; split; [apply extend_done; lia|]; split; [exact I|reflexivity]|].
    assert (Lt : i < b) by lia. set (j := N.min b (i + a)). destruct (IH j) as (steps & A & B & D); [unfold j; lia|unfold j; lia|]. exists (2 ^ j :: steps).
    pose proof (next_power b i Lt Hb) as E. fold j in E. split; [rewrite <- E; apply extend_step; [apply N.pow_lt_mono_r; lia|rewrite E; exact A]|]. split.
    + split; [|exact B]. exists (2 ^ (j - i)). split; [|rewrite <- N.pow_add_r; f_equal; unfold j; lia]. split; [replace 2 with (2 ^ 1) at 1 by reflexivity|unfold K]; apply N.pow_le_mono_r; unfold j; lia.
    + rewrite last_cons. exact D.
Qed.
Lemma loop_det d c s l : extend_loop K d c s l -> forall s' l', extend_loop K d c s' l' -> s' = s /\ l' = l.
Proof.
  induction 1; intros s' l' H'; inversion H'; subst; try lia; [auto|]. match goal with X : extend_loop _ _ (next_blocks _ _ _) _ _ |- _ => destruct (IHextend_loop _ _ X) as (-> & ->) end. auto.
Qed.

Definition level_ok (n : N) : Prop := C <= n <= 2 ^ 30 * C.
Lemma desired_some n : level_ok n -> exists x, ceil2 64 (n / C) = Some (2 ^ x) /\ 2 ^ x <= 2 ^ 30.
Proof.
  intros (A & B). destruct (ceil2_64_some (n / C)) as (E & L).
  - apply N.div_str_pos. lia. - apply N.div_le_upper_bound; lia. - eauto.
Qed.
Definition reachable (c : N) : Prop := c <= k /\ (c = k \/ exists i, c = 2 ^ i).
Hypothesis Hk : k <= K \/ power_of_two k.

Lemma loop_ok d c : reachable c -> first_step_k K k <= c -> d = k \/ (exists x, d = 2 ^ x) -> d <= k -> exists steps, extend_loop K d c steps (N.max c d) /\ splits K c steps /\ last steps c = N.max c d.
Proof.
  intros (Hc & R) F D L. destruct (N.le_gt_cases d c) as [H|H].
  - rewrite N.max_l by lia. exists []. split; [apply extend_done; exact H|]. split; [exact I|reflexivity].
  - rewrite N.max_r by lia. unfold first_step_k in F. destruct R as [->|(i & ->)]; [lia|].
    assert (X : exists x, d = 2 ^ x). { destruct D as [->|D]; [|exact D]. destruct Hk as [Hk'|Hk']; [lia|exact Hk']. }
    destruct X as (x & ->). assert (i <= x) by (apply (N.pow_le_mono_r_iff 2); lia).
    apply (loop_power x L (N.to_nat (x - i)) i); lia.
Qed.
Lemma reach_first : 1 <= k -> reachable (first_step_k K k).
Proof.
  intros _. unfold reachable, first_step_k. split; [lia|]. destruct (N.le_gt_cases k K); [left; lia|right; exists a; apply N.min_r; fold K; lia].
Qed.
Lemma extend_total n c : level_ok n -> reachable c -> first_step_k K k <= c ->
  exists steps c', extend K k C input_n n c steps c' /\ splits K c steps /\ last steps c = c' /\ reachable c' /\ first_step_k K k <= c' /\ (n = input_n -> c' = k) /\ c <= c' /\
    (n <> input_n -> forall x, ceil2 64 (n / C) = Some x -> c' = N.max c (N.min k x)).
Proof.
  intros Hn R F. destruct (desired_some n Hn) as (x & E & L). set (d := if input_n =? n then k else N.min k (2 ^ x mod 2 ^ 32)).
  assert (M : 2 ^ x mod 2 ^ 32 = 2 ^ x) by (apply N.mod_small; eapply N.le_lt_trans; [exact L|reflexivity]).
  assert (Hd : (d = k \/ exists y, d = 2 ^ y) /\ d <= k).
  { unfold d. rewrite M. destruct (input_n =? n); [split; [left; reflexivity|apply N.le_refl]|]. split; [|apply N.le_min_l]. destruct (N.le_gt_cases k (2 ^ x)); [left; lia|right; exists x; apply N.min_r; lia]. }
  destruct Hd as (D1 & D2). destruct (loop_ok d c R F D1 D2) as (steps & A & B & G). exists steps, (N.max c d).
  split; [exists d; split; [unfold desired_k; rewrite E; reflexivity|exact A]|]. split; [exact B|]. split; [exact G|]. destruct R as (R1 & R2). split.
  - split; [lia|]. destruct (N.max_spec c d) as [(_ & ->)|(_ & ->)]; [exact D1|exact R2].
  - split; [lia|]. split; [|split; [lia|]].
    + intros ->. unfold d. rewrite N.eqb_refl. lia.
    + intros Ne y Ey. rewrite E in Ey. injection Ey as <-. unfold d. rewrite M. destruct (N.eqb_spec input_n n) as [E'|_]; [congruence|reflexivity].
Qed.
Lemma extend_det n c s l s' l' : extend K k C input_n n c s l -> extend K k C input_n n c s' l' -> s' = s /\ l' = l.
Proof. intros (d & E & H) (d' & E' & H'). rewrite E in E'. injection E' as <-. exact (loop_det d c s l H s' l' H'). Qed.
Lemma uncoarsen_det ls c s l : uncoarsen K k C input_n ls c s l -> forall s' l', uncoarsen K k C input_n ls c s' l' -> s' = s /\ l' = l.
Proof.
  induction 1; intros s' l' H'; inversion H'; subst; [auto|]. match goal with X : extend _ _ _ _ n cur ?t ?m, Y : uncoarsen _ _ _ _ levels ?m _ _ |- _ => destruct (extend_det _ _ _ _ _ _ H X) as (-> & ->); destruct (IHuncoarsen _ _ Y) as (-> & ->) end. auto.
Qed.
Lemma uncoarsen_total ls : forall c, (forall n, In n ls -> level_ok n) -> reachable c -> first_step_k K k <= c ->
  exists steps c', uncoarsen K k C input_n ls c steps c' /\ splits K c steps /\ last steps c = c' /\ reachable c' /\ first_step_k K k <= c'.
Proof.
  induction ls as [|n ls IH]; intros c Hn R F.
  - exists [], c. split; [apply uncoarsen_done|]. split; [exact I|]. auto.
  - destruct (extend_total n c (Hn n (or_introl eq_refl)) R F) as (s1 & c1 & A & B & D & R1 & F1 & _). destruct (IH c1 (fun m Hm => Hn m (or_intror Hm)) R1 F1) as (s2 & c2 & A2 & B2 & D2 & R2 & F2).
    exists (s1 ++ s2), c2. split; [eapply uncoarsen_level; eassumption|]. split; [apply (splits_app K s1 c c1); assumption|]. split; [rewrite last_app, D; exact D2|]. auto.
Qed.
Theorem deep_returns levels : 1 <= k -> level_ok input_n -> (forall n, In n levels -> level_ok n) ->
  (exists steps, deep_run K k C input_n levels steps k /\ splits K (first_step_k K k) steps) /\
  forall steps last_k, deep_run K k C input_n levels steps last_k -> last_k = k /\ splits K (first_step_k K k) steps.
Proof.
  intros H1 HN HL. assert (X : exists steps, deep_run K k C input_n levels steps k /\ splits K (first_step_k K k) steps).
  { destruct (uncoarsen_total levels _ HL (reach_first H1) (N.le_refl _)) as (s1 & c1 & A & B & D & R1 & F1). destruct (N.eqb_spec c1 k) as [E|E].
    - exists s1. split; [|exact B]. exists s1, c1. split; [exact A|]. rewrite (proj2 (N.eqb_eq c1 k) E). auto.
    - destruct (extend_total input_n c1 HN R1 F1) as (s2 & c2 & A2 & B2 & _ & _ & _ & K2 & _). specialize (K2 eq_refl). subst c2. exists (s1 ++ s2). split.
      + exists s1, c1. split; [exact A|]. rewrite (proj2 (N.eqb_neq c1 k) E). exists s2. auto.
      + apply (splits_app K s1 _ c1); assumption. }
  split; [exact X|]. intros steps l (s1 & c1 & A & B). destruct X as (t & (t1 & e1 & A' & B') & S).
  destruct (uncoarsen_det _ _ _ _ A' _ _ A) as (-> & ->). destruct (e1 =? k) eqn:E.
  - destruct B as (-> & ->). destruct B' as (-> & B'). split; [apply N.eqb_eq; exact E|exact S].
  - destruct B as (s2 & B & ->). destruct B' as (t2 & B' & ->). destruct (extend_det _ _ _ _ _ _ B' B) as (-> & ->). auto.
Qed.
End Deep.

(** Between K and 2 K. *)
Section Stuck.
Variables K k C input_n : N.
Hypothesis Hk : K < k < 2 * K.
Hypothesis Hwrap : K * K < 2 ^ 32.
Lemma stuck_loop d c s l : extend_loop K d c s l -> c = K -> K < d <= k -> False.
Proof.
  induction 1 as [cur H|cur s l H HE IH]; intros -> Hd; [lia|]. apply IH; [|exact Hd]. unfold next_blocks. rewrite N.mod_small by exact Hwrap. rewrite N.min_l by nia.
  replace (d / K) with 1; [lia|]. apply (N.div_unique d K 1 (d - K)); lia.
Qed.
Lemma stuck_levels ls c s l : uncoarsen K k C input_n ls c s l -> c = K -> l = K.
Proof.
  induction 1 as [|n ls c s c' s' l H HE IH]; intros ->; [reflexivity|]. apply IH. destruct H as (d & E & H). unfold desired_k in E. destruct (ceil2 64 (n / C)) as [x|]; [|discriminate E]. injection E as E.
  destruct (N.le_gt_cases d K) as [L|L]; [inversion H; subst; lia|]. exfalso. apply (stuck_loop d K s c' H eq_refl). split; [exact L|]. rewrite <- E. destruct (input_n =? n); lia.
Qed.
Theorem never_returns levels steps last_k : ~ deep_run K k C input_n levels steps last_k.
Proof.
  intros (s1 & c & A & B). apply stuck_levels in A; [|unfold first_step_k; lia]. subst c. rewrite (proj2 (N.eqb_neq K k)) in B by lia. destruct B as (s2 & (d & E & H) & _).
  unfold desired_k in E. destruct (ceil2 64 (input_n / C)); [|discriminate E]. rewrite N.eqb_refl in E. injection E as <-. apply (stuck_loop k K s2 last_k H eq_refl). lia.
Qed.
End Stuck.

(** A small input graph. *)
Theorem small_input K k C input_n : 1 <= K < k -> 0 < C -> input_n < C -> forall levels steps last_k, (forall n, In n levels -> n = input_n) -> ~ deep_run K k C input_n levels steps last_k.
Proof.
  intros HK HC HN levels steps last_k HL (s1 & c & A & B). assert (U : desired_k k C input_n input_n = None) by (unfold desired_k; rewrite N.div_small by exact HN; reflexivity).
  destruct levels as [|n levels].
  - inversion A; subst. unfold first_step_k in B. rewrite (proj2 (N.eqb_neq _ _)) in B by lia. destruct B as (s2 & (d & E & _) & _). rewrite U in E. discriminate E.
  - rewrite (HL n (or_introl eq_refl)) in A. inversion A; subst. match goal with X : extend _ _ _ _ _ _ _ _ |- _ => destruct X as (d & E & _) end. rewrite U in E. discriminate E.
Qed.
Theorem small_graph K k C input_n levels : 1 <= K < k -> 0 < C -> input_n < C -> (forall n, In n levels -> n = input_n) ->
  desired_k k C input_n input_n = None /\ ~ exists steps last_k, deep_run K k C input_n levels steps last_k.
Proof.
  intros HK HC HN HL. split; [unfold desired_k; rewrite N.div_small by exact HN; reflexivity|]. intros (steps & l & H). exact (small_input K k C input_n HK HC HN levels steps l HL H).
Qed.
