(* Proofs about the block weight limits of intermediate partitions. *)
From Verif Require Import Lib.Prelude Lib.Count Spec.BlockTree Spec.LimitsSpec Spec.Level Model.MathModel Model.PartUtilsModel Model.SubgraphModel
  Model.VarintModel Model.ContextModel Proofs.MathProofs Proofs.PartUtilsProofs Proofs.FinalK Proofs.VarintProofs Proofs.CsrProofs.

(** ** Runs *)
Lemma runs_count {A} l : forall xs : list A, length (tree_runs l xs) = 2 ^ l.
Proof. induction l; intros xs; cbn [tree_runs Nat.pow]; auto. rewrite app_length, !IHl. lia. Qed.

Lemma runs_concat {A} l : forall xs : list A, concat (tree_runs l xs) = xs.
Proof. induction l; intros xs; cbn [tree_runs]; [cbn; apply app_nil_r|]. rewrite concat_app, !IHl. apply firstn_skipn. Qed.

Lemma half_nat n : N.to_nat ((N.of_nat n + 1) / 2) = (n + 1) / 2.
Proof. rewrite N2Nat.inj_div, N2Nat.inj_add, Nat2N.id. reflexivity. Qed.
Lemma half_of_nat n : N.of_nat ((n + 1) / 2) = ((N.of_nat n + 1) / 2)%N.
Proof. rewrite <- half_nat. apply N2Nat.id. Qed.
Lemma half_le n : (n + 1) / 2 <= n.
Proof. destruct n; [cbn; lia|]. apply Nat.div_le_upper_bound; lia. Qed.
Lemma other_half n : n - (n + 1) / 2 = n / 2.
Proof.
  pose proof (half_sum (N.of_nat n)) as H. rewrite <- half_of_nat in H.
  assert (N.of_nat n / 2 = N.of_nat (n / 2))%N as E by (rewrite Nat2N.inj_div; reflexivity). rewrite E in H. lia.
Qed.

Lemma runs_lengths {A} l : forall xs : list A, map (fun r => N.of_nat (length r)) (tree_runs l xs) = tree_level l (N.of_nat (length xs)).
Proof.
  induction l; intros xs; cbn [tree_runs tree_level map]; auto.
  rewrite map_app, !IHl. pose proof (half_le (length xs)). rewrite firstn_length_le, skipn_length by auto.
  rewrite half_of_nat, other_half, Nat2N.inj_div. reflexivity.
Qed.

Lemma run_length {A} l (xs : list A) b : b < 2 ^ l ->
  N.of_nat (length (nth b (tree_runs l xs) [])) = nth b (tree_level l (N.of_nat (length xs))) 0%N.
Proof.
  intros H. rewrite <- runs_lengths.
  rewrite (nth_indep _ 0%N (N.of_nat (length (@nil A)))) by (rewrite map_length, runs_count; auto).
  now rewrite (map_nth (fun r => N.of_nat (length r))).
Qed.

Lemma run_final_k {A} ub l (xs : list A) b : 2 ^ l <= length xs -> (N.of_nat (length xs) < 2 ^ 31)%N -> b < 2 ^ l ->
  final_k ub b (2 ^ l) (length xs) = Some (length (nth b (tree_runs l xs) [])).
Proof.
  intros H1 H2 H3. unfold final_k. rewrite pow_N_nat, final_k_pow2; auto; try (rewrite <- pow_N_nat; lia).
  cbn [option_map]. rewrite Nat2N.id, <- run_length, Nat2N.id by auto. reflexivity.
Qed.

Lemma run_slice {A} (rs : list (list A)) b :
  firstn (length (nth b rs [])) (skipn (list_sum (map (@length A) (firstn b rs))) (concat rs)) = nth b rs [].
Proof.
  revert b; induction rs as [|r rs IH]; intros [|b]; cbn [nth firstn map concat]; auto.
  - change (list_sum []) with 0. cbn [skipn]. rewrite firstn_app, firstn_all, Nat.sub_diag. cbn [firstn]. apply app_nil_r.
  - change (list_sum (length r :: map (@length A) (firstn b rs))) with (length r + list_sum (map (@length A) (firstn b rs))).
    rewrite skipn_app, skipn_all2 by lia.
    replace (length r + _ - length r) with (list_sum (map (@length A) (firstn b rs))) by lia. apply IH.
Qed.

Lemma sum_firstn_succ (l : list nat) b : b < length l -> list_sum (firstn (S b) l) = list_sum (firstn b l) + nth b l 0.
Proof. revert b; induction l as [|x l IH]; intros [|b] H; cbn in *; try lia. rewrite <- (Nat.add_assoc x), <- IH by lia. reflexivity. Qed.
Lemma list_sum_cons x l : list_sum (x :: l) = x + list_sum l.
Proof. reflexivity. Qed.
Lemma sum_firstn_le (l : list nat) b : list_sum (firstn b l) <= list_sum l.
Proof. revert b; induction l as [|x l IH]; intros [|b]; cbn [firstn]; try apply Nat.le_0_l; auto. rewrite !list_sum_cons. specialize (IH b). lia. Qed.
Lemma concat_length {A} (rs : list (list A)) : length (concat rs) = list_sum (map (@length A) rs).
Proof. induction rs; cbn [concat map]; auto. rewrite app_length, IHrs. reflexivity. Qed.

Lemma run_start_succ {A} (rs : list (list A)) b : b < length rs ->
  list_sum (map (@length A) (firstn (S b) rs)) = list_sum (map (@length A) (firstn b rs)) + length (nth b rs []).
Proof.
  intros H. rewrite <- !firstn_map, sum_firstn_succ by now rewrite map_length. f_equal.
  rewrite (nth_indep _ 0 (length (@nil A))) by now rewrite map_length. apply map_nth.
Qed.
Lemma run_end_le {A} (rs : list (list A)) b : b < length rs ->
  list_sum (map (@length A) (firstn b rs)) + length (nth b rs []) <= length (concat rs).
Proof.
  intros H. rewrite <- run_start_succ, concat_length by auto. rewrite <- firstn_map. apply sum_firstn_le.
Qed.

Lemma run_range_sum (rs : list (list Z)) b : b < length rs ->
  range_sum (concat rs) (list_sum (map (@length Z) (firstn b rs))) (list_sum (map (@length Z) (firstn b rs)) + length (nth b rs [])) = Some (zsum (nth b rs [])).
Proof.
  intros H. pose proof (run_end_le rs b H) as HL. unfold range_sum.
  replace (_ <=? _) with true by (symmetry; apply Nat.leb_le; lia).
  replace (_ <=? _) with true by (symmetry; apply Nat.leb_le; lia).
  cbn [andb]. do 2 f_equal. rewrite Nat.add_comm, Nat.add_sub. apply run_slice.
Qed.

(** ** k-way limits *)
Lemma kway_runs ub kp k (rs : list (list Z)) : length rs = kp ->
  (forall b, b < kp -> final_k ub b kp k = Some (length (nth b rs []))) ->
  kway_limits ub (concat rs) kp k = Some (map zsum rs).
Proof.
  intros HL HF. unfold kway_limits.
  enough (H : forall n, n <= kp -> fold_left (kway_step ub (concat rs) kp k) (seq 0 n) (Some (0, [])) =
    Some (list_sum (map (@length Z) (firstn n rs)), map zsum (firstn n rs))).
  { rewrite H by auto. cbn [option_map snd]. rewrite firstn_all2 by lia. auto. }
  induction n as [|n IH]; intros Hn; [reflexivity|].
  rewrite seq_S, fold_left_app, IH by lia. cbn [fold_left Nat.add]. unfold kway_step. rewrite HF by lia.
  rewrite run_range_sum by lia. cbn [option_map]. rewrite run_start_succ by lia. do 2 f_equal.
  rewrite (firstn_S_snoc [] rs n) by lia. now rewrite map_app.
Qed.

Lemma kway_limits_pow2 ub ls l : 2 ^ l <= length ls -> (N.of_nat (length ls) < 2 ^ 31)%N ->
  kway_limits ub ls (2 ^ l) (length ls) = Some (tree_sums l ls).
Proof.
  intros H1 H2. unfold tree_sums. rewrite <- (kway_runs ub (2 ^ l) (length ls) (tree_runs l ls)).
  - now rewrite runs_concat.
  - apply runs_count.
  - intros b Hb. now apply run_final_k.
Qed.

Lemma concat_singletons {A} (l : list A) : concat (map (fun x => [x]) l) = l.
Proof. induction l; cbn; congruence. Qed.

Lemma kway_limits_top ub ls : kway_limits ub ls (length ls) (length ls) = Some ls.
Proof.
  pose proof (kway_runs ub (length ls) (length ls) (map (fun x => [x]) ls)) as H. rewrite concat_singletons in H. rewrite H.
  - f_equal. rewrite map_map. transitivity (map (fun x => x) ls); [|apply map_id]. apply map_ext. intros; cbn; lia.
  - apply map_length.
  - intros b Hb. unfold final_k. rewrite final_k_top. cbn. f_equal.
    rewrite (nth_indep _ [] [0%Z]) by now rewrite map_length. rewrite (map_nth (fun x => [x])). reflexivity.
Qed.

(** ** Two-way limits *)
Lemma runs_succ {A} l : forall xs : list A, tree_runs (S l) xs = flat_map (fun r => let h := (length r + 1) / 2 in [firstn h r; skipn h r]) (tree_runs l xs).
Proof.
  induction l; intros xs; [reflexivity|].
  change (tree_runs (S (S l)) xs) with (let h := (length xs + 1) / 2 in tree_runs (S l) (firstn h xs) ++ tree_runs (S l) (skipn h xs)).
  cbv zeta. rewrite (IHl (firstn _ xs)), (IHl (skipn _ xs)). rewrite <- flat_map_app. reflexivity.
Qed.

Lemma flat_map_pair {A} (f g : A -> A) (l : list A) i d : i < length l ->
  nth (2 * i) (flat_map (fun x => [f x; g x]) l) d = f (nth i l d) /\ nth (2 * i + 1) (flat_map (fun x => [f x; g x]) l) d = g (nth i l d).
Proof. apply flat_map_pair_nth. Qed.

Lemma runs_children {A} l (xs : list A) b : b < 2 ^ l ->
  let r := nth b (tree_runs l xs) [] in let h := (length r + 1) / 2 in
  nth (2 * b) (tree_runs (S l) xs) [] = firstn h r /\ nth (2 * b + 1) (tree_runs (S l) xs) [] = skipn h r.
Proof.
  intros Hb r h. rewrite runs_succ.
  exact (flat_map_pair_nth (fun r => firstn ((length r + 1) / 2) r) (fun r => skipn ((length r + 1) / 2) r) (tree_runs l xs) b [] ltac:(rewrite runs_count; auto)).
Qed.

Lemma nsum_firstn_lengths {A} (rs : list (list A)) b :
  N.to_nat (nsum (firstn b (map (fun r => N.of_nat (length r)) rs))) = list_sum (map (@length A) (firstn b rs)).
Proof.
  rewrite nsum_to_nat, firstn_map, map_map. f_equal. apply map_ext. intros; apply Nat2N.id.
Qed.

Lemma first_sub_runs l (ls : list Z) b : l < 31 -> b < 2 ^ l ->
  first_sub b (2 ^ l) (length ls) = Some (list_sum (map (@length Z) (firstn b (tree_runs l ls)))).
Proof.
  intros Hl Hb. unfold first_sub. rewrite pow_N_nat, first_sub_block_pow2 by (try rewrite <- pow_N_nat; lia).
  cbn [option_map]. unfold prefix_labels. rewrite <- runs_lengths, Nat2N.id, nsum_firstn_lengths. reflexivity.
Qed.

Lemma level_lt_31 l k : 2 ^ l <= k -> (N.of_nat k < 2 ^ 31)%N -> l < 31.
Proof.
  intros H1 H2. destruct (Nat.lt_ge_cases l 31) as [|H]; auto. exfalso.
  assert (2 ^ 31 <= N.of_nat (2 ^ l))%N. { rewrite pow_N_nat. apply N.pow_le_mono_r; lia. } lia.
Qed.

Lemma range_sum_firstn_skipn ls p (r : list Z) h : p + length r <= length ls -> firstn (length r) (skipn p ls) = r -> h <= length r ->
  range_sum ls p (p + h) = Some (zsum (firstn h r)) /\ range_sum ls (p + h) (p + length r) = Some (zsum (skipn h r)).
Proof.
  intros HL HE Hh. unfold range_sum. split.
  - replace (_ <=? _) with true by (symmetry; apply Nat.leb_le; lia).
    replace (_ <=? _) with true by (symmetry; apply Nat.leb_le; lia). cbn [andb]. do 2 f_equal.
    rewrite <- HE, firstn_firstn. f_equal. lia.
  - replace (_ <=? _) with true by (symmetry; apply Nat.leb_le; lia).
    replace (_ <=? _) with true by (symmetry; apply Nat.leb_le; lia). cbn [andb]. do 2 f_equal.
    transitivity (skipn h (firstn (length r) (skipn p ls))); [|now rewrite HE].
    rewrite skipn_firstn_comm, skipn_skipn. f_equal; lia.
Qed.

Lemma twoway_limits_ok ub ls l b : 2 ^ l <= length ls -> (N.of_nat (length ls) < 2 ^ 31)%N -> b < 2 ^ l ->
  twoway_limits ub false ls b (2 ^ l) (length ls) = Some (nth (2 * b) (tree_sums (S l) ls) 0%Z, nth (2 * b + 1) (tree_sums (S l) ls) 0%Z).
Proof.
  intros H1 H2 Hb. pose proof (level_lt_31 l _ H1 H2) as Hl.
  set (rs := tree_runs l ls). set (r := nth b rs []). set (p := list_sum (map (@length Z) (firstn b rs))).
  assert (EF : first_sub b (2 ^ l) (length ls) = Some p) by (apply first_sub_runs; auto).
  assert (EK : final_k ub b (2 ^ l) (length ls) = Some (length r)) by (apply run_final_k; auto).
  assert (EI : first_invalid_sub ub b (2 ^ l) (length ls) = Some (p + length r)).
  { unfold first_invalid_sub, compute_first_invalid_sub_block. unfold first_sub in EF. unfold final_k in EK.
    destruct (compute_first_sub_block _ _ _) as [x|]; [|easy]. destruct (compute_final_k _ _ _ _) as [y|]; [|easy].
    cbn in *. injection EF as EF. injection EK as EK. f_equal. lia. }
  assert (Hbl : b < length rs) by (unfold rs; rewrite runs_count; auto).
  pose proof (run_end_le rs b Hbl) as HE. pose proof (run_slice rs b) as HS. unfold rs at 3 in HE. unfold rs at 3 in HS. rewrite runs_concat in HE, HS.
  fold r in HE, HS. fold p in HE, HS.
  unfold twoway_limits. rewrite EF, EI, EK. cbn [split_integral fst total_max]. rewrite half_nat.
  set (h := (length r + 1) / 2). assert (Hh : h <= length r) by apply half_le.
  destruct (range_sum_firstn_skipn ls p r h HE HS Hh) as [-> ->].
  destruct (runs_children l ls b Hb) as [E0 E1]. fold rs in E0, E1. fold r in E0, E1. cbv zeta in E0, E1. fold h in E0, E1.
  unfold tree_sums. change 0%Z with (zsum []). rewrite !map_nth, E0, E1. reflexivity.
Qed.

(** ** Sums of sums *)
Lemma zsum_concat rs : zsum (concat rs) = zsum (map zsum rs).
Proof. induction rs; cbn [concat map]; auto. rewrite zsum_app, IHrs. reflexivity. Qed.
Lemma tree_sums_total l ls : zsum (tree_sums l ls) = zsum ls.
Proof. unfold tree_sums. rewrite <- zsum_concat, runs_concat. reflexivity. Qed.

Lemma tree_sums_children l ls b : b < 2 ^ l ->
  nth b (tree_sums l ls) 0%Z = (nth (2 * b) (tree_sums (S l) ls) 0 + nth (2 * b + 1) (tree_sums (S l) ls) 0)%Z.
Proof.
  intros Hb. destruct (runs_children l ls b Hb) as [E0 E1]. unfold tree_sums. change 0%Z with (zsum []). rewrite !map_nth, E0, E1.
  rewrite <- zsum_app, firstn_skipn. reflexivity.
Qed.

Lemma Forall2_len {A B} (R : A -> B -> Prop) a b : Forall2 R a b -> length a = length b.
Proof. induction 1; cbn; auto. Qed.

Lemma tree_sums_le l : forall ws ls, Forall2 Z.le ws ls -> Forall2 Z.le (tree_sums l ws) (tree_sums l ls).
Proof.
  unfold tree_sums. induction l; intros ws ls H; cbn [tree_runs map].
  - constructor; auto. induction H; cbn; lia.
  - rewrite !map_app. rewrite (Forall2_len _ _ _ H). set (h := (length ls + 1) / 2).
    apply Forall2_app; apply IHl; clear IHl; clearbody h; revert h; induction H; intros [|h]; cbn; auto.
Qed.

Lemma tree_sums_count l ls : length (tree_sums l ls) = 2 ^ l.
Proof. unfold tree_sums. now rewrite map_length, runs_count. Qed.

Lemma half_double n : (2 * n + 1) / 2 = n.
Proof. symmetry. apply Nat.div_unique with 1; lia. Qed.

Lemma tree_sums_sums l : forall d ls, tree_sums l (tree_sums (l + d) ls) = tree_sums l ls.
Proof.
  induction l; intros d ls.
  - cbn [Nat.add]. unfold tree_sums at 1 3. cbn [tree_runs map]. now rewrite tree_sums_total.
  - unfold tree_sums at 1. cbn [tree_runs]. rewrite tree_sums_count. cbn [Nat.add Nat.pow]. rewrite half_double.
    unfold tree_sums at 1 2. cbn [tree_runs]. rewrite !map_app.
    set (a := tree_runs (l + d) (firstn _ ls)). set (b := tree_runs (l + d) (skipn _ ls)).
    assert (La : length (map zsum a) = 2 ^ (l + d)) by (unfold a; rewrite map_length, runs_count; auto).
    rewrite firstn_app, skipn_app, La, Nat.sub_diag, firstn_all2, skipn_all2 by lia. cbn [firstn skipn app]. rewrite app_nil_r.
    unfold tree_sums at 1. cbn [tree_runs]. rewrite map_app. f_equal; apply IHl.
Qed.

(** ** v-cycles *)
Lemma accumulate_small ls : (forall x, In x ls -> (0 <= x)%Z) -> (zsum ls < 2 ^ 31)%Z -> accumulate_int ls = zsum ls.
Proof.
  intros H0 HB. unfold accumulate_int.
  enough (H : forall a, (0 <= a)%Z -> (a + zsum ls < 2 ^ 31)%Z -> fold_left (fun a x => wrap_s 32 (a + x)) ls a = (a + zsum ls)%Z).
  { rewrite H; lia. }
  clear HB. induction ls as [|x ls IH]; intros a Ha HB; cbn [fold_left zsum fold_right] in *; [lia|].
  assert (0 <= x)%Z by (apply H0; left; auto).
  assert (0 <= zsum ls)%Z. { clear -H0. induction ls; cbn; [lia|]. assert (0 <= a)%Z by (apply H0; right; left; auto).
    assert (0 <= zsum ls)%Z; [apply IHls; intros; apply H0; destruct H1; [left|right; right]; auto|lia]. }
  rewrite wrap_s_small by (cbn; lia). rewrite IH; [lia| |lia|lia]. intros; apply H0; right; auto.
Qed.

Lemma floor2_pow l : l < 31 -> floor2_nat (2 ^ l) = Some (2 ^ l).
Proof.
  intros Hl. unfold floor2_nat. rewrite pow_N_nat, floor2_32_some.
  - rewrite N.log2_pow2 by lia. cbn [option_map]. rewrite <- pow_N_nat, Nat2N.id. auto.
  - apply N.neq_0_lt_0, N.pow_nonzero; lia.
  - apply N.pow_lt_mono_r; lia.
Qed.
Lemma ceil2_pow l : l < 31 -> ceil2_nat (2 ^ l) = Some (2 ^ l).
Proof.
  intros Hl. unfold ceil2_nat. rewrite pow_N_nat, ceil2_32_some.
  - rewrite N.log2_up_pow2 by lia. cbn [option_map]. rewrite <- pow_N_nat, Nat2N.id. auto.
  - apply N.neq_0_lt_0, N.pow_nonzero; lia.
  - apply N.pow_le_mono_r; lia.
Qed.

Lemma zsum_nonneg ls : (forall x, In x ls -> (0 <= x)%Z) -> (0 <= zsum ls)%Z.
Proof. induction ls; cbn; intros H; [lia|]. assert (0 <= a)%Z by (apply H; auto). assert (0 <= zsum ls)%Z by (apply IHls; intros; apply H; auto). lia. Qed.
Lemma zsum_run_le rs r : (forall x, In x (concat rs) -> (0 <= x)%Z) -> In r rs -> (zsum r <= zsum (concat rs))%Z.
Proof.
  induction rs as [|a rs IH]; cbn [concat]; intros H HI; [destruct HI|]. rewrite zsum_app.
  assert (0 <= zsum a)%Z by (apply zsum_nonneg; intros; apply H, in_or_app; auto).
  assert (0 <= zsum (concat rs))%Z by (apply zsum_nonneg; intros; apply H, in_or_app; auto).
  destruct HI as [->|HI]; [lia|]. assert (zsum r <= zsum (concat rs))%Z; [|lia]. apply IH; auto. intros; apply H, in_or_app; auto.
Qed.

Lemma vcycle_max_pow2 ub ls next l : 2 ^ l <> length ls -> 2 ^ l <= length next -> (N.of_nat (length next) < 2 ^ 31)%N ->
  (forall x, In x next -> (0 <= x)%Z) -> (zsum next < 2 ^ 31)%Z ->
  vcycle_max_weights ub ls (2 ^ l) next = Some (tree_sums l next).
Proof.
  intros Hn HL HB H0 HS. pose proof (level_lt_31 l _ HL HB) as Hl. unfold vcycle_max_weights.
  rewrite (proj2 (Nat.eqb_neq _ _) Hn). set (rs := tree_runs l next).
  assert (Lr : length rs = 2 ^ l) by apply runs_count.
  assert (Ec : concat rs = next) by apply runs_concat.
  enough (H : forall n, n <= 2 ^ l -> fold_left (vcycle_step ub (2 ^ l) next) (seq 0 n) (Some (0, [])) =
    Some (list_sum (map (@length Z) (firstn n rs)), map zsum (firstn n rs))).
  { rewrite H by auto. cbn [option_map snd]. rewrite firstn_all2 by lia. auto. }
  induction n as [|n IH]; intros Hn'; [reflexivity|].
  rewrite seq_S, fold_left_app, IH by lia. cbn [fold_left Nat.add]. unfold vcycle_step, vcycle_sub_blocks.
  rewrite floor2_pow, ceil2_pow, Nat.sub_diag by auto. rewrite Nat.mul_0_r. cbn [Nat.ltb Nat.leb]. rewrite Nat.sub_0_r.
  rewrite run_final_k by (auto; lia). fold rs.
  pose proof (run_range_sum rs n ltac:(lia)) as RS. rewrite Ec in RS. unfold range_sum in RS. unfold range_sum_int.
  destruct (_ && _); [|easy]. injection RS as RS.
  assert (EQ : firstn (list_sum (map (@length Z) (firstn n rs)) + length (nth n rs []) - list_sum (map (@length Z) (firstn n rs))) (skipn (list_sum (map (@length Z) (firstn n rs))) next) = nth n rs []).
  { rewrite Nat.add_comm, Nat.add_sub. rewrite <- Ec. apply run_slice. }
  rewrite EQ. assert (HI : In (nth n rs []) rs) by (apply nth_In; lia).
  rewrite accumulate_small.
  - cbn [option_map]. rewrite run_start_succ by lia. do 2 f_equal. rewrite (firstn_S_snoc [] rs n) by lia. now rewrite map_app.
  - intros x Hx. apply H0. rewrite <- Ec. apply in_concat. eauto.
  - eapply Z.le_lt_trans; [|exact HS]. rewrite <- Ec. apply zsum_run_le; auto. now rewrite Ec.
Qed.

Lemma tree_sums_nonneg l ls x : (forall x, In x ls -> (0 <= x)%Z) -> In x (tree_sums l ls) -> (0 <= x)%Z.
Proof.
  intros H HI. unfold tree_sums in HI. apply in_map_iff in HI. destruct HI as (r & <- & Hr). apply zsum_nonneg. intros y Hy. apply H.
  rewrite <- (runs_concat l ls). apply in_concat. eauto.
Qed.

Lemma vcycle_limits_ok ub ls lvls : (N.of_nat (length ls) < 2 ^ 31)%N -> (forall x, In x ls -> (0 <= x)%Z) -> (zsum ls < 2 ^ 31)%Z ->
  (forall l, In l lvls -> 2 ^ l < length ls) -> increasing lvls ->
  vcycle_limits ub ls (map (Nat.pow 2) lvls ++ [length ls]) = Some (map (fun l => tree_sums l ls) lvls ++ [ls]).
Proof.
  intros HB H0 HS. induction lvls as [|l lvls IH]; intros HK HI.
  - cbn. unfold vcycle_max_weights. now rewrite Nat.eqb_refl.
  - cbn [map app vcycle_limits]. rewrite IH; [|intros; apply HK; right; auto|destruct lvls; cbn in *; tauto].
    assert (2 ^ l < length ls) by (apply HK; left; auto).
    destruct lvls as [|l' lvls]; cbn [map app hd].
    + rewrite vcycle_max_pow2; auto; lia.
    + destruct HI as [Hll _]. assert (2 ^ l' < length ls) by (apply HK; right; left; auto).
      rewrite vcycle_max_pow2; try rewrite tree_sums_count; try rewrite tree_sums_total; try lia.
      * replace l' with (l + (l' - l)) at 1 by lia. rewrite tree_sums_sums. reflexivity.
      * apply Nat.pow_le_mono_r; lia.
      * intros x Hx. eapply tree_sums_nonneg; eauto.
Qed.
