From Coq Require Import Reals.
From Flocq Require Import Core.Core IEEE754.BinarySingleNaN.
From Verif Require Import Lib.Prelude Model.LimitsModel Model.DistLimitsModel Spec.Graph Spec.DistLimitsSpec Proofs.LimitsProofs Proofs.LimitsTop.
Local Open Scope Z_scope.

Lemma dist_limits_ok n total max_nw k eps L : 0 <= total < 2 ^ 53 -> 1 <= k < 2 ^ 32 -> is_finite eps = true -> (0 <= B2R eps)%R -> dist_limits n total max_nw k eps = Some L ->
  exists P M E, k * (P - 1) < total <= k * P /\ L = repeat M (Z.to_nat k) /\ P <= E <= M /\ (n = total -> M = E) /\ (n <> total -> M = Z.max E (P + max_nw)) /\
    (Rabs (IZR E - (1 + B2R eps) * IZR P) <= 1 + (1 + B2R eps) * IZR P * / IZR (2 ^ 51))%R.
Proof.
  intros HT HK Fe He H. unfold dist_limits, perfect_weight in H. destruct (perfect_val total k HT HK) as [A B]. cbv zeta in A, B.
  destruct (d_to 64 (d_ceil _)) as [p|] eqn:E1; [|discriminate]. apply d_to_spec in E1. destruct E1 as (_ & E1 & _). rewrite B in E1.
  unfold dist_limit in H. destruct (d_to 64 (d_mul _ _)) as [E|] eqn:E2; [|discriminate]. destruct (i_fit 64 (p + max_nw)) as [q|] eqn:E3; [|discriminate].
  assert (q = p + max_nw) by (unfold i_fit in E3; destruct (fits 64 _); [injection E3; auto|discriminate]). subst q. injection H as <-.
  pose proof (zceil_bounds total k ltac:(lia) ltac:(lia)) as CB. destruct (zceil_div_spec total k ltac:(lia)) as [L1 L2].
  destruct (limit_ok eps p E 64 ltac:(lia) Fe He E2) as [G1 G2].
  exists p, (if n =? total then E else Z.max E (p + max_nw)), E. rewrite <- E1 in L1, L2. split; [lia|]. split; [reflexivity|].
  destruct (Z.eqb_spec n total); (split; [lia|]; split; [lia|]; split; [lia|exact G2]).
Qed.

Lemma dist_limits_defined n total max_nw k eps c P : 0 <= total < 2 ^ 53 -> 0 <= max_nw < 2 ^ 53 -> 1 <= k < 2 ^ 32 -> is_finite eps = true -> (0 <= B2R eps)%R -> (1 + B2R eps <= IZR c)%R ->
  k * (P - 1) < total <= k * P -> c <= 2 ^ 53 -> c * P <= 2 ^ 53 -> exists L, dist_limits n total max_nw k eps = Some L.
Proof.
  intros HT HM HK Fe He Hc HP C53 CP. destruct (default_limits_defined 64 total max_nw k eps c P HT HK Fe He Hc HP ltac:(lia) C53 CP) as (M & D & _).
  unfold setup_uniform in D. unfold dist_limits. destruct (perfect_weight 64 total k) as [p|] eqn:E; [|discriminate]. unfold dist_limit. destruct (d_to 64 (d_mul _ _)) as [e|]; [|discriminate].
  assert (p + max_nw < 2 ^ 63 /\ 0 <= p).
  { destruct (perfect_val total k HT HK) as [A B]. cbv zeta in A, B. unfold perfect_weight in E. apply d_to_spec in E. destruct E as (_ & E & _). rewrite B in E.
    pose proof (zceil_bounds total k ltac:(lia) ltac:(lia)). lia. }
  unfold i_fit. rewrite (proj2 (fits_spec 64 (p + max_nw))) by lia. eauto.
Qed.

(** Put the nodes one after the other into a block that is light enough. *)
Section Greedy.
Variables (k : nat) (wt : nat -> Z) (P M : Z).
Hypothesis Hk : (0 < k)%nat.
Definition load (part : nat -> nat) (n : nat) (b : nat) : Z := sumn n (fun u => if (part u =? b)%nat then wt u else 0).
Lemma loads_sum part n : (forall u, (u < n)%nat -> (part u < k)%nat) -> sumn k (load part n) = sumn n wt.
Proof.
  intros H. unfold load. rewrite sumn_swap. apply sumn_ext. intros u Hu. transitivity (sumn k (fun b => if (b =? part u)%nat then wt u else 0)); [|exact (sumn_indicator k (part u) (wt u) (H u Hu))]. apply sumn_ext. intros b Hb. rewrite Nat.eqb_sym. reflexivity.
Qed.
Lemma light_block part n : sumn k (load part n) < Z.of_nat k * P -> exists b, (b < k)%nat /\ load part n b < P.
Proof.
  intros H. assert (D : forall m, (m <= k)%nat -> (exists b, (b < m)%nat /\ load part n b < P) \/ Z.of_nat m * P <= sumn m (load part n)).
  { induction m as [|m IH]; intros Hm; [right; cbn; lia|]. destruct (IH ltac:(lia)) as [(b & B1 & B2)|L]; [left; exists b; split; [lia|exact B2]|].
    destruct (Z_lt_ge_dec (load part n m) P) as [Lt|Ge]; [left; exists m; split; [lia|exact Lt]|right]. rewrite sumn_S. nia. }
  destruct (D k (le_n k)) as [(b & B)|L]; [eauto|lia].
Qed.
Lemma greedy n : (forall u, (u < n)%nat -> 0 <= wt u) -> (forall u, (u < n)%nat -> sumn u wt < Z.of_nat k * P /\ P - 1 + wt u <= M) -> 0 <= M ->
  exists part, (forall u, (u < n)%nat -> (part u < k)%nat) /\ forall b, (b < k)%nat -> load part n b <= M.
Proof.
  intros HW H HM. induction n as [|n IH]; [exists (fun _ => 0%nat); split; [lia|intros b _; cbn; exact HM]|].
  destruct IH as (part & A & B); [intros u Hu; apply HW; lia|intros u Hu; apply H; lia|]. destruct (H n ltac:(lia)) as (S1 & S2).
  destruct (light_block part n) as (b & Hb & Lb); [rewrite loads_sum by exact A; exact S1|]. set (part' := fun u => if (u =? n)%nat then b else part u).
  assert (E : forall c, load part' n c = load part n c).
  { intros c. apply sumn_ext. intros u Hu. unfold part'. rewrite (proj2 (Nat.eqb_neq u n)) by lia. reflexivity. }
  exists part'. split.
  - intros u Hu. unfold part'. destruct (Nat.eqb_spec u n); [exact Hb|apply A; lia].
  - intros c Hc. unfold load. rewrite sumn_S. fold (load part' n c). rewrite E. unfold part'. rewrite Nat.eqb_refl. destruct (Nat.eqb_spec b c) as [->|Ne]; [lia|]. specialize (B c Hc). lia.
Qed.
End Greedy.

Lemma sumn_mono n m f : (forall i, (i < n)%nat -> 0 <= f i) -> (m <= n)%nat -> sumn m f <= sumn n f.
Proof. intros H Hm. induction n as [|n IH]; [replace m with 0%nat by lia; lia|]. destruct (Nat.eq_dec m (S n)) as [->|Ne]; [lia|]. rewrite sumn_S. specialize (IH (fun i Hi => H i ltac:(lia)) ltac:(lia)). specialize (H n ltac:(lia)). lia. Qed.
Lemma all_ones n f : (forall i, (i < n)%nat -> 0 < f i) -> sumn n f = Z.of_nat n -> forall i, (i < n)%nat -> f i = 1.
Proof.
  induction n as [|n IH]; intros H E i Hi; [lia|]. rewrite sumn_S in E. assert (L : Z.of_nat n <= sumn n f). { replace (Z.of_nat n) with (sumn n (fun _ => 1)) by (rewrite sumn_const; lia). apply sumn_le. intros j Hj. specialize (H j ltac:(lia)). lia. }
  pose proof (H n ltac:(lia)). destruct (Nat.eq_dec i n) as [->|Ne]; [lia|]. apply IH; [intros j Hj; apply H; lia|lia|lia].
Qed.
Theorem feasible_exists G mx k eps L : max_weight G mx -> (forall u, (u < gn G)%nat -> 0 < gvw G u) -> total_weight G < 2 ^ 53 -> 1 <= k < 2 ^ 32 -> is_finite eps = true -> (0 <= B2R eps)%R ->
  dist_limits (Z.of_nat (gn G)) (total_weight G) mx k eps = Some L -> length L = Z.to_nat k /\ exists part, within G L part.
Proof.
  intros (HM1 & HM2) HW HT HK Fe He H. assert (T0 : 0 <= total_weight G) by (apply sumn_nonneg; intros u Hu; specialize (HW u Hu); lia).
  destruct (dist_limits_ok _ _ _ _ _ _ (conj T0 HT) HK Fe He H) as (P & M & E & HP & -> & HE & U & R & _). rewrite repeat_length. split; [reflexivity|].
  assert (P0 : 0 <= P) by nia. assert (Kn : Z.of_nat (Z.to_nat k) = k) by lia.
  destruct (greedy (Z.to_nat k) (gvw G) P M ltac:(lia) (gn G)) as (part & A & B).
  - intros u Hu. specialize (HW u Hu). lia.
  - intros u Hu. rewrite Kn. assert (S1 : sumn u (gvw G) + gvw G u <= total_weight G).
    { unfold total_weight. rewrite <- sumn_S. apply sumn_mono; [intros i Hi; specialize (HW i Hi); lia|lia]. }
    pose proof (HW u Hu). split; [lia|]. destruct (Z.eq_dec (Z.of_nat (gn G)) (total_weight G)) as [Eq|Ne].
    + rewrite (all_ones (gn G) (gvw G) HW (eq_sym Eq) u Hu). lia.
    + specialize (R Ne). specialize (HM2 u Hu). lia.
  - lia.
  - exists part. split; [rewrite repeat_length; exact A|]. intros b Hb. rewrite repeat_length in Hb. rewrite (nth_indep _ 0 M) by (rewrite repeat_length; exact Hb). rewrite nth_repeat. exact (B b Hb).
Qed.

(** A graph with nodes of weights 2 and 0; a graph with one heavy node. *)
Definition zero_graph : graph := mkGraph 2 (fun _ => []) (fun u => nth u [2; 0] 0).
Definition heavy_graph : graph := mkGraph 7 (fun _ => []) (fun u => nth u [6; 1; 1; 1; 1; 1; 1] 0).
Definition three_percent : double := d_div (d_of 3) (d_of 100).
Theorem zero_weight : exists G mx L, max_weight G mx /\ (forall u, (u < gn G)%nat -> 0 <= gvw G u) /\ dist_limits (Z.of_nat (gn G)) (total_weight G) mx 2 three_percent = Some L /\ forall part, ~ within G L part.
Proof.
  exists zero_graph, 2, [1; 1]. split; [split; [exists 0%nat; split; [cbn; lia|reflexivity]|intros [|[|u]] Hu; cbn in *; lia]|]. split; [intros [|[|u]] Hu; cbn in *; lia|]. split; [vm_compute; reflexivity|].
  intros part (A & B). specialize (A 0%nat ltac:(cbn; lia)). specialize (B (part 0%nat) A). unfold block_weight in B. cbn [gn zero_graph] in B.
  assert (S : forall f, sumn 2 f = f 0%nat + f 1%nat) by (intros f; rewrite !sumn_S, sumn_0; lia). rewrite S in B. rewrite Nat.eqb_refl in B.
  assert (N : nth (part 0%nat) [1; 1] 0 = 1). { cbn [length] in A. destruct (part 0%nat) as [|[|x]]; [reflexivity|reflexivity|lia]. } rewrite N in B. cbn [gvw zero_graph nth] in B. destruct (part 1%nat =? part 0%nat)%nat; lia.
Qed.
Theorem heavy_node : exists G mx L, max_weight G mx /\ (forall u, (u < gn G)%nat -> 0 < gvw G u) /\ dist_limits (Z.of_nat (gn G)) (total_weight G) mx 2 three_percent = Some L /\ within G L (fun _ => 0%nat) /\
  block_weight G (fun _ => 0%nat) 0 = 2 * 6 /\ exists part, within G [6; 6] part.
Proof.
  exists heavy_graph, 6, [12; 12]. split; [split; [exists 0%nat; split; [cbn; lia|reflexivity]|intros u Hu; do 7 (destruct u as [|u]; [cbn; lia|]); cbn in Hu; lia]|].
  split; [intros u Hu; do 7 (destruct u as [|u]; [cbn; lia|]); cbn in Hu; lia|]. split; [vm_compute; reflexivity|]. split.
  - split; [intros; cbn; lia|]. intros [|[|b]] Hb; [vm_compute; discriminate|vm_compute; discriminate|cbn in Hb; lia].
  - split; [vm_compute; reflexivity|]. exists (fun u => if (u =? 0)%nat then 0%nat else 1%nat). split; [intros u Hu; destruct (u =? 0)%nat; cbn; lia|].
    intros [|[|b]] Hb; [vm_compute; discriminate|vm_compute; discriminate|cbn in Hb; lia].
Qed.
Lemma heavy_positive u : (u < gn heavy_graph)%nat -> 0 < gvw heavy_graph u.
Proof. intros Hu. do 7 (destruct u as [|u]; [cbn; lia|]). cbn in Hu. lia. Qed.
