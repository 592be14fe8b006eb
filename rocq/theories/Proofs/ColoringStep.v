(* Supersteps and passes of the colouring, seen from outside: invariants and progress. *)
From Verif Require Import Lib.Prelude Lib.Count Model.ColoringModel Spec.Graph Spec.DistGraphSpec Spec.ColoringSpec Proofs.ColoringNode.

Section Steps.
Variables (G : graph) (own : nat -> nat).
Notation nb := (nbr G).
Hypothesis Hsym : forall u v, u < gn G -> nb u v -> nb v u.
Hypothesis Hcl : forall u v, u < gn G -> nb u v -> v < gn G.
Hypothesis Hself : forall u, u < gn G -> ~ nb u u.

Record inv (c : nat -> nat) (a : nat -> bool) : Prop := {
  inv_done : forall x w, x < gn G -> nb x w -> a x = false -> c x = c w -> x < w /\ a w = true;
  inv_col : forall x, x < gn G -> a x = false -> c x <> 0;
  inv_if : forall x, x < gn G -> a x = true -> c x <> 0 -> iface G own x = true;
  inv_max : forall x, x < gn G -> c x <= S (length (gadj G x)) }.
Record step (S : nat -> bool) (c0 : nat -> nat) (a0 : nat -> bool) (c1 : nat -> nat) (a1 : nat -> bool) : Prop := {
  st_same : forall x, x < gn G -> S x = false \/ a0 x = false -> c1 x = c0 x /\ a1 x = a0 x;
  st_eff : forall x, x < gn G -> S x = true -> a0 x = true ->
    exists vw, (forall v, own v <> own x \/ a0 v = false -> vw v = c0 v) /\ effect G own x (c0 x) vw (c1 x) (a1 x);
  st_own : forall x w, x < gn G -> nb x w -> own x = own w -> a1 x = false -> c1 x = c1 w -> x < w /\ a1 w = true }.

Lemma no_iface u v : iface G own u = false -> nb u v -> own v = own u.
Proof.
  intros H [w Hw]. destruct (Nat.eq_dec (own v) (own u)) as [E|E]; [exact E|]. exfalso.
  assert (iface G own u = true); [|congruence]. unfold iface. apply existsb_exists. exists (v, w). split; [exact Hw|]. cbn [fst]. destruct (Nat.eqb_spec (own v) (own u)); [congruence|reflexivity].
Qed.
Lemma step_mono S c0 a0 c1 a1 x : step S c0 a0 c1 a1 -> x < gn G -> a1 x = true -> a0 x = true.
Proof. intros H Hx A. destruct (a0 x) eqn:E; [reflexivity|]. destruct (st_same _ _ _ _ _ H x Hx (or_intror E)). congruence. Qed.
(** What happened to a node. *)
Lemma step_cases S c0 a0 c1 a1 x : step S c0 a0 c1 a1 -> x < gn G ->
  (c1 x = c0 x /\ a1 x = a0 x) \/
  (c1 x = c0 x /\ c0 x <> 0 /\ a0 x = true /\ a1 x = false /\ forall v, nb x v -> own v <> own x \/ a0 v = false -> c0 v = c0 x -> x < v) \/
  (c1 x <> 0 /\ c1 x <> c0 x /\ a0 x = true /\ c1 x <= 1 + length (gadj G x) /\ (forall v, nb x v -> own v <> own x \/ a0 v = false -> c1 x <> c0 v) /\
   (a1 x = false -> iface G own x = false) /\ (a1 x = true -> c0 x <> 0 \/ iface G own x = true)).
Proof.
  intros H Hx. destruct (S x) eqn:Sx; [|left; apply (st_same _ _ _ _ _ H x Hx); auto]. destruct (a0 x) eqn:Ax; [|left; rewrite <- Ax; apply (st_same _ _ _ _ _ H x Hx); auto].
  destruct (st_eff _ _ _ _ _ H x Hx Sx Ax) as (vw & V & [(E1 & E2 & E3 & E4 & E5 & E6 & E7)|(E1 & E2 & E3 & E4)]).
  - right. right. repeat (split; [first [assumption | reflexivity]|]). split; [|split; assumption]. intros v Hv Hc. rewrite <- (V v Hc). exact (E4 v Hv).
  - right. left. repeat (split; [first [assumption | reflexivity]|]). intros v Hv Hc. rewrite <- (V v Hc). exact (E4 v Hv).
Qed.

Lemma step_inv S c0 a0 c1 a1 : inv c0 a0 -> step S c0 a0 c1 a1 -> inv c1 a1.
Proof.
  intros I H. constructor.
  - intros x w Hx Hn Ax Ec. pose proof (Hcl x w Hx Hn) as Hw. pose proof (Hsym x w Hx Hn) as Hn'.
    destruct (Nat.eq_dec (own x) (own w)) as [Eo|No]; [exact (st_own _ _ _ _ _ H x w Hx Hn Eo Ax Ec)|].
    assert (Kx : c1 x = c0 x /\ (a0 x = false \/ c0 x <> 0 /\ a0 x = true /\ forall v, nb x v -> own v <> own x \/ a0 v = false -> c0 v = c0 x -> x < v)).
    { destruct (step_cases _ _ _ _ _ x H Hx) as [[A B]|[(A & B & C & D & E)|(A & B & C & D & E & F & K)]]; [split; [exact A|left; congruence]|split; [exact A|right; auto]|].
      exfalso. apply No. symmetry. exact (no_iface x w (F Ax) Hn). }
    destruct Kx as [K1 K2].
    destruct (step_cases _ _ _ _ _ w H Hw) as [[A B]|[(A & B & C & D & E)|(A & B & C & D & E & F & K)]].
    + assert (Es : c0 x = c0 w) by congruence. destruct K2 as [K2|(K2 & K3 & K4)].
      * rewrite B. exact (inv_done _ _ I x w Hx Hn K2 Es).
      * assert (L : x < w) by (apply (K4 w Hn); [left; congruence|congruence]). split; [exact L|]. rewrite B. destruct (a0 w) eqn:Aw; [reflexivity|]. exfalso.
        destruct (inv_done _ _ I w x Hw Hn' Aw ltac:(congruence)). lia.
    + exfalso. assert (Es : c0 x = c0 w) by congruence. assert (L : w < x) by (apply (E x Hn'); [left; congruence|exact Es]).
      destruct K2 as [K2|(K2 & K3 & K4)]; [destruct (inv_done _ _ I x w Hx Hn K2 Es); lia|]. assert (x < w) by (apply (K4 w Hn); [left; congruence|congruence]). lia.
    + exfalso. apply (E x Hn'); [left; congruence|congruence].
  - intros x Hx Ax. destruct (step_cases _ _ _ _ _ x H Hx) as [[A B]|[(A & B & C & D & E)|(A & _)]]; [|congruence|exact A]. rewrite A. apply (inv_col _ _ I x Hx). congruence.
  - intros x Hx Ax Cx. destruct (step_cases _ _ _ _ _ x H Hx) as [[A B]|[(A & B & C & D & E)|(A & B & C & D & E & F & K)]]; [|congruence|].
    + apply (inv_if _ _ I x Hx); congruence.
    + destruct (K Ax) as [K'|K']; [|exact K']. exact (inv_if _ _ I x Hx C K').
  - intros x Hx. destruct (step_cases _ _ _ _ _ x H Hx) as [[A B]|[(A & B & C & D & E)|(A & B & C & D & _)]]; [rewrite A; apply (inv_max _ _ I x Hx)|rewrite A; apply (inv_max _ _ I x Hx)|exact D].
Qed.
Lemma step_keeps_color S c0 a0 c1 a1 x : step S c0 a0 c1 a1 -> x < gn G -> c0 x <> 0 -> c1 x <> 0.
Proof. intros H Hx C. destruct (step_cases _ _ _ _ _ x H Hx) as [[A B]|[(A & B & _)|(A & _)]]; congruence. Qed.
Lemma step_colors S c0 a0 c1 a1 x : inv c0 a0 -> step S c0 a0 c1 a1 -> x < gn G -> S x = true -> c1 x <> 0.
Proof.
  intros I H Hx Sx. destruct (a0 x) eqn:Ax.
  - destruct (st_eff _ _ _ _ _ H x Hx Sx Ax) as (vw & V & [(E1 & _)|(E1 & E2 & _)]); congruence.
  - apply (step_keeps_color _ _ _ _ _ x H Hx). exact (inv_col _ _ I x Hx Ax).
Qed.

(** Supersteps with the nodes [S i]. *)
Variable S : nat -> nat -> bool.
Inductive chain : list nat -> (nat -> nat) -> (nat -> bool) -> (nat -> nat) -> (nat -> bool) -> Prop :=
| chain_nil c a : chain [] c a c a
| chain_cons i t c0 a0 c1 a1 c2 a2 : step (S i) c0 a0 c1 a1 -> chain t c1 a1 c2 a2 -> chain (i :: t) c0 a0 c2 a2.
Lemma chain_inv is c0 a0 c1 a1 : chain is c0 a0 c1 a1 -> inv c0 a0 -> inv c1 a1.
Proof. induction 1 as [|i t c0 a0 c1 a1 c2 a2 H1 H2 IH]; intros I; [exact I|]. apply IH. exact (step_inv _ _ _ _ _ I H1). Qed.
Lemma chain_mono is c0 a0 c1 a1 x : chain is c0 a0 c1 a1 -> x < gn G -> a1 x = true -> a0 x = true.
Proof. induction 1 as [|i t c0 a0 c1 a1 c2 a2 H1 H2 IH]; intros Hx A; [exact A|]. exact (step_mono _ _ _ _ _ x H1 Hx (IH Hx A)). Qed.
Lemma chain_keeps is c0 a0 c1 a1 x : chain is c0 a0 c1 a1 -> x < gn G -> c0 x <> 0 -> c1 x <> 0.
Proof. induction 1 as [|i t c0 a0 c1 a1 c2 a2 H1 H2 IH]; intros Hx A; [exact A|]. apply (IH Hx). exact (step_keeps_color _ _ _ _ _ x H1 Hx A). Qed.
Lemma chain_off is c0 a0 c1 a1 x : chain is c0 a0 c1 a1 -> x < gn G -> a0 x = false -> c1 x = c0 x /\ a1 x = false.
Proof.
  induction 1 as [|i t c0 a0 c1 a1 c2 a2 H1 H2 IH]; intros Hx A; [auto|]. destruct (st_same _ _ _ _ _ H1 x Hx (or_intror A)) as [E F].
  destruct (IH Hx ltac:(congruence)) as [E' F']. split; [congruence|exact F'].
Qed.
Lemma chain_colors is c0 a0 c1 a1 x : chain is c0 a0 c1 a1 -> inv c0 a0 -> x < gn G -> (exists i, In i is /\ S i x = true) -> c1 x <> 0.
Proof.
  induction 1 as [|i t c0 a0 c1 a1 c2 a2 H1 H2 IH]; intros I Hx (j & Hj & Sj); [destruct Hj|]. destruct (S i x) eqn:Si.
  - apply (chain_keeps _ _ _ _ _ x H2 Hx). exact (step_colors _ _ _ _ _ x I H1 Hx Si).
  - apply IH; [exact (step_inv _ _ _ _ _ I H1)|exact Hx|]. exists j. destruct Hj as [->|Hj]; [congruence|auto].
Qed.

(** The smallest active node. *)
Definition clean (c : nat -> nat) (x : nat) : Prop := forall v, nb x v -> v < x -> c v <> c x.
Definition lowest (a : nat -> bool) (x : nat) : Prop := forall v, v < x -> a v = false.
Lemma step_lowest i c0 a0 c1 a1 x : step (S i) c0 a0 c1 a1 -> x < gn G -> lowest a0 x -> lowest a1 x /\ forall v, v < x -> c1 v = c0 v.
Proof.
  intros H Hx L. assert (K : forall v, v < x -> c1 v = c0 v /\ a1 v = a0 v) by (intros v Hv; apply (st_same _ _ _ _ _ H v); [lia|right; exact (L v Hv)]).
  split; intros v Hv; destruct (K v Hv) as [A B]; [rewrite B; exact (L v Hv)|exact A].
Qed.
Lemma chain_clean is c0 a0 c1 a1 x : chain is c0 a0 c1 a1 -> x < gn G -> lowest a0 x -> c0 x <> 0 -> clean c0 x ->
  (exists i, In i is /\ S i x = true) -> a1 x = false.
Proof.
  induction 1 as [|i t c0 a0 c1 a1 c2 a2 H1 H2 IH]; intros Hx L Cx Cl (j & Hj & Sj); [destruct Hj|].
  destruct (a0 x) eqn:Ax; [|exact (proj2 (chain_off _ _ _ _ _ x (chain_cons _ _ _ _ _ _ _ _ H1 H2) Hx Ax))].
  destruct (S i x) eqn:Si.
  - apply (chain_off _ _ _ _ _ x H2 Hx). destruct (st_eff _ _ _ _ _ H1 x Hx Si Ax) as (vw & V & [(E1 & E2 & E3 & E4 & E5 & E6 & E7)|(E1 & E2 & E3 & E4)]); [|exact E3].
    exfalso. destruct (E7 Cx) as (v & Hv & Ev & Lv). assert (v <> x) by (intros ->; exact (Hself x Hx Hv)). assert (Lv' : v < x) by lia.
    rewrite (V v (or_intror (L v Lv'))) in Ev. exact (Cl v Hv Lv' Ev).
  - destruct (step_lowest _ _ _ _ _ x H1 Hx L) as [L1 K]. destruct (st_same _ _ _ _ _ H1 x Hx (or_introl Si)) as [E F].
    apply IH; [exact Hx|exact L1|congruence|intros v Hv Lv; rewrite (K v Lv), E; exact (Cl v Hv Lv)|]. exists j. destruct Hj as [->|Hj]; [congruence|auto].
Qed.
Lemma chain_dirty is c0 a0 c1 a1 x : chain is c0 a0 c1 a1 -> x < gn G -> lowest a0 x -> c0 x <> 0 ->
  (exists i, In i is /\ S i x = true) -> a1 x = false \/ clean c1 x.
Proof.
  induction 1 as [|i t c0 a0 c1 a1 c2 a2 H1 H2 IH]; intros Hx L Cx (j & Hj & Sj); [destruct Hj|].
  destruct (a0 x) eqn:Ax; [|left; exact (proj2 (chain_off _ _ _ _ _ x (chain_cons _ _ _ _ _ _ _ _ H1 H2) Hx Ax))].
  destruct (step_lowest _ _ _ _ _ x H1 Hx L) as [L1 K]. destruct (S i x) eqn:Si.
  - destruct (st_eff _ _ _ _ _ H1 x Hx Si Ax) as (vw & V & [(E1 & E2 & E3 & E4 & E5 & E6 & E7)|(E1 & E2 & E3 & E4)]).
    + assert (Cl : clean c1 x) by (intros v Hv Lv C; apply (E4 v Hv); rewrite (V v (or_intror (L v Lv))), <- (K v Lv); congruence).
      destruct (existsb (fun j => S j x) t) eqn:Et.
      * left. apply (chain_clean _ _ _ _ _ x H2 Hx L1 E1 Cl). apply existsb_exists in Et. exact Et.
      * right. assert (U : forall is c0 a0 c1 a1, chain is c0 a0 c1 a1 -> existsb (fun j => S j x) is = false -> c1 x = c0 x).
        { clear - Hx. induction 1 as [|i t c0 a0 c1 a1 c2 a2 H1 H2 IH]; intros E; [reflexivity|]. cbn [existsb] in E. apply orb_false_iff in E. destruct E as [E1 E2].
          rewrite (IH E2). apply (st_same _ _ _ _ _ H1 x Hx). auto. }
        pose proof (U _ _ _ _ _ H2 Et) as Ex. intros v Hv Lv. rewrite Ex. rewrite (proj1 (chain_off _ _ _ _ _ v H2 ltac:(lia) (L1 v Lv))). exact (Cl v Hv Lv).
    + left. exact (proj2 (chain_off _ _ _ _ _ x H2 Hx E3)).
  - destruct (st_same _ _ _ _ _ H1 x Hx (or_introl Si)) as [E F]. apply IH; [exact Hx|exact L1|congruence|]. exists j. destruct Hj as [->|Hj]; [congruence|auto].
Qed.

(** A measure that goes down with every pass that starts with an active node. *)
Definition first_active (a : nat -> bool) : option nat := find a (seq 0 (gn G)).
Lemma find_seq a : forall n s, match find a (seq s n) with
  | Some x => s <= x < s + n /\ a x = true /\ forall v, s <= v < x -> a v = false | None => forall v, s <= v < s + n -> a v = false end.
Proof.
  induction n as [|n IH]; intros s; cbn [seq find]; [intros; lia|]. destruct (a s) eqn:E; [split; [lia|]; split; [exact E|intros; lia]|].
  specialize (IH (Datatypes.S s)). destruct (find a (seq (Datatypes.S s) n)) as [x|].
  - destruct IH as (A & B & C). split; [lia|]. split; [exact B|]. intros v Hv. destruct (Nat.eq_dec v s) as [->|N]; [exact E|apply C; lia].
  - intros v Hv. destruct (Nat.eq_dec v s) as [->|N]; [exact E|apply IH; lia].
Qed.
Lemma first_active_some a x : first_active a = Some x -> x < gn G /\ a x = true /\ lowest a x.
Proof. intros E. pose proof (find_seq a (gn G) 0) as H. unfold first_active in E. rewrite E in H. destruct H as (A & B & C). split; [lia|]. split; [exact B|]. intros v Hv. apply C. lia. Qed.
Lemma first_active_exists a x : x < gn G -> a x = true -> exists y, first_active a = Some y.
Proof. intros Hx A. pose proof (find_seq a (gn G) 0) as H. unfold first_active. destruct (find a (seq 0 (gn G))) as [y|]; [eauto|]. rewrite H in A by lia. discriminate. Qed.
Lemma first_active_is a x : x < gn G -> a x = true -> lowest a x -> first_active a = Some x.
Proof.
  intros Hx A L. destruct (first_active_exists a x Hx A) as [y Ey]. rewrite Ey. destruct (first_active_some a y Ey) as (B1 & B2 & B3). f_equal.
  destruct (Nat.lt_trichotomy x y) as [C|[C|C]]; [rewrite (B3 x C) in A; discriminate|auto|rewrite (L y C) in B2; discriminate].
Qed.
Definition dirty (c : nat -> nat) (a : nat -> bool) : bool :=
  match first_active a with Some x => existsb (fun e => (fst e <? x) && (c (fst e) =? c x)) (gadj G x) | None => false end.
Definition measure (c : nat -> nat) (a : nat -> bool) : nat := 2 * cnt a (seq 0 (gn G)) + if dirty c a then 1 else 0.
Lemma clean_dirty c a x : first_active a = Some x -> (clean c x <-> dirty c a = false).
Proof.
  intros E. unfold dirty. rewrite E. split.
  - intros H. apply not_true_is_false. intros C. apply existsb_exists in C. destruct C as ((v & w) & H1 & H2). cbn [fst] in H2. apply andb_true_iff in H2. destruct H2 as [H2 H3].
    apply Nat.ltb_lt in H2. apply Nat.eqb_eq in H3. exact (H v (ex_intro _ w H1) H2 H3).
  - intros H v [w Hw] L C. assert (X : existsb (fun e => (fst e <? x) && (c (fst e) =? c x)) (gadj G x) = true); [|congruence].
    apply existsb_exists. exists (v, w). split; [exact Hw|]. cbn [fst]. rewrite (proj2 (Nat.ltb_lt v x) L), C, Nat.eqb_refl. reflexivity.
Qed.
Lemma chain_progress is c0 a0 c1 a1 : chain is c0 a0 c1 a1 -> (forall x, x < gn G -> c0 x <> 0) -> (forall x, x < gn G -> exists i, In i is /\ S i x = true) ->
  (exists x, x < gn G /\ a0 x = true) -> measure c1 a1 < measure c0 a0.
Proof.
  intros H HC HV (y & Hy & Ay). destruct (first_active_exists a0 y Hy Ay) as [x Ex]. destruct (first_active_some a0 x Ex) as (Hx & Ax & Lx).
  assert (Mono : forall v, v < gn G -> a1 v = true -> a0 v = true) by (intros v Hv; exact (chain_mono _ _ _ _ _ v H Hv)).
  unfold measure. destruct (a1 x) eqn:A1.
  - assert (Le : cnt a1 (seq 0 (gn G)) <= cnt a0 (seq 0 (gn G))) by (apply cnt_impl; intros v Hv; apply in_seq in Hv; apply Mono; lia).
    assert (L1 : lowest a1 x) by (intros v Hv; apply (chain_off _ _ _ _ _ v H); [lia|exact (Lx v Hv)]).
    pose proof (first_active_is a1 x Hx A1 L1) as E1.
    destruct (chain_dirty _ _ _ _ _ x H Hx Lx (HC x Hx) (HV x Hx)) as [D|D]; [congruence|]. apply (clean_dirty c1 a1 x E1) in D. rewrite D.
    destruct (dirty c0 a0) eqn:D0; [lia|]. apply (clean_dirty c0 a0 x Ex) in D0. rewrite (chain_clean _ _ _ _ _ x H Hx Lx (HC x Hx) D0 (HV x Hx)) in A1. discriminate.
  - assert (Lt : cnt a1 (seq 0 (gn G)) < cnt a0 (seq 0 (gn G))) by (apply (cnt_lt a1 a0 _ x); [intros v Hv; apply in_seq in Hv; apply Mono; lia|apply in_seq; lia|assumption|assumption]).
    destruct (dirty c1 a1), (dirty c0 a0); lia.
Qed.
Lemma measure_max c a : measure c a <= 2 * gn G + 1.
Proof. unfold measure. pose proof (cnt_le a (seq 0 (gn G))) as H. rewrite seq_length in H. destruct (dirty c a); lia. Qed.
End Steps.
