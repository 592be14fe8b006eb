(* The decision for one node, and the nodes of one rank in one superstep. *)
From Verif Require Import Lib.Prelude Model.ColoringModel Spec.Graph Spec.DistGraphSpec Spec.ColoringSpec.

Lemma first_from_spec m : forall k e, let f := first_unmarked_from m e k in
  e <= f <= e + k /\ (forall x, e <= x < f -> In x m) /\ (f < e + k -> ~ In f m).
Proof.
  induction k as [|k IH]; intros e; cbn [first_unmarked_from].
  - split; [lia|]. split; intros; lia.
  - destruct (existsb (Nat.eqb e) m) eqn:E.
    + apply existsb_exists in E. destruct E as (y & Hy & Ey). apply Nat.eqb_eq in Ey. subst y. specialize (IH (S e)). cbv zeta in IH. destruct IH as (A & B & C).
      split; [lia|]. split; [|intros H; apply C; lia]. intros x Hx. destruct (Nat.eq_dec x e) as [->|N]; [exact Hy|apply B; lia].
    + split; [lia|]. split; [intros; lia|]. intros _ C. assert (existsb (Nat.eqb e) m = true) by (apply existsb_exists; exists e; rewrite Nat.eqb_refl; auto). congruence.
Qed.
Lemma first_unmarked_spec size m : length m < size -> first_unmarked size m <= length m /\ ~ In (first_unmarked size m) m.
Proof.
  intros Hm. pose proof (first_from_spec m size 0) as H. cbv zeta in H. fold (first_unmarked size m) in H. destruct H as (A & B & C).
  assert (first_unmarked size m <= length m).
  { rewrite <- (seq_length (first_unmarked size m) 0). apply NoDup_incl_length; [apply seq_NoDup|]. intros x Hx. apply in_seq in Hx. apply B. lia. }
  split; [assumption|]. apply C. lia.
Qed.
Lemma first_from_ext m1 m2 : (forall x, In x m1 <-> In x m2) -> forall k e, first_unmarked_from m1 e k = first_unmarked_from m2 e k.
Proof.
  intros H. induction k as [|k IH]; intros e; [reflexivity|]. cbn [first_unmarked_from]. rewrite (IH (S e)).
  replace (existsb (Nat.eqb e) m2) with (existsb (Nat.eqb e) m1); [reflexivity|]. apply eq_true_iff_eq. rewrite !existsb_exists.
  split; intros (x & A & B); exists x; (split; [apply H; exact A|exact B]).
Qed.

Section Abstract.
Variables (G : graph) (own : nat -> nat) (size : nat).

Definition marks (u cu : nat) (vw : nat -> nat) (adj : list (nat * Z)) : list nat :=
  flat_map (fun e => let cv := vw (fst e) in
    if negb (cv =? 0) && ((cu =? 0) || negb ((cv =? cu) && (u <? fst e))) then [cv - 1] else []) adj.
Definition iface (u : nat) : bool := existsb (fun e => negb (own (fst e) =? own u)) (gadj G u).
Definition decide (u cu : nat) (vw : nat -> nat) : nat * bool :=
  let m := marks u cu vw (gadj G u) in
  if cu =? 0 then (first_unmarked size m + 1, iface u)
  else if existsb (Nat.eqb (cu - 1)) m then (first_unmarked size m + 1, true) else (cu, false).

Lemma marks_in u cu vw adj x : In x (marks u cu vw adj) <->
  exists v w, In (v, w) adj /\ vw v <> 0 /\ (cu = 0 \/ ~ (vw v = cu /\ u < v)) /\ x = vw v - 1.
Proof.
  unfold marks. rewrite in_flat_map. split.
  - intros ((v & w) & H & C). cbn [fst] in C. cbv zeta in C.
    destruct (Nat.eqb_spec (vw v) 0) as [E|E]; [destruct C|]. cbn [negb andb] in C.
    destruct (Nat.eqb_spec cu 0) as [F|F]; cbn [orb] in C; [destruct C as [<-|[]]; exists v, w; auto|].
    destruct (Nat.eqb_spec (vw v) cu) as [K|K]; cbn [andb negb] in C; [|destruct C as [<-|[]]; exists v, w; split; [exact H|]; split; [exact E|]; split; [right; tauto|reflexivity]].
    destruct (Nat.ltb_spec u v) as [L|L]; cbn [negb] in C; [destruct C|]. destruct C as [<-|[]]. exists v, w. split; [exact H|]. split; [exact E|]. split; [right; lia|reflexivity].
  - intros (v & w & H & E & C & ->). exists (v, w). split; [exact H|]. cbn [fst]. cbv zeta. destruct (Nat.eqb_spec (vw v) 0) as [K|_]; [congruence|]. cbn [negb andb].
    destruct (Nat.eqb_spec cu 0) as [F|F]; cbn [orb]; [left; reflexivity|]. destruct C as [C|C]; [congruence|].
    destruct (Nat.eqb_spec (vw v) cu) as [K|K]; cbn [andb negb]; [|left; reflexivity]. destruct (Nat.ltb_spec u v) as [L|L]; cbn [negb]; [tauto|left; reflexivity].
Qed.
Lemma marks_length u cu vw adj : length (marks u cu vw adj) <= length adj.
Proof.
  induction adj as [|e t IH]; [apply le_n|]. unfold marks in *. cbn [flat_map length]. rewrite app_length. cbv zeta.
  destruct (_ && _); cbn [length]; lia.
Qed.

(** What the decision achieves. *)
Definition nbr (u v : nat) : Prop := exists w, In (v, w) (gadj G u).
Definition effect (u cu : nat) (vw : nat -> nat) (x : nat) (b : bool) : Prop :=
  (x <> 0 /\ x <> cu /\ x <= S (length (gadj G u)) /\ (forall v, nbr u v -> x <> vw v) /\
   (b = false -> iface u = false) /\ (b = true -> cu <> 0 \/ iface u = true) /\
   (cu <> 0 -> exists v, nbr u v /\ vw v = cu /\ v <= u)) \/
  (x = cu /\ cu <> 0 /\ b = false /\ forall v, nbr u v -> vw v = cu -> u < v).
Lemma decide_effect u cu vw : length (gadj G u) < size -> effect u cu vw (fst (decide u cu vw)) (snd (decide u cu vw)).
Proof.
  intros Hs. unfold decide. set (m := marks u cu vw (gadj G u)). assert (Lm : length m <= length (gadj G u)) by apply marks_length.
  destruct (first_unmarked_spec size m ltac:(lia)) as [F1 F2]. set (f := first_unmarked size m) in *. clearbody f.
  assert (Mem : forall v, nbr u v -> vw v <> 0 -> (cu = 0 \/ ~ (vw v = cu /\ u < v)) -> In (vw v - 1) m).
  { intros v [w Hw] A B. apply marks_in. exists v, w. auto. }
  destruct (Nat.eqb_spec cu 0) as [E|E]; cbn [fst snd].
  - left. split; [lia|]. split; [lia|]. split; [lia|]. split; [|split; [auto|split; [auto|congruence]]].
    intros v Hv C. apply F2. replace f with (vw v - 1) by lia. apply Mem; [exact Hv|lia|auto].
  - destruct (existsb (Nat.eqb (cu - 1)) m) eqn:Ex; cbn [fst snd].
    + apply existsb_exists in Ex. destruct Ex as (y & Hy & Ey). apply Nat.eqb_eq in Ey. subst y. left.
      assert (f + 1 <> cu) by (intros C; apply F2; replace f with (cu - 1) by lia; exact Hy).
      split; [lia|]. split; [assumption|]. split; [lia|]. split; [|split; [discriminate|split; [auto|]]].
      * intros v Hv C. apply F2. replace f with (vw v - 1) by lia. apply Mem; [exact Hv|lia|]. right. lia.
      * intros _. apply marks_in in Hy. destruct Hy as (v & w & A & B & C & D). exists v. split; [exists w; exact A|]. destruct C as [C|C]; [congruence|]. lia.
    + right. split; [reflexivity|]. split; [exact E|]. split; [reflexivity|]. intros v Hv Ev. destruct (Nat.lt_ge_cases u v) as [L|L]; [exact L|]. exfalso.
      assert (In (cu - 1) m) by (rewrite <- Ev; apply Mem; [exact Hv|lia|right; lia]).
      assert (existsb (Nat.eqb (cu - 1)) m = true) by (apply existsb_exists; exists (cu - 1); rewrite Nat.eqb_refl; auto). congruence.
Qed.

(** The nodes of one rank. *)
Definition fset {A} (f : nat -> A) (u : nat) (x : A) (v : nat) : A := if v =? u then x else f v.
Lemma fset_same {A} (f : nat -> A) u x : fset f u x u = x. Proof. unfold fset. rewrite Nat.eqb_refl. reflexivity. Qed.
Lemma fset_other {A} (f : nat -> A) u x v : v <> u -> fset f u x v = f v.
Proof. intros H. unfold fset. destruct (Nat.eqb_spec v u); [congruence|reflexivity]. Qed.
Definition view (c0 c : nat -> nat) (r v : nat) : nat := if own v =? r then c v else c0 v.
Definition gnode (c0 : nat -> nat) (s : (nat -> nat) * (nat -> bool)) (u : nat) : (nat -> nat) * (nat -> bool) :=
  if snd s u then let p := decide u (fst s u) (view c0 (fst s) (own u)) in (fset (fst s) u (fst p), fset (snd s) u (snd p)) else s.
Definition grun (c0 : nat -> nat) (us : list nat) s := fold_left (gnode c0) us s.

Variables (c0 : nat -> nat) (a0 : nat -> bool) (r : nat).
Hypothesis Hsize : forall u, u < gn G -> length (gadj G u) < size.
Hypothesis Hsym : forall u v, u < gn G -> nbr u v -> nbr v u.
Hypothesis Hcl : forall u v, u < gn G -> nbr u v -> v < gn G.
Hypothesis Hself : forall u, u < gn G -> ~ nbr u u.
Hypothesis Inv0 : forall x w, x < gn G -> nbr x w -> a0 x = false -> c0 x = c0 w -> x < w /\ a0 w = true.

Lemma grun_inv us : NoDup us -> (forall u, In u us -> u < gn G /\ own u = r) ->
  let c := fst (grun c0 us (c0, a0)) in let a := snd (grun c0 us (c0, a0)) in
  (forall x, ~ In x us \/ a0 x = false -> c x = c0 x /\ a x = a0 x) /\
  (forall x, In x us -> a0 x = true -> exists vw, (forall v, own v <> r \/ a0 v = false -> vw v = c0 v) /\ effect x (c0 x) vw (c x) (a x)) /\
  (forall x w, x < gn G -> nbr x w -> own x = r -> own w = r -> a x = false -> c x = c w -> x < w /\ a w = true).
Proof.
  induction us as [|u t IH] using rev_ind; intros ND Hin.
  - cbn. split; [auto|]. split; [intros x []|]. intros. apply Inv0; assumption.
  - apply NoDup_remove in ND. rewrite app_nil_r in ND. destruct ND as [ND Nu].
    destruct IH as (I0 & I1 & I2); [exact ND|intros x Hx; apply Hin; apply in_or_app; auto|].
    destruct (Hin u ltac:(apply in_or_app; right; left; reflexivity)) as [Hu Ou].
    unfold grun in *. rewrite fold_left_app. cbn [fold_left]. set (s := fold_left (gnode c0) t (c0, a0)) in *. clearbody s. destruct s as [c a]. cbn [fst snd] in *.
    destruct (I0 u (or_introl Nu)) as [Ec Ea]. unfold gnode. cbn [fst snd]. destruct (a u) eqn:Au.
    + set (vw := view c0 c (own u)). pose proof (decide_effect u (c u) vw (Hsize u Hu)) as Ef. set (p := decide u (c u) vw) in *. clearbody p. destruct p as [x b]. cbn [fst snd] in *.
      assert (Vown : forall v, own v = r -> vw v = c v) by (intros v Hv; unfold vw, view; rewrite Ou; destruct (Nat.eqb_spec (own v) r); [reflexivity|congruence]).
      split; [|split].
      * intros y Hy. destruct (Nat.eq_dec y u) as [->|N]; [destruct Hy as [Hy|Hy]; [exfalso; apply Hy; apply in_or_app; right; left; reflexivity|congruence]|].
        rewrite !fset_other by exact N. apply I0. destruct Hy as [Hy|Hy]; [left; intros C; apply Hy; apply in_or_app; auto|auto].
      * intros y Hy Ay. destruct (Nat.eq_dec y u) as [->|N].
        -- rewrite !fset_same. exists vw. split; [|rewrite <- Ec; exact Ef]. intros v [Hv|Hv].
           ++ unfold vw, view. rewrite Ou. destruct (Nat.eqb_spec (own v) r); [congruence|reflexivity].
           ++ unfold vw, view. destruct (Nat.eqb_spec (own v) (own u)); [|reflexivity]. apply I0. auto.
        -- rewrite !fset_other by exact N. apply I1; [|exact Ay]. apply in_app_or in Hy. destruct Hy as [Hy|[Hy|[]]]; [exact Hy|congruence].
      * intros y w Hy Hn Oy Ow Ay Cy. destruct (Nat.eq_dec y u) as [->|N].
        -- assert (Nw : w <> u) by (intros ->; exact (Hself u Hu Hn)). rewrite fset_same in Ay. rewrite fset_same in Cy. rewrite fset_other in Cy by exact Nw. rewrite fset_other by exact Nw.
           destruct Ef as [(_ & _ & _ & D & _)|(-> & D0 & -> & D)]; [exfalso; apply (D w Hn); rewrite (Vown w Ow); exact Cy|].
           assert (L : u < w) by (apply (D w Hn); rewrite (Vown w Ow); congruence). split; [exact L|]. destruct (a w) eqn:Aw; [reflexivity|]. exfalso.
           destruct (I2 w u (Hcl u w Hu Hn) (Hsym u w Hu Hn) Ow Ou Aw ltac:(congruence)). lia.
        -- rewrite fset_other in Ay by exact N. rewrite fset_other in Cy by exact N. destruct (Nat.eq_dec w u) as [->|Nw].
           ++ rewrite fset_same in Cy. pose proof (Hsym y u Hy Hn) as Hn'. exfalso.
              destruct Ef as [(_ & _ & _ & D & _)|(-> & D0 & -> & D)]; [apply (D y Hn'); rewrite (Vown y Oy); congruence|].
              assert (u < y) by (apply (D y Hn'); rewrite (Vown y Oy); exact Cy). destruct (I2 y u Hy Hn Oy Ou Ay Cy). lia.
           ++ rewrite fset_other in Cy by exact Nw. rewrite fset_other by exact Nw. apply I2; assumption.
    + cbn [fst snd]. split; [|split].
      * intros y Hy. apply I0. destruct Hy as [Hy|Hy]; [left; intros C; apply Hy; apply in_or_app; auto|auto].
      * intros y Hy Ay. apply I1; [|exact Ay]. apply in_app_or in Hy. destruct Hy as [Hy|[<-|[]]]; [exact Hy|congruence].
      * exact I2.
Qed.
End Abstract.
