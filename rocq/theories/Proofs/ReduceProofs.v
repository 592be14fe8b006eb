(* perform_binary_reduction combines every rank's buffer exactly once, for every schedule. *)
From Verif Require Import Lib.Prelude Model.MpiModel Spec.Schedules Proofs.KahnProofs.

Section Reduce.
Context {X : Type}.
Variable sy : nat -> nat -> bool.
Variable comb : X -> X -> X.
Variables (empty token : X).
Variable P : nat.
Notation prog := (proc X (option X)).
Notation loop := (reduce_loop sy comb token).
Definition quiet (C : list (list (list X))) := sized P C /\ forall q r, chan q r C = [].

Lemma pair_exchange (f : nat -> prog) C r q x K : quiet C -> r < P -> q < P -> r <> q ->
  f r = Recv q (fun m => let rest := K m in if sy q r then Send q token rest else rest) ->
  f q = Send r x (if sy q r then Recv r (fun _ => Ret None) else Ret None) ->
  exists C', quiet C' /\ reach (Sys (P_of f P) C) (Sys (P_of (with_ (with_ f q (Ret None)) r (K x)) P) C').
Proof.
  intros [HS HQ] Hr Hq N Er Eq. set (k1 := if sy q r then Recv r (fun _ => Ret None) else Ret None) in *.
  set (C1 := set_chan q r (chan q r C ++ [x]) C). set (f1 := with_ f q k1).
  assert (R1 : reach (Sys (P_of f P) C) (Sys (P_of f1 P) C1)) by (apply reach_send; trivial).
  assert (S1 : sized P C1) by (apply sized_set; exact HS).
  assert (E1 : chan q r C1 = x :: []) by (unfold C1; rewrite (chan_set P) by assumption; rewrite !Nat.eqb_refl; cbn [andb]; rewrite HQ; reflexivity).
  assert (F1 : f1 r = f r) by (unfold f1, with_; destruct (Nat.eqb_spec r q); [contradiction|reflexivity]).
  rewrite Er in F1. set (C2 := set_chan q r [] C1). set (f2 := with_ f1 r (let rest := K x in if sy q r then Send q token rest else rest)).
  assert (R2 : reach (Sys (P_of f1 P) C1) (Sys (P_of f2 P) C2)) by (apply (reach_recv f1 P r q _ x [] C1 Hr F1 E1)).
  assert (S2 : sized P C2) by (apply sized_set; exact S1).
  assert (Q2 : forall a b, chan a b C2 = []).
  { intros a b. unfold C2. rewrite (chan_set P) by assumption. destruct ((a =? q) && (b =? r)) eqn:E; [reflexivity|]. unfold C1. rewrite (chan_set P), E by assumption. apply HQ. }
  destruct (Bool.bool_dec (sy q r) true) as [Es|Es]; [|apply Bool.not_true_is_false in Es].
  - set (C3 := set_chan r q (chan r q C2 ++ [token]) C2). set (f3 := with_ f2 r (K x)).
    assert (R3 : reach (Sys (P_of f2 P) C2) (Sys (P_of f3 P) C3)) by (apply reach_send; trivial; unfold f2, with_; rewrite Nat.eqb_refl, Es; reflexivity).
    assert (E3 : chan r q C3 = token :: []) by (unfold C3; rewrite (chan_set P) by assumption; rewrite !Nat.eqb_refl; cbn [andb]; rewrite Q2; reflexivity).
    assert (F3 : f3 q = Recv r (fun _ => Ret None)).
    { unfold f3, f2, f1, k1, with_. rewrite Nat.eqb_refl, Es. destruct (Nat.eqb_spec q r); [congruence|reflexivity]. }
    exists (set_chan r q [] C3). split.
    + split; [do 2 apply sized_set; exact S2|]. intros a b. rewrite (chan_set P) by (trivial; apply sized_set; exact S2). destruct ((a =? r) && (b =? q)) eqn:E; [reflexivity|]. unfold C3. rewrite (chan_set P), E by assumption. apply Q2.
    + eapply reach_trans; [exact R1|]. eapply reach_trans; [exact R2|]. eapply reach_trans; [exact R3|].
      eapply reach_trans; [apply (reach_recv f3 P q r _ token [] C3 Hq F3 E3)|].
      replace (P_of (with_ f3 q (Ret None)) P) with (P_of (with_ (with_ f q (Ret None)) r (K x)) P); [apply reach_refl|].
      apply P_ext. intros i Hi. unfold f3, f2, f1, with_. destruct (Nat.eqb_spec i r), (Nat.eqb_spec i q); try reflexivity. congruence.
  - exists C2. split; [split; assumption|]. eapply reach_trans; [exact R1|]. eapply reach_trans; [exact R2|].
    replace (P_of f2 P) with (P_of (with_ (with_ f q (Ret None)) r (K x)) P); [apply reach_refl|].
    apply P_ext. intros i Hi. unfold f2, f1, k1, with_. rewrite Es. reflexivity.
Qed.

(** One round. *)
Definition vals (active : nat) (v : nat -> X) (i : nat) : X := if (i =? 0) && (active mod 2 =? 1) then v 0 else comb (v i) (v (i + active / 2)).
Definition state (fuel active : nat) (v : nat -> X) (i : nat) : prog := if i <? active then loop fuel i active (v i) else Ret None.
Lemma half_facts a : exists h lo, a / 2 = h /\ a mod 2 = lo /\ a = 2 * h + lo /\ (lo = 0 \/ lo = 1) /\ (a + 1) / 2 = h + lo.
Proof.
  exists (a / 2), (a mod 2). pose proof (Nat.div_mod a 2 ltac:(lia)) as D. pose proof (Nat.mod_upper_bound a 2 ltac:(lia)) as U. repeat split; [exact D|lia|].
  symmetry. apply Nat.div_unique with (1 - a mod 2); lia.
Qed.
Lemma round fuel active v C : 1 < active -> active <= P -> quiet C ->
  exists C', quiet C' /\ reach (Sys (P_of (state (S fuel) active v) P) C) (Sys (P_of (state fuel (active / 2 + active mod 2) (vals active v)) P) C').
Proof.
  intros H1 HP HC. destruct (half_facts active) as (h & lo & Eh & El & Ea & Hlo & Ec). 
  set (mid := fun j i => if i <? lo then loop fuel i (h + lo) (v i)
                         else if i <? lo + j then loop fuel i (h + lo) (comb (v i) (v (i + h)))
                         else if i <? lo + h then state (S fuel) active v i
                         else if i <? lo + h + j then Ret None else state (S fuel) active v i).
  assert (G : forall j, j <= h -> exists C', quiet C' /\ reach (Sys (P_of (mid 0) P) C) (Sys (P_of (mid j) P) C')).
  { induction j as [|j IH]; intros Hj; [exists C; split; [exact HC|apply reach_refl]|]. destruct IH as (C1 & Q1 & R1); [lia|].
    assert (Er : mid j (lo + j) = Recv (lo + j + h) (fun m => let rest := loop fuel (lo + j) (h + lo) (comb (v (lo + j)) m) in if sy (lo + j + h) (lo + j) then Send (lo + j + h) token rest else rest)).
    { unfold mid. destruct (Nat.ltb_spec (lo + j) lo); [lia|]. destruct (Nat.ltb_spec (lo + j) (lo + j)); [lia|]. destruct (Nat.ltb_spec (lo + j) (lo + h)); [|lia].
      unfold state. destruct (Nat.ltb_spec (lo + j) active); [|lia]. cbn [reduce_loop]. rewrite Eh, El, Ec. destruct (Nat.leb_spec active 1); [lia|]. destruct (Nat.leb_spec active (lo + j)); [lia|].
      replace ((lo + j =? 0) && (lo =? 1)) with false by (destruct Hlo as [->| ->]; [rewrite andb_comm|]; reflexivity). destruct (Nat.ltb_spec (lo + j) (h + lo)); [reflexivity|lia]. }
    assert (Eq : mid j (lo + j + h) = Send (lo + j) (v (lo + j + h)) (if sy (lo + j + h) (lo + j) then Recv (lo + j) (fun _ => Ret None) else Ret None)).
    { unfold mid. destruct (Nat.ltb_spec (lo + j + h) lo); [lia|]. destruct (Nat.ltb_spec (lo + j + h) (lo + j)); [lia|]. destruct (Nat.ltb_spec (lo + j + h) (lo + h)); [lia|]. destruct (Nat.ltb_spec (lo + j + h) (lo + h + j)); [lia|].
      unfold state. destruct (Nat.ltb_spec (lo + j + h) active); [|lia]. cbn [reduce_loop]. rewrite Eh, El, Ec. destruct (Nat.leb_spec active 1); [lia|]. destruct (Nat.leb_spec active (lo + j + h)); [lia|].
      destruct (Nat.eqb_spec (lo + j + h) 0); [lia|]. cbn [andb]. destruct (Nat.ltb_spec (lo + j + h) (h + lo)); [lia|]. replace (lo + j + h - h) with (lo + j) by lia. reflexivity. }
    destruct (pair_exchange (mid j) C1 (lo + j) (lo + j + h) (v (lo + j + h)) (fun m => loop fuel (lo + j) (h + lo) (comb (v (lo + j)) m)) Q1) as (C2 & Q2 & R2); [lia|lia|lia|exact Er|exact Eq|].
    exists C2. split; [exact Q2|]. eapply reach_trans; [exact R1|]. eapply reach_trans; [exact R2|].
    replace (P_of (mid (S j)) P) with (P_of (with_ (with_ (mid j) (lo + j + h) (Ret None)) (lo + j) (loop fuel (lo + j) (h + lo) (comb (v (lo + j)) (v (lo + j + h))))) P); [apply reach_refl|].
    apply P_ext. intros i Hi. unfold with_, mid. destruct (Nat.eqb_spec i (lo + j)) as [->|N1].
    - destruct (Nat.ltb_spec (lo + j) lo); [lia|]. destruct (Nat.ltb_spec (lo + j) (lo + S j)); [reflexivity|lia].
    - destruct (Nat.eqb_spec i (lo + j + h)) as [->|N2].
      + destruct (Nat.ltb_spec (lo + j + h) lo); [lia|]. destruct (Nat.ltb_spec (lo + j + h) (lo + S j)); [lia|]. destruct (Nat.ltb_spec (lo + j + h) (lo + h)); [lia|]. destruct (Nat.ltb_spec (lo + j + h) (lo + h + S j)); [reflexivity|lia].
      + destruct (Nat.ltb_spec i lo); [reflexivity|]. destruct (Nat.ltb_spec i (lo + j)), (Nat.ltb_spec i (lo + S j)); try lia; try reflexivity.
        destruct (Nat.ltb_spec i (lo + h)); [reflexivity|]. destruct (Nat.ltb_spec i (lo + h + j)), (Nat.ltb_spec i (lo + h + S j)); try lia; reflexivity. }
  destruct (G h (le_n _)) as (C' & Q' & R'). exists C'. split; [exact Q'|].
  replace (P_of (state (S fuel) active v) P) with (P_of (mid 0) P).
  - replace (P_of (state fuel (active / 2 + active mod 2) (vals active v)) P) with (P_of (mid h) P); [exact R'|].
    apply P_ext. intros i Hi. unfold mid, state, vals. rewrite Eh, El. destruct (Nat.ltb_spec i lo).
    + destruct (Nat.ltb_spec i (h + lo)); [|lia]. assert (i = 0) by lia. subst i. assert (L1 : lo = 1) by lia. rewrite L1. reflexivity.
    + destruct (Nat.ltb_spec i (lo + h)), (Nat.ltb_spec i (h + lo)); try lia.
      * replace ((i =? 0) && (lo =? 1)) with false; [reflexivity|]. symmetry. destruct (Nat.eqb_spec i 0), (Nat.eqb_spec lo 1); cbn; try reflexivity; lia.
      * destruct (Nat.ltb_spec i (lo + h + h)); [reflexivity|]. unfold state. destruct (Nat.ltb_spec i active); [lia|reflexivity].
  - apply P_ext. intros i Hi. unfold mid. rewrite !Nat.add_0_r. destruct (Nat.ltb_spec i lo) as [L|L].
    + unfold state. destruct (Nat.ltb_spec i active); [|lia]. assert (i = 0) by lia. subst i. assert (L1 : lo = 1) by lia. cbn [reduce_loop]. rewrite Eh, El. destruct (Nat.leb_spec active 1); [lia|]. destruct (Nat.leb_spec active 0); [lia|]. rewrite L1. reflexivity.
    + destruct (i <? lo + h); reflexivity.
Qed.

(** All rounds. *)
Definition tvals (active : nat) (t : nat -> tree) (i : nat) : tree := if (i =? 0) && (active mod 2 =? 1) then t 0 else Node (t i) (t (i + active / 2)).
Lemma flat_map_pairs {Y} (a : nat -> list Y) h : forall lo, Permutation (flat_map (fun i => a i ++ a (i + h)) (seq lo h)) (flat_map a (seq lo (h + h))).
Proof.
  intros lo. rewrite seq_app, flat_map_app.
  assert (G : forall n b, Permutation (flat_map (fun i => a i ++ a (i + h)) (seq b n)) (flat_map a (seq b n) ++ flat_map a (seq (b + h) n))).
  { induction n as [|n IH]; intros b; cbn [seq flat_map]; [apply Permutation_refl|]. rewrite <- !app_assoc. apply Permutation_app_head. eapply Permutation_trans; [apply Permutation_app_head, IH|].
    replace (S b + h) with (S (b + h)) by lia. rewrite !app_assoc. apply Permutation_app_tail, Permutation_app_comm. }
  apply G.
Qed.
Lemma tvals_leaves active t : Permutation (flat_map (fun i => leaves (tvals active t i)) (seq 0 (active / 2 + active mod 2))) (flat_map (fun i => leaves (t i)) (seq 0 active)).
Proof.
  destruct (half_facts active) as (h & lo & Eh & El & Ea & Hlo & _). rewrite Eh, El. replace (h + lo) with (lo + h) by lia. replace (seq 0 active) with (seq 0 (lo + (h + h))) by (f_equal; lia). rewrite !(seq_app lo), !flat_map_app. cbn [Nat.add].
  apply Permutation_app.
  - destruct Hlo as [->| ->]; [apply Permutation_refl|]. cbn [seq flat_map]. unfold tvals. rewrite Nat.eqb_refl, El. apply Permutation_refl.
  - replace (flat_map (fun i => leaves (tvals active t i)) (seq lo h)) with (flat_map (fun i => leaves (t i) ++ leaves (t (i + h))) (seq lo h)); [apply (flat_map_pairs (fun i => leaves (t i)))|]. rewrite !flat_map_concat_map. f_equal. apply map_ext_in. intros i Hi. apply in_seq in Hi.
    unfold tvals. rewrite El, Eh. replace ((i =? 0) && (lo =? 1)) with false; [reflexivity|]. symmetry. destruct (Nat.eqb_spec i 0), (Nat.eqb_spec lo 1); cbn; try reflexivity; lia.
Qed.
Variable x : nat -> X.
Lemma rounds fuel : forall active t C, 1 <= active -> active <= fuel -> active <= P -> quiet C -> Permutation (flat_map (fun i => leaves (t i)) (seq 0 active)) (seq 0 P) ->
  exists C' tr, Permutation (leaves tr) (seq 0 P) /\ (1 < active -> exists a b, tr = Node a b) /\
    reach (Sys (P_of (state fuel active (fun i => eval comb x (t i))) P) C) (Sys (P_of (fun r => Ret (if r =? 0 then Some (eval comb x tr) else None)) P) C').
Proof.
  induction fuel as [|fuel IH]; intros active t C H1 Hf HP HC Hl; [lia|]. destruct (Nat.eq_dec active 1) as [->|N].
  - exists C, (t 0). cbn [seq flat_map] in Hl. rewrite app_nil_r in Hl. split; [exact Hl|]. split; [lia|].
    replace (P_of (state (S fuel) 1 (fun i => eval comb x (t i))) P) with (P_of (fun r => @Ret X (option X) (if r =? 0 then Some (eval comb x (t 0)) else None)) P); [apply reach_refl|].
    apply P_ext. intros i Hi. unfold state. destruct (Nat.ltb_spec i 1), (Nat.eqb_spec i 0); try lia; [subst; reflexivity|reflexivity].
  - destruct (half_facts active) as (h & lo & Eh & El & Ea & Hlo & _).
    destruct (round fuel active (fun i => eval comb x (t i)) C) as (C1 & Q1 & R1); [lia|exact HP|exact HC|].
    destruct (IH (active / 2 + active mod 2) (tvals active t) C1) as (C2 & tr & A1 & A2 & A3); [lia|lia|lia|exact Q1|eapply Permutation_trans; [apply tvals_leaves|exact Hl]|].
    exists C2, tr. split; [exact A1|]. split.
    + intros _. destruct (Nat.eq_dec (active / 2 + active mod 2) 1) as [E|E]; [|apply A2; lia]. destruct tr as [r|a b]; [|eauto]. cbn in A1. apply Permutation_length in A1. rewrite seq_length in A1. cbn in A1. lia.
    + eapply reach_trans; [exact R1|]. replace (P_of (state fuel (active / 2 + active mod 2) (vals active (fun i => eval comb x (t i)))) P) with (P_of (state fuel (active / 2 + active mod 2) (fun i => eval comb x (tvals active t i))) P); [exact A3|].
      apply P_ext. intros i Hi. unfold state. f_equal. f_equal. unfold vals, tvals. destruct ((i =? 0) && (active mod 2 =? 1)); reflexivity.
Qed.

Theorem reduction_ok : 0 < P ->
  exists v, always_returns (map (fun r => reduce_prog sy comb empty token P r (x r)) (seq 0 P)) (fun r => if r =? 0 then Some v else None) /\
    (P = 1 -> v = comb (x 0) empty) /\
    (1 < P -> exists a b, Permutation (leaves (Node a b)) (seq 0 P) /\ v = eval comb x (Node a b)).
Proof.
  intros HP. set (f := fun r => reduce_prog sy comb empty token P r (x r)).
  assert (SL : length (map f (seq 0 P)) = P) by (rewrite map_length, seq_length; reflexivity).
  destruct (Nat.eq_dec P 1) as [E1|N1].
  - exists (comb (x 0) empty). split; [|split; [reflexivity|lia]].
    apply (reach_always _ _ (repeat (repeat [] P) P)). unfold start. rewrite SL. replace (map f (seq 0 P)) with (map (fun r => @Ret X (option X) (if r =? 0 then Some (comb (x 0) empty) else None)) (seq 0 P)); [apply reach_refl|].
    apply map_ext_in. intros r Hr. apply in_seq in Hr. assert (r = 0) by lia. subst r. unfold f, reduce_prog. rewrite E1. reflexivity.
  - destruct (rounds (S P) P (fun r => Leaf r) (repeat (repeat [] P) P)) as (C' & tr & A1 & A2 & A3); [lia|lia|lia|split; [apply sized_start|apply chan_start]| |].
    + cbn [leaves]. rewrite flat_map_concat_map. clear. induction (seq 0 P) as [|a t IH]; [apply Permutation_refl|]. cbn. apply perm_skip, IH.
    + destruct A2 as (a & b & ->); [lia|]. exists (eval comb x (Node a b)). split; [|split; [lia|exists a, b; auto]].
      apply (reach_always _ _ C'). unfold start. rewrite SL. unfold P_of in A3. replace (map f (seq 0 P)) with (map (state (S P) P (fun i => eval comb x (Leaf i))) (seq 0 P)); [exact A3|].
      apply map_ext_in. intros r Hr. apply in_seq in Hr. unfold state, f, reduce_prog. destruct (Nat.ltb_spec r P); [|lia]. destruct (Nat.eqb_spec P 1); [lia|reflexivity].
Qed.
End Reduce.
