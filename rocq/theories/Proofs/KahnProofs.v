(* Message-passing programs: what ranks compute does not depend on the schedule. *)
From Verif Require Import Lib.Prelude Model.MpiModel Spec.Schedules.

Section Kahn.
Context {M A : Type}.
Implicit Types (C : list (list (list M))) (s : sys M A).

Lemma chan_set_other q r q' r' l C : (q, r) <> (q', r') -> chan q r (set_chan q' r' l C) = chan q r C.
Proof.
  intros H. unfold chan, set_chan. destruct (Nat.eq_dec q' q) as [->|N].
  - assert (r' <> r) by congruence. destruct (Nat.lt_ge_cases q (length C)) as [L|L].
    + rewrite upd_nth_same by exact L. apply upd_nth_other. assumption.
    + rewrite upd_oob by exact L. reflexivity.
  - rewrite upd_nth_other by exact N. reflexivity.
Qed.
Lemma set_chan_comm q r l q' r' l' C : (q, r) <> (q', r') -> set_chan q r l (set_chan q' r' l' C) = set_chan q' r' l' (set_chan q r l C).
Proof.
  intros H. unfold set_chan. destruct (Nat.eq_dec q q') as [<-|N].
  - assert (r <> r') by congruence. destruct (Nat.lt_ge_cases q (length C)) as [L|L].
    + rewrite !upd_nth_same by exact L. rewrite !upd_upd. f_equal. apply upd_comm. assumption.
    + rewrite !(upd_oob q) by (rewrite ?upd_length; exact L). reflexivity.
  - rewrite !upd_nth_other by congruence. apply upd_comm. exact N.
Qed.
Lemma chan_set_same q r l C : q < length C -> r < length (nth q C []) -> chan q r (set_chan q r l C) = l.
Proof. intros H1 H2. unfold chan, set_chan. rewrite upd_nth_same by exact H1. apply upd_nth_same. exact H2. Qed.
Lemma set_chan_twice q r l l' C : set_chan q r l (set_chan q r l' C) = set_chan q r l C.
Proof.
  unfold set_chan. destruct (Nat.lt_ge_cases q (length C)) as [L|L].
  - rewrite upd_nth_same by exact L. rewrite !upd_upd. reflexivity.
  - rewrite !(upd_oob q) by (rewrite ?upd_length; exact L). reflexivity.
Qed.
Lemma chan_cons_range q r C m t : chan q r C = m :: t -> q < length C /\ r < length (nth q C []).
Proof.
  unfold chan. intros H. split.
  - destruct (Nat.lt_ge_cases q (length C)) as [L|L]; [exact L|]. rewrite (nth_overflow C) in H by exact L. destruct r; discriminate.
  - destruct (Nat.lt_ge_cases r (length (nth q C []))) as [L|L]; [exact L|]. rewrite nth_overflow in H by exact L. discriminate.
Qed.

(** Steps of different ranks commute. *)
Lemma diamond a b s sa sb : a <> b -> step a s = Some sa -> step b s = Some sb -> exists s', step b sa = Some s' /\ step a sb = Some s'.
Proof.
  intros N Ha Hb. unfold step in Ha, Hb.
  destruct (nth_error (s_procs s) a) as [pa|] eqn:Ea; [|discriminate]. destruct (nth_error (s_procs s) b) as [pb|] eqn:Eb; [|discriminate].
  assert (Ka : forall k, nth_error (upd b k (s_procs s)) a = Some pa) by (intros k; rewrite upd_nth_error; destruct (Nat.eqb_spec b a); [congruence|exact Ea]).
  assert (Kb : forall k, nth_error (upd a k (s_procs s)) b = Some pb) by (intros k; rewrite upd_nth_error; destruct (Nat.eqb_spec a b); [congruence|exact Eb]).
  destruct pa as [va|da ma ka|qa ka|]; try discriminate; destruct pb as [vb|db mb kb|qb kb|]; try discriminate.
  - destruct (da <? length (s_procs s)) eqn:La; [|discriminate]. destruct (db <? length (s_procs s)) eqn:Lb; [|discriminate]. injection Ha as <-. injection Hb as <-.
    unfold step. cbn [s_procs s_chans]. rewrite Ka, Kb, !upd_length, La, Lb. rewrite !chan_set_other by congruence. eexists. split; [reflexivity|].
    f_equal. f_equal; [apply upd_comm; congruence|apply set_chan_comm; congruence].
  - destruct (da <? length (s_procs s)) eqn:La; [|discriminate]. destruct (chan qb b (s_chans s)) as [|m t] eqn:Cb; [discriminate|]. injection Ha as <-. injection Hb as <-.
    unfold step. cbn [s_procs s_chans]. rewrite Ka, Kb, !upd_length, La.
    destruct (Nat.eq_dec qb a) as [->|Q]; [destruct (Nat.eq_dec b da) as [<-|D]|].
    + destruct (chan_cons_range _ _ _ _ _ Cb) as [R1 R2]. rewrite chan_set_same, Cb by assumption. cbn [app]. rewrite chan_set_same by assumption. eexists. split; [reflexivity|].
      f_equal. f_equal; [apply upd_comm; congruence|]. rewrite !set_chan_twice. reflexivity.
    + rewrite chan_set_other, Cb by congruence. rewrite chan_set_other by congruence. eexists. split; [reflexivity|]. f_equal. f_equal; [apply upd_comm; congruence|apply set_chan_comm; congruence].
    + rewrite chan_set_other, Cb by congruence. rewrite chan_set_other by congruence. eexists. split; [reflexivity|]. f_equal. f_equal; [apply upd_comm; congruence|apply set_chan_comm; congruence].
  - destruct (db <? length (s_procs s)) eqn:Lb; [|discriminate]. destruct (chan qa a (s_chans s)) as [|m t] eqn:Ca; [discriminate|]. injection Ha as <-. injection Hb as <-.
    unfold step. cbn [s_procs s_chans]. rewrite Ka, Kb, !upd_length, Lb.
    destruct (Nat.eq_dec qa b) as [->|Q]; [destruct (Nat.eq_dec a db) as [<-|D]|].
    + destruct (chan_cons_range _ _ _ _ _ Ca) as [R1 R2]. rewrite chan_set_same, Ca by assumption. cbn [app]. rewrite chan_set_same by assumption. eexists. split; [reflexivity|].
      f_equal. f_equal; [apply upd_comm; congruence|]. rewrite !set_chan_twice. reflexivity.
    + rewrite (chan_set_other b a), Ca by congruence. rewrite chan_set_other by congruence. eexists. split; [reflexivity|]. f_equal. f_equal; [apply upd_comm; congruence|apply set_chan_comm; congruence].
    + rewrite (chan_set_other qa a), Ca by congruence. rewrite chan_set_other by congruence. eexists. split; [reflexivity|]. f_equal. f_equal; [apply upd_comm; congruence|apply set_chan_comm; congruence].
  - destruct (chan qa a (s_chans s)) as [|ma ta] eqn:Ca; [discriminate|]. destruct (chan qb b (s_chans s)) as [|mb tb] eqn:Cb; [discriminate|]. injection Ha as <-. injection Hb as <-.
    unfold step. cbn [s_procs s_chans]. rewrite Ka, Kb. rewrite (chan_set_other qb b), (chan_set_other qa a), Ca, Cb by congruence. eexists. split; [reflexivity|].
    f_equal. f_equal; [apply upd_comm; congruence|apply set_chan_comm; congruence].
Qed.

Definition stuck s := forall r, step r s = None.
Lemma one_step sched : forall s fin r s', run sched s = Some fin -> stuck fin -> step r s = Some s' ->
  exists sched', run sched' s' = Some fin /\ length sched = S (length sched').
Proof.
  induction sched as [|x t IH]; intros s fin r s' H F Hr; cbn [run] in H.
  - injection H as ->. rewrite F in Hr. discriminate.
  - destruct (step x s) as [sx|] eqn:Ex; [|discriminate]. destruct (Nat.eq_dec x r) as [->|N].
    + rewrite Ex in Hr. injection Hr as ->. exists t. auto.
    + destruct (diamond x r s sx s' N Ex Hr) as (s2 & A1 & A2). destruct (IH sx fin r s2 H F A1) as (t' & B1 & B2). exists (x :: t'). cbn [run length]. rewrite A2. auto.
Qed.
(** If one run ends with nobody able to step, then every run can be continued to the same end. *)
Lemma confluent sched2 : forall sched1 s fin s', run sched1 s = Some fin -> stuck fin -> run sched2 s = Some s' ->
  exists rest, run rest s' = Some fin /\ length sched1 = length sched2 + length rest.
Proof.
  induction sched2 as [|r t IH]; intros sched1 s fin s' H F H2; cbn [run] in H2.
  - injection H2 as ->. exists sched1. auto.
  - destruct (step r s) as [sr|] eqn:Er; [|discriminate]. destruct (one_step sched1 s fin r sr H F Er) as (t' & A1 & A2). destruct (IH t' sr fin s' A1 F H2) as (rest & B1 & B2).
    exists rest. split; [exact B1|]. cbn [length]. lia.
Qed.

(** Reachability. *)
Definition reach s s' := exists sched, run sched s = Some s'.
Lemma reach_refl s : reach s s.
Proof. exists []. reflexivity. Qed.
Lemma run_app l1 : forall l2 s, run (l1 ++ l2) s = match run l1 s with Some s' => run l2 s' | None => None end.
Proof. induction l1 as [|r t IH]; intros l2 s; cbn [app run]; [reflexivity|]. destruct (step r s); [apply IH|reflexivity]. Qed.
Lemma reach_trans s1 s2 s3 : reach s1 s2 -> reach s2 s3 -> reach s1 s3.
Proof. intros [l1 H1] [l2 H2]. exists (l1 ++ l2). rewrite run_app, H1. exact H2. Qed.
Lemma reach_step r s s' : step r s = Some s' -> reach s s'.
Proof. intros H. exists [r]. cbn [run]. rewrite H. reflexivity. Qed.

Lemma returned_stuck (outs : nat -> A) P C : stuck (Sys (map (fun r => Ret (outs r)) (seq 0 P)) C).
Proof.
  intros r. unfold step. cbn [s_procs]. destruct (nth_error (map (fun r => Ret (outs r)) (seq 0 P)) r) as [p|] eqn:E; [|reflexivity].
  apply nth_error_In in E. apply in_map_iff in E. destruct E as (x & <- & _). reflexivity.
Qed.
Theorem reach_always procs outs C : reach (start procs) (Sys (map (fun r => Ret (outs r)) (seq 0 (length procs))) C) -> @always_returns M A procs outs.
Proof.
  intros [l H]. exists (length l). intros sched s Hs. set (fin := Sys _ C) in H. assert (F : stuck fin) by apply returned_stuck.
  destruct (confluent sched l _ _ _ H F Hs) as (rest & A1 & A2). split; [lia|]. intros St. destruct rest as [|r t]; cbn [run] in A1; [injection A1 as ->; reflexivity|].
  rewrite St in A1. discriminate.
Qed.

(** Programs given by a function of the rank. *)
Definition P_of (f : nat -> proc M A) (P : nat) := map f (seq 0 P).
Definition with_ (f : nat -> proc M A) (r : nat) (k : proc M A) : nat -> proc M A := fun i => if i =? r then k else f i.
Lemma upd_map_seq f r k P : upd r k (P_of f P) = P_of (with_ f r k) P.
Proof.
  unfold P_of, with_. apply nth_ext with (d := k) (d' := k); [rewrite upd_length, !map_length; reflexivity|]. rewrite upd_length, map_length, seq_length. intros i Hi.
  rewrite upd_nth, map_length, seq_length.
  assert (E : forall h : nat -> proc M A, nth i (map h (seq 0 P)) k = h i).
  { intros h. rewrite (nth_indep _ k (h 0)) by (rewrite map_length, seq_length; exact Hi). rewrite map_nth, seq_nth by exact Hi. reflexivity. }
  rewrite E. destruct (Nat.eqb_spec r i) as [->|N]; cbn [andb].
  - destruct (Nat.ltb_spec i P); [|lia]. rewrite E, Nat.eqb_refl. reflexivity.
  - rewrite E. destruct (Nat.eqb_spec i r); [congruence|reflexivity].
Qed.
Lemma nth_P f P r : r < P -> nth_error (P_of f P) r = Some (f r).
Proof.
  intros H. unfold P_of. rewrite (nth_error_nth' _ (f 0)) by (rewrite map_length, seq_length; exact H). f_equal. rewrite map_nth, seq_nth by exact H. reflexivity.
Qed.
Lemma reach_send f P r d m k C : r < P -> d < P -> f r = Send d m k -> reach (Sys (P_of f P) C) (Sys (P_of (with_ f r k) P) (set_chan r d (chan r d C ++ [m]) C)).
Proof.
  intros Hr Hd E. apply (reach_step r). unfold step. cbn [s_procs s_chans]. rewrite nth_P, E, upd_map_seq by exact Hr. unfold P_of at 1. rewrite map_length, seq_length.
  destruct (Nat.ltb_spec d P); [reflexivity|lia].
Qed.
Lemma reach_recv f P r q k m t C : r < P -> f r = Recv q k -> chan q r C = m :: t -> reach (Sys (P_of f P) C) (Sys (P_of (with_ f r (k m)) P) (set_chan q r t C)).
Proof.
  intros Hr E Ec. apply (reach_step r). unfold step. cbn [s_procs s_chans]. rewrite nth_P, E, Ec, upd_map_seq by exact Hr. reflexivity.
Qed.
Lemma P_ext f f' P : (forall i, i < P -> f i = f' i) -> P_of f P = P_of f' P.
Proof. intros H. apply map_ext_in. intros i Hi. apply in_seq in Hi. apply H. lia. Qed.
(** The table of channels has the right size. *)
Definition sized (P : nat) C := length C = P /\ forall q, q < P -> length (nth q C []) = P.
Lemma sized_set P q r l C : sized P C -> sized P (set_chan q r l C).
Proof.
  intros [H1 H2]. unfold set_chan. split; [rewrite upd_length; exact H1|]. intros i Hi. rewrite upd_nth. destruct (Nat.eqb_spec q i) as [->|N]; cbn [andb]; [|apply H2, Hi].
  destruct (i <? length C); [rewrite upd_length|]; apply H2, Hi.
Qed.
Lemma sized_start P : sized P (repeat (repeat (@nil M) P) P).
Proof. split; [apply repeat_length|]. intros q Hq. rewrite (nth_indep _ [] (repeat [] P)) by (rewrite repeat_length; exact Hq). rewrite nth_repeat. apply repeat_length. Qed.
Lemma chan_start P q r : chan q r (repeat (repeat (@nil M) P) P) = [].
Proof.
  unfold chan. destruct (Nat.lt_ge_cases q P) as [L|L]; [|rewrite (nth_overflow (repeat _ _)) by (rewrite repeat_length; exact L); destruct r; reflexivity].
  rewrite (nth_indep _ [] (repeat [] P)) by (rewrite repeat_length; exact L). rewrite !nth_repeat. reflexivity.
Qed.
Lemma chan_set P q r l C q' r' : sized P C -> q < P -> r < P -> chan q' r' (set_chan q r l C) = if (q' =? q) && (r' =? r) then l else chan q' r' C.
Proof.
  intros [H1 H2] Hq Hr. destruct (Nat.eqb_spec q' q) as [->|N]; cbn [andb]; [destruct (Nat.eqb_spec r' r) as [->|N]|].
  - apply chan_set_same; [lia|rewrite H2 by exact Hq; exact Hr].
  - apply chan_set_other. congruence.
  - apply chan_set_other. congruence.
Qed.
End Kahn.
