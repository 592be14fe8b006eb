(* sparse_alltoall_complete delivers every message, for every schedule. *)
From Verif Require Import Lib.Prelude Model.MpiModel Spec.Schedules Proofs.KahnProofs.

Section Phase.
Context {M A : Type}.
Variable P : nat.
Lemma phase (f g : nat -> proc M A) (I : nat -> list (list (list M)) -> Prop) C :
  (forall n C (h : nat -> proc M A), n < P -> I n C -> exists C', I (S n) C' /\ reach (Sys (P_of (with_ h n (f n)) P) C) (Sys (P_of (with_ h n (g n)) P) C')) ->
  I 0 C -> exists C', I P C' /\ reach (Sys (P_of f P) C) (Sys (P_of g P) C').
Proof.
  intros H H0. assert (G : forall n, n <= P -> exists C', I n C' /\ reach (Sys (P_of f P) C) (Sys (P_of (fun i => if i <? n then g i else f i) P) C')).
  { induction n as [|n IH]; intros Hn; [exists C; split; [exact H0|apply reach_refl]|]. destruct IH as (C1 & I1 & R1); [lia|].
    destruct (H n C1 (fun i => if i <? n then g i else f i)) as (C2 & I2 & R2); [lia|exact I1|]. exists C2. split; [exact I2|]. eapply reach_trans; [exact R1|].
    replace (P_of (fun i => if i <? n then g i else f i) P) with (P_of (with_ (fun i => if i <? n then g i else f i) n (f n)) P).
    - replace (P_of (fun i => if i <? S n then g i else f i) P) with (P_of (with_ (fun i => if i <? n then g i else f i) n (g n)) P); [exact R2|].
      apply P_ext. intros i Hi. unfold with_. destruct (Nat.eqb_spec i n) as [->|N]; [destruct (Nat.ltb_spec n (S n)); [reflexivity|lia]|]. destruct (Nat.ltb_spec i n), (Nat.ltb_spec i (S n)); try lia; reflexivity.
    - apply P_ext. intros i Hi. unfold with_. destruct (Nat.eqb_spec i n) as [->|N]; [rewrite Nat.ltb_irrefl; reflexivity|reflexivity]. }
  destruct (G P (le_n _)) as (C' & I' & R'). exists C'. split; [exact I'|]. replace (P_of g P) with (P_of (fun i => if i <? P then g i else f i) P); [exact R'|].
  apply P_ext. intros i Hi. destruct (Nat.ltb_spec i P); [reflexivity|lia].
Qed.
Lemma with_with (h : nat -> proc M A) r a b : P_of (with_ (with_ h r a) r b) P = P_of (with_ h r b) P.
Proof. apply P_ext. intros i Hi. unfold with_. destruct (i =? r); reflexivity. Qed.
Lemma with_at (h : nat -> proc M A) r a : with_ h r a r = a.
Proof. unfold with_. rewrite Nat.eqb_refl. reflexivity. Qed.
End Phase.

Section Complete.
Context {X : Type}.
Variable sy : nat -> nat -> bool.
Variable P : nat.
Variable B : list (list (list X)).
Hypothesis HB : length B = P.
Hypothesis HBr : forall b, In b B -> length b = P.
Definition Bm (q d : nat) : list X := nth d (nth q B []) [].
Notation flags := (nat -> nat -> bool).
Notation prog := (proc (list X) (list (nat * list X))).
Definition chan_ok (S G A : flags) (C : list (list (list (list X)))) : Prop :=
  sized P C /\ forall q d, q < P -> d < P -> q <> d ->
    chan q d C = (if S q d && negb (G d q) then [Bm q d] else []) ++ (if G q d && sy d q && negb (A d q) then [ack] else []).
Lemma chan_ok_ext S G A S' G' A' C : (forall q d, q < P -> d < P -> q <> d -> S q d = S' q d /\ G q d = G' q d /\ A q d = A' q d) -> chan_ok S G A C -> chan_ok S' G' A' C.
Proof.
  intros H [H1 H2]. split; [exact H1|]. intros q d Hq Hd N. rewrite H2 by assumption. destruct (H q d Hq Hd N) as (E1 & E2 & _). destruct (H d q Hd Hq ltac:(congruence)) as (_ & E3 & E4). rewrite E1, E2, E3, E4. reflexivity.
Qed.
Definition mem (d : nat) (l : list nat) : bool := existsb (Nat.eqb d) l.
Definition add (r : nat) (l : list nat) (F : flags) : flags := fun q d => (q =? r) && mem d l || F q d.
Lemma mem_in d l : mem d l = true <-> In d l.
Proof. unfold mem. rewrite existsb_exists. split; [intros (x & H & E); apply Nat.eqb_eq in E; subst; exact H|intros H; exists d; rewrite Nat.eqb_refl; auto]. Qed.
Lemma mem_all d : d < P -> mem d (seq 0 P) = true.
Proof. intros H. apply mem_in, in_seq. lia. Qed.
Lemma row_nth r d : r < P -> d < P -> nth_error (nth r B []) d = Some (Bm r d).
Proof. intros Hr Hd. apply nth_error_nth'. rewrite HBr by (apply nth_In; lia). exact Hd. Qed.
Definition none : flags := fun _ _ => false.

Lemma sends_ok r (k : prog) : r < P -> forall pes S h C, NoDup pes -> (forall d, In d pes -> d < P) -> (forall d, In d pes -> S r d = false) -> chan_ok S none none C ->
  exists C', chan_ok (add r pes S) none none C' /\ reach (Sys (P_of (with_ h r (post_sends r (nth r B []) pes k)) P) C) (Sys (P_of (with_ h r k) P) C').
Proof.
  intros Hr. induction pes as [|pe t IH]; intros S h C ND HP HS HC; cbn [post_sends].
  - exists C. split; [|apply reach_refl]. eapply chan_ok_ext; [|exact HC]. intros q d _ _ _. unfold add. cbn. rewrite andb_false_r. auto.
  - inversion ND as [|? ? NI ND']; subst. assert (Hpe : pe < P) by (apply HP; left; reflexivity). destruct (Nat.eqb_spec pe r) as [->|N].
    + destruct (IH S h C ND') as (C' & A1 & A2); [intros d Hd; apply HP; right; exact Hd|intros d Hd; apply HS; right; exact Hd|exact HC|]. exists C'. split; [|exact A2].
      eapply chan_ok_ext; [|exact A1]. intros q d Hq Hd Nqd. unfold add, mem. cbn [existsb]. repeat split. destruct (Nat.eqb_spec q r), (Nat.eqb_spec d r); cbn [orb andb]; try reflexivity. congruence.
    + rewrite row_nth by assumption. destruct HC as [Hs Hc].
      set (C1 := set_chan r pe (chan r pe C ++ [Bm r pe]) C).
      assert (O1 : chan_ok (add r [pe] S) none none C1).
      { split; [apply sized_set; exact Hs|]. intros q d Hq Hd Nqd. unfold C1. rewrite (chan_set P) by assumption. unfold add, mem. cbn [existsb]. rewrite orb_false_r. destruct (Nat.eqb_spec q r) as [->|Nq]; cbn [andb orb].
        - destruct (Nat.eqb_spec d pe) as [->|Nd]; cbn [andb orb]; [|apply Hc; assumption]. rewrite Hc by congruence. rewrite (HS pe) by (left; reflexivity). reflexivity.
        - apply Hc; assumption. }
      destruct (IH (add r [pe] S) h C1 ND') as (C' & A1 & A2); [intros d Hd; apply HP; right; exact Hd| |exact O1|].
      * intros d Hd. unfold add, mem. cbn [existsb]. rewrite (HS d) by (right; exact Hd). rewrite Nat.eqb_refl, !orb_false_r. cbn [andb]. destruct (Nat.eqb_spec d pe); [subst; contradiction|reflexivity].
      * exists C'. split.
        -- eapply chan_ok_ext; [|exact A1]. intros q d _ _ _. unfold add, mem. cbn [existsb]. repeat split. destruct (q =? r), (d =? pe), (existsb (Nat.eqb d) t), (S q d); reflexivity.
        -- eapply reach_trans; [|exact A2]. rewrite <- (with_with P h r (Send pe (Bm r pe) (post_sends r (nth r B []) t k)) (post_sends r (nth r B []) t k)). apply reach_send; trivial. apply with_at.
Qed.

Definition all_sent : flags := fun _ _ => true.
Lemma receives_ok r (K : list (nat * list X) -> prog) : r < P -> forall pes calls G h C, NoDup pes -> (forall d, In d pes -> d < P) -> (forall d, In d pes -> G r d = false) -> chan_ok all_sent G none C ->
  exists C', chan_ok all_sent (add r pes G) none C' /\
    reach (Sys (P_of (with_ h r (receive_all sy r (nth r B []) pes calls K)) P) C) (Sys (P_of (with_ h r (K (calls ++ map (fun pe => (pe, Bm pe r)) pes))) P) C').
Proof.
  intros Hr. induction pes as [|pe t IH]; intros calls G h C ND HP HG HC; cbn [receive_all map].
  - exists C. split; [|rewrite app_nil_r; apply reach_refl]. eapply chan_ok_ext; [|exact HC]. intros q d _ _ _. unfold add. cbn. rewrite andb_false_r. auto.
  - inversion ND as [|? ? NI ND']; subst. assert (Hpe : pe < P) by (apply HP; left; reflexivity). destruct (Nat.eqb_spec pe r) as [->|N].
    + rewrite row_nth by assumption. destruct (IH (calls ++ [(r, Bm r r)]) G h C ND') as (C' & A1 & A2); [intros d Hd; apply HP; right; exact Hd|intros d Hd; apply HG; right; exact Hd|exact HC|]. exists C'. split.
      * eapply chan_ok_ext; [|exact A1]. intros q d Hq Hd Nqd. unfold add, mem. cbn [existsb]. repeat split. destruct (Nat.eqb_spec q r), (Nat.eqb_spec d r); cbn [orb andb]; try reflexivity. congruence.
      * rewrite <- app_assoc in A2. exact A2.
    + assert (HGr : G r pe = false) by (apply HG; left; reflexivity). destruct HC as [Hs Hc].
      set (acks := if G pe r && sy r pe && negb (none r pe) then [@ack X] else []).
      assert (E0 : chan pe r C = Bm pe r :: acks) by (rewrite Hc by congruence; rewrite HGr; reflexivity).
      set (C1 := set_chan pe r acks C). assert (S1 : sized P C1) by (apply sized_set; exact Hs).
      set (next := receive_all sy r (nth r B []) t (calls ++ [(pe, Bm pe r)]) K).
      assert (R1 : reach (Sys (P_of (with_ h r (Recv pe (fun m => let nx := receive_all sy r (nth r B []) t (calls ++ [(pe, m)]) K in if sy pe r then Send pe ack nx else nx))) P) C)
                     (Sys (P_of (with_ h r (if sy pe r then Send pe ack next else next)) P) C1)).
      { rewrite <- (with_with P h r (Recv pe (fun m => let nx := receive_all sy r (nth r B []) t (calls ++ [(pe, m)]) K in if sy pe r then Send pe ack nx else nx)) (if sy pe r then Send pe ack next else next)).
        refine (reach_recv (with_ h r _) P r pe (fun m => let nx := receive_all sy r (nth r B []) t (calls ++ [(pe, m)]) K in if sy pe r then Send pe ack nx else nx) (Bm pe r) acks C Hr _ E0). apply with_at. }
      assert (Q : exists C2, chan_ok all_sent (add r [pe] G) none C2 /\ reach (Sys (P_of (with_ h r (if sy pe r then Send pe ack next else next)) P) C1) (Sys (P_of (with_ h r next) P) C2)).
      { destruct (sy pe r) eqn:Es.
        - exists (set_chan r pe (chan r pe C1 ++ [ack]) C1). split.
          + split; [apply sized_set; exact S1|]. intros q d Hq Hd Nqd. rewrite (chan_set P) by assumption. unfold add, mem, all_sent, none. cbn [existsb andb negb]. rewrite !orb_false_r.
            destruct (Nat.eqb_spec q r) as [->|Nq]; cbn [andb orb].
            * destruct (Nat.eqb_spec d pe) as [->|Nd]; cbn [andb orb].
              -- unfold C1. rewrite (chan_set P) by assumption. destruct (Nat.eqb_spec r pe); [congruence|]. cbn [andb]. rewrite Hc by congruence. unfold all_sent, none. rewrite HGr, Es. cbn [andb orb negb].
                 destruct (Nat.eqb_spec pe r); [congruence|]. cbn [andb orb]. rewrite app_nil_r. reflexivity.
              -- unfold C1. rewrite (chan_set P) by assumption. destruct (Nat.eqb_spec r pe); [congruence|]. cbn [andb]. rewrite Hc by congruence. unfold all_sent, none. cbn [andb negb].
                 destruct (Nat.eqb_spec d r); [congruence|]. reflexivity.
            * unfold C1. rewrite (chan_set P) by assumption. destruct (Nat.eqb_spec q pe) as [->|Nqp]; cbn [andb].
              -- destruct (Nat.eqb_spec d r) as [->|Ndr]; cbn [andb orb negb].
                 ++ unfold acks, none. cbn [negb]. rewrite !andb_true_r. reflexivity.
                 ++ rewrite Hc by congruence. unfold all_sent, none. cbn [andb negb]. reflexivity.
              -- rewrite Hc by congruence. unfold all_sent, none. cbn [andb negb]. rewrite andb_false_r. reflexivity.
          + rewrite <- (with_with P h r (Send pe ack next) next). apply reach_send; trivial. apply with_at.
        - exists C1. split; [|apply reach_refl]. split; [exact S1|]. intros q d Hq Hd Nqd. unfold C1. rewrite (chan_set P) by assumption. unfold add, mem, all_sent, none. cbn [existsb andb negb]. rewrite !orb_false_r.
          destruct (Nat.eqb_spec q r) as [->|Nq]; cbn [andb orb].
          + destruct (Nat.eqb_spec r pe); [congruence|]. cbn [andb]. rewrite Hc by congruence. unfold all_sent, none. cbn [andb negb]. destruct (Nat.eqb_spec d r); [congruence|]. cbn [andb orb].
            destruct (Nat.eqb_spec d pe) as [->|Nd]; cbn [orb]; [|reflexivity]. rewrite HGr, Es. reflexivity.
          + destruct (Nat.eqb_spec q pe) as [->|Nqp]; cbn [andb].
            * destruct (Nat.eqb_spec d r) as [->|Ndr]; cbn [andb orb negb].
              -- unfold acks, none. cbn [negb]. rewrite !andb_true_r. reflexivity.
              -- rewrite Hc by congruence. reflexivity.
            * rewrite Hc by congruence. rewrite andb_false_r. reflexivity. }
      destruct Q as (C2 & O2 & R2).
      destruct (IH (calls ++ [(pe, Bm pe r)]) (add r [pe] G) h C2 ND') as (C' & A1 & A2); [intros d Hd; apply HP; right; exact Hd| |exact O2|].
      * intros d Hd. unfold add, mem. cbn [existsb]. rewrite (HG d) by (right; exact Hd). rewrite Nat.eqb_refl, !orb_false_r. cbn [andb]. destruct (Nat.eqb_spec d pe); [subst; contradiction|reflexivity].
      * exists C'. split.
        -- eapply chan_ok_ext; [|exact A1]. intros q d _ _ _. unfold add, mem. cbn [existsb]. repeat split. destruct (q =? r), (d =? pe), (existsb (Nat.eqb d) t), (G q d); reflexivity.
        -- eapply reach_trans; [exact R1|]. eapply reach_trans; [exact R2|]. rewrite <- app_assoc in A2. exact A2.
Qed.

Lemma waits_ok r (k : prog) : r < P -> forall pes A h C, NoDup pes -> (forall d, In d pes -> d < P) -> (forall d, In d pes -> A r d = false) -> chan_ok all_sent all_sent A C ->
  exists C', chan_ok all_sent all_sent (add r pes A) C' /\ reach (Sys (P_of (with_ h r (wait_all sy r pes k)) P) C) (Sys (P_of (with_ h r k) P) C').
Proof.
  intros Hr. induction pes as [|pe t IH]; intros A h C ND HP HA HC; cbn [wait_all].
  - exists C. split; [|apply reach_refl]. eapply chan_ok_ext; [|exact HC]. intros q d _ _ _. unfold add. cbn. rewrite andb_false_r. auto.
  - inversion ND as [|? ? NI ND']; subst. assert (Hpe : pe < P) by (apply HP; left; reflexivity).
    assert (G : exists C1, chan_ok all_sent all_sent (add r [pe] A) C1 /\
      reach (Sys (P_of (with_ h r (if (pe =? r) || negb (sy r pe) then wait_all sy r t k else Recv pe (fun _ => wait_all sy r t k))) P) C) (Sys (P_of (with_ h r (wait_all sy r t k)) P) C1)).
    { destruct HC as [Hs Hc]. destruct (Nat.eqb_spec pe r) as [->|N]; cbn [orb].
      - exists C. split; [|apply reach_refl]. split; [exact Hs|]. intros q d Hq Hd Nqd. rewrite Hc by assumption. f_equal. unfold add, mem. cbn [existsb]. rewrite orb_false_r.
        destruct (Nat.eqb_spec d r), (Nat.eqb_spec q r); cbn [andb orb]; try reflexivity. congruence.
      - destruct (sy r pe) eqn:Es; cbn [negb].
        + assert (E0 : chan pe r C = [ack]) by (rewrite Hc by congruence; unfold all_sent; rewrite Es, HA by (left; reflexivity); reflexivity).
          exists (set_chan pe r [] C). split.
          * split; [apply sized_set; exact Hs|]. intros q d Hq Hd Nqd. rewrite (chan_set P) by assumption. unfold all_sent, add, mem. cbn [existsb andb negb app]. rewrite orb_false_r.
            destruct (Nat.eqb_spec q pe) as [->|Nq]; cbn [andb].
            -- destruct (Nat.eqb_spec d r) as [->|Nd]; cbn [andb orb negb]; [rewrite andb_false_r; reflexivity|]. rewrite Hc by assumption. reflexivity.
            -- rewrite Hc by assumption. unfold all_sent. cbn [andb negb app]. rewrite andb_false_r. reflexivity.
          * rewrite <- (with_with P h r (Recv pe (fun _ => wait_all sy r t k)) (wait_all sy r t k)).
            refine (reach_recv (with_ h r _) P r pe (fun _ => wait_all sy r t k) ack [] C Hr _ E0). apply with_at.
        + exists C. split; [|apply reach_refl]. split; [exact Hs|]. intros q d Hq Hd Nqd. rewrite Hc by assumption. f_equal. unfold add, mem. cbn [existsb]. rewrite orb_false_r.
          destruct (Nat.eqb_spec d r) as [->|Nd]; cbn [andb orb]; [|reflexivity]. destruct (Nat.eqb_spec q pe) as [->|Nq]; cbn [orb]; [|reflexivity]. rewrite Es, !andb_false_r. reflexivity. }
    destruct G as (C1 & O1 & R1). destruct (IH (add r [pe] A) h C1 ND') as (C' & A1 & A2); [intros d Hd; apply HP; right; exact Hd| |exact O1|].
    + intros d Hd. unfold add, mem. cbn [existsb]. rewrite (HA d) by (right; exact Hd). rewrite Nat.eqb_refl, !orb_false_r. cbn [andb]. destruct (Nat.eqb_spec d pe); [subst; contradiction|reflexivity].
    + exists C'. split; [|eapply reach_trans; [exact R1|exact A2]].
      eapply chan_ok_ext; [|exact A1]. intros q d _ _ _. unfold add, mem. cbn [existsb]. repeat split. destruct (q =? r), (d =? pe), (existsb (Nat.eqb d) t), (A q d); reflexivity.
Qed.

Lemma add_upto (F : flags) n : (forall q d, F q d = (q <? n)) -> forall q d, d < P -> add n (seq 0 P) F q d = (q <? S n).
Proof.
  intros H q d Hd. unfold add. rewrite mem_all, H, andb_true_r by exact Hd. destruct (Nat.eqb_spec q n), (Nat.ltb_spec q n), (Nat.ltb_spec q (S n)); cbn; try reflexivity; lia.
Qed.
Theorem complete_ok :
  always_returns (map (fun r => complete_prog sy P r (nth r B [])) (seq 0 P)) (fun d => map (fun r => (r, nth d (nth r B []) [])) (seq 0 P)).
Proof.
  set (ND := seq_NoDup P 0). assert (HI : forall d, In d (seq 0 P) -> d < P) by (intros d Hd; apply in_seq in Hd; lia).
  set (f0 := fun r => complete_prog sy P r (nth r B [])).
  set (f1 := fun r => receive_all sy r (nth r B []) (seq 0 P) [] (fun calls => wait_all sy r (seq 0 P) (Ret calls))).
  set (f2 := fun r => wait_all sy r (seq 0 P) (Ret (map (fun pe => (pe, Bm pe r)) (seq 0 P)))).
  set (f3 := fun r => @Ret (list X) _ (map (fun pe => (pe, Bm pe r)) (seq 0 P))).
  set (upto := fun n => (fun q _ => q <? n) : flags).
  assert (U0 : forall q d, upto 0 q d = none q d) by reflexivity.
  assert (U1 : forall q d, q < P -> upto P q d = true) by (intros q d H; apply Nat.ltb_lt; exact H).
  destruct (phase P f0 f1 (fun n => chan_ok (upto n) none none) (repeat (repeat [] P) P)) as (C1 & O1 & R1).
  { intros n C h Hn O. destruct (sends_ok n (f1 n) Hn (seq 0 P) (upto n) h C ND HI) as (C' & A1 & A2); [intros d _; apply Nat.ltb_irrefl|exact O|].
    exists C'. split; [|exact A2]. eapply chan_ok_ext; [|exact A1]. intros q d Hq Hd _. split; [apply (add_upto (upto n) n); trivial|auto]. }
  { split; [apply sized_start|]. intros q d _ _ _. rewrite chan_start. reflexivity. }
  destruct (phase P f1 f2 (fun n => chan_ok all_sent (upto n) none) C1) as (C2 & O2 & R2).
  { intros n C h Hn O. destruct (receives_ok n (fun calls => wait_all sy n (seq 0 P) (Ret calls)) Hn (seq 0 P) [] (upto n) h C ND HI) as (C' & A1 & A2); [intros d _; apply Nat.ltb_irrefl|exact O|].
    exists C'. split; [|exact A2]. eapply chan_ok_ext; [|exact A1]. intros q d Hq Hd _. split; [reflexivity|split; [apply (add_upto (upto n) n); trivial|reflexivity]]. }
  { eapply chan_ok_ext; [|exact O1]. intros q d Hq Hd _. rewrite U1 by exact Hq. auto. }
  destruct (phase P f2 f3 (fun n => chan_ok all_sent all_sent (upto n)) C2) as (C3 & O3 & R3).
  { intros n C h Hn O. destruct (waits_ok n (f3 n) Hn (seq 0 P) (upto n) h C ND HI) as (C' & A1 & A2); [intros d _; apply Nat.ltb_irrefl|exact O|].
    exists C'. split; [|exact A2]. eapply chan_ok_ext; [|exact A1]. intros q d Hq Hd _. split; [reflexivity|split; [reflexivity|apply (add_upto (upto n) n); trivial]]. }
  { eapply chan_ok_ext; [|exact O2]. intros q d Hq Hd _. rewrite U1 by exact Hq. auto. }
  assert (SL : length (map f0 (seq 0 P)) = P) by (rewrite map_length, seq_length; reflexivity).
  apply (reach_always _ _ C3). unfold start. fold f0. rewrite SL. eapply reach_trans; [exact R1|]. eapply reach_trans; [exact R2|exact R3].
Qed.
End Complete.
