(* The clusters computed by the sequential label propagation of initial partitioning (Model/InitialCoarsenModel.v). *)
From Verif Require Import Lib.Prelude Lib.Count Spec.Graph Spec.Quotient Spec.RatingMap Model.RatingMapModel Model.VarintModel
  Model.InitialCoarsenModel Proofs.RatingMapProofs Proofs.VarintProofs.

Notation lead cl v := (cl_leader (nth v cl dcl)).
Notation wgt cl v := (cl_weight (nth v cl dcl)).
Notation lkd cl v := (cl_locked (nth v cl dcl)).

Set Default Proof Using "All".

Section Base.
Variables (bits limit : Z) (n NR : nat) (w : nat -> Z).
Hypothesis Hbits : (1 <= bits)%Z.
Hypothesis Hlim : (limit < 2 ^ (bits - 1))%Z.
Hypothesis Hw : forall v, v < n -> (0 <= w v < 2 ^ (bits - 1))%Z.
Hypothesis HNR : n <= NR.

(** A clustering of the nodes below [n], in which only nodes of [done] have joined another cluster. *)
Record cinv (done : nat -> Prop) (cl : list cluster) (moves : nat) : Prop := mkCinv {
  ci_len : n < length cl;
  ci_lead : forall v, v < n -> lead cl v < n /\ lead cl (lead cl v) = lead cl v;
  ci_lock : forall v, v < n -> lead cl v <> v -> lkd cl (lead cl v) = true;
  ci_todo : forall v, v < n -> ~ done v -> lead cl v = v;
  ci_weight : forall v, v < n -> lead cl v = v -> wgt cl v = sumn n (fun x => if lead cl x =? v then w x else 0%Z);
  ci_limit : forall v, v < n -> lead cl v <> v -> (wgt cl (lead cl v) <= limit)%Z;
  ci_moves : moves = cnt (fun v => negb (lead cl v =? v)) (seq 0 n) }.

Lemma cinv_weaken (d d' : nat -> Prop) cl moves : (forall v, d v -> d' v) -> cinv d cl moves -> cinv d' cl moves.
Proof. intros H [I1 I2 I3 I4 I5 I6 I7]. constructor; auto. Qed.

Lemma reset_nth cl v : v < n -> nth v (reset_clustering bits n w cl) dcl = mkCl false (w v) v.
Proof.
  intros Hv. unfold reset_clustering. rewrite app_nth1 by (rewrite map_length, seq_length; exact Hv).
  rewrite nth_map_seq by exact Hv. rewrite wrap_s_small; [reflexivity|exact Hbits|]. specialize (Hw v Hv). cbn [Nat.add]. lia.
Qed.
Lemma reset_length cl : n < length cl -> length (reset_clustering bits n w cl) = length cl.
Proof. intros H. unfold reset_clustering. rewrite app_length, map_length, seq_length, skipn_length. lia. Qed.

Lemma reset_ok cl : n < length cl -> cinv (fun _ => False) (reset_clustering bits n w cl) 0 /\
  (forall v, v < n -> lkd (reset_clustering bits n w cl) v = false).
Proof.
  intros Hl. assert (L : forall v, v < n -> lead (reset_clustering bits n w cl) v = v) by (intros v Hv; rewrite reset_nth by exact Hv; reflexivity).
  split.
  - constructor.
    + rewrite reset_length; exact Hl.
    + intros v Hv. rewrite !L; auto.
    + intros v Hv H. rewrite L in H by exact Hv. contradiction.
    + intros v Hv _. apply L, Hv.
    + intros v Hv _. rewrite reset_nth by exact Hv. cbn [cl_weight].
      rewrite (sumn_single n v) by (try exact Hv; intros i Hi Hne; rewrite L by exact Hi; rewrite (proj2 (Nat.eqb_neq i v)) by exact Hne; reflexivity).
      rewrite L, Nat.eqb_refl by exact Hv. reflexivity.
    + intros v Hv H. rewrite L in H by exact Hv. contradiction.
    + symmetry. apply cnt_zero. intros v Hv. apply in_seq in Hv. rewrite L, Nat.eqb_refl by lia. reflexivity.
  - intros v Hv. rewrite reset_nth by exact Hv. reflexivity.
Qed.

Lemma join_nth u c uw cl v : u < length cl -> c < length cl -> c <> u ->
  nth v (join bits u c uw cl) dcl =
    if v =? c then mkCl true (wrap_s bits (wgt cl c + uw)) (lead cl c)
    else if v =? u then mkCl (lkd cl u) (wgt cl u) c else nth v cl dcl.
Proof.
  intros Hu Hc Hne. unfold join. rewrite !upd_nth, upd_length.
  rewrite (proj2 (Nat.ltb_lt c _) Hc), (proj2 (Nat.ltb_lt u _) Hu), !andb_true_r, (Nat.eqb_sym c v), (Nat.eqb_sym u v).
  rewrite (proj2 (Nat.eqb_neq u c)) by congruence. reflexivity.
Qed.

Lemma cnt_change1 (p q : nat -> bool) u : forall m, u < m -> p u = true -> q u = false -> (forall v, v < m -> v <> u -> p v = q v) ->
  cnt p (seq 0 m) = S (cnt q (seq 0 m)).
Proof.
  induction m as [|m IH]; intros Hu Hp Hq H; [lia|]. rewrite !cnt_seq_S. cbn [Nat.add].
  destruct (Nat.eq_dec u m) as [->|Hne].
  - rewrite Hp, Hq. rewrite (cnt_ext p q (seq 0 m)) by (intros x Hx; apply in_seq in Hx; apply H; lia). lia.
  - rewrite IH by (try lia; auto; intros; apply H; lia). rewrite (H m) by lia. lia.
Qed.

Lemma join_ok done cl moves u c :
  cinv done cl moves -> u < n -> ~ done u -> lkd cl u = false -> c < n -> c <> u -> lead cl c = c -> (wgt cl c + w u <= limit)%Z ->
  cinv (fun v => done v \/ v = u) (join bits u c (w u) cl) (S moves) /\
  (forall v, v <> c -> lkd (join bits u c (w u) cl) v = lkd cl v).
Proof.
  intros [I1 I2 I3 I4 I5 I6 I7] Hu Hd Hlk Hc Hne Hlc Hwt.
  assert (Lu : lead cl u = u) by (apply I4; assumption).
  assert (Nu : forall v, v < n -> lead cl v = u -> v = u).
  { intros v Hv E. destruct (Nat.eq_dec v u) as [|Hvu]; [assumption|]. exfalso.
    assert (lkd cl (lead cl v) = true) by (apply I3; [exact Hv|congruence]). rewrite E in H. congruence. }
  assert (J : forall v, nth v (join bits u c (w u) cl) dcl =
    if v =? c then mkCl true (wrap_s bits (wgt cl c + w u)) (lead cl c)
    else if v =? u then mkCl (lkd cl u) (wgt cl u) c else nth v cl dcl) by (intros v; apply join_nth; lia).
  assert (JL : forall v, lead (join bits u c (w u) cl) v = if v =? u then c else lead cl v).
  { intros v. rewrite J. destruct (Nat.eqb_spec v c) as [->|]; [rewrite (proj2 (Nat.eqb_neq c u)) by exact Hne; reflexivity|]. destruct (v =? u); reflexivity. }
  assert (Wc0 : (0 <= wgt cl c)%Z).
  { rewrite (I5 c Hc Hlc). apply sumn_nonneg. intros x Hx. specialize (Hw x Hx). destruct (lead cl x =? c); lia. }
  assert (Ws : wrap_s bits (wgt cl c + w u) = (wgt cl c + w u)%Z) by (apply wrap_s_small; [exact Hbits|]; specialize (Hw u Hu); lia).
  rewrite Ws in J.
  split.
  - constructor.
    + unfold join. rewrite !upd_length. exact I1.
    + intros v Hv. rewrite (JL v). destruct (Nat.eqb_spec v u) as [->|Hvu].
      * split; [exact Hc|]. rewrite JL, (proj2 (Nat.eqb_neq c u)) by exact Hne. exact Hlc.
      * destruct (I2 v Hv) as [A B]. split; [exact A|]. rewrite JL. rewrite (proj2 (Nat.eqb_neq _ u)); [exact B|]. intros E. apply Hvu, Nu; assumption.
    + intros v Hv. rewrite (JL v). destruct (Nat.eqb_spec v u) as [->|Hvu]; intros H; rewrite J.
      * rewrite Nat.eqb_refl. reflexivity.
      * destruct (Nat.eqb_spec (lead cl v) c) as [E|E]; [reflexivity|]. rewrite (proj2 (Nat.eqb_neq _ u)) by (intros E'; apply Hvu, Nu; assumption).
        apply I3; assumption.
    + intros v Hv H. rewrite JL. rewrite (proj2 (Nat.eqb_neq v u)) by (intros ->; apply H; right; reflexivity). apply I4; [exact Hv|]. intros D. apply H. left. exact D.
    + intros v Hv. rewrite (JL v). destruct (Nat.eqb_spec v u) as [->|Hvu]; intros E; [congruence|].
      rewrite J. rewrite (proj2 (Nat.eqb_neq v u) Hvu).
      destruct (Nat.eqb_spec v c) as [->|Hvc].
      * cbn [cl_weight]. rewrite (sumn_change n u _ (fun x => if lead cl x =? c then w x else 0%Z)).
        -- rewrite <- (I5 c Hc Hlc). rewrite JL, Nat.eqb_refl, Nat.eqb_refl, Lu. rewrite (proj2 (Nat.eqb_neq u c)) by congruence. lia.
        -- exact Hu.
        -- intros i Hi Hiu. rewrite JL. rewrite (proj2 (Nat.eqb_neq i u) Hiu). reflexivity.
      * rewrite (I5 v Hv E). apply sumn_ext. intros x Hx. rewrite JL. destruct (Nat.eqb_spec x u) as [->|]; [|reflexivity].
        rewrite Lu. rewrite (proj2 (Nat.eqb_neq u v)) by congruence. rewrite (proj2 (Nat.eqb_neq c v)) by congruence. reflexivity.
    + intros v Hv. rewrite (JL v). destruct (Nat.eqb_spec v u) as [->|Hvu]; intros H; rewrite J.
      * rewrite Nat.eqb_refl. cbn [cl_weight]. exact Hwt.
      * destruct (Nat.eqb_spec (lead cl v) c) as [E|E]; [cbn [cl_weight]; exact Hwt|].
        rewrite (proj2 (Nat.eqb_neq _ u)) by (intros E'; apply Hvu, Nu; assumption). apply I6; assumption.
    + rewrite I7. symmetry. apply (cnt_change1 _ _ u); [exact Hu| | |].
      * rewrite JL, Nat.eqb_refl. rewrite (proj2 (Nat.eqb_neq c u)) by exact Hne. reflexivity.
      * rewrite Lu, Nat.eqb_refl. reflexivity.
      * intros v _ Hvu. rewrite JL. rewrite (proj2 (Nat.eqb_neq v u)) by exact Hvu. reflexivity.
  - intros v Hvc. rewrite J, (proj2 (Nat.eqb_neq v c)) by exact Hvc. destruct (Nat.eqb_spec v u) as [->|]; reflexivity.
Qed.

(** Keys of the rating map are clusters. *)
Definition rkeys (cl : list cluster) (l : list (nat * Z)) : Prop := forall k, In k (map fst l) -> k < n /\ lead cl k = k.
Definition rinv (cl : list cluster) (rm : fra) (l : list (nat * Z)) : Prop := finv NR rm l /\ rkeys cl l.

Lemma rate_ok done cl moves rm l v x : cinv done cl moves -> rinv cl rm l -> v < n -> (0 < x)%Z ->
  exists rm' l', rate cl rm v x = Some rm' /\ rinv cl rm' l'.
Proof.
  intros C [F K] Hv Hx. destruct (ci_lead _ _ _ C v Hv) as [L1 L2]. unfold rate.
  rewrite (nth_error_nth' cl dcl) by (pose proof (ci_len _ _ _ C); lia). rewrite (fi_len _ _ _ F).
  rewrite (proj2 (Nat.ltb_lt _ NR)) by lia. eexists. exists (acc_add (lead cl v) x l). split; [reflexivity|]. split.
  - apply fra_modify_ok; [exact F|lia|exact Hx].
  - intros k. rewrite acc_add_keys. destruct (touched _ _); [apply K|]. rewrite in_app_iff. intros [H|[<-|[]]]; [apply K, H|]. split; assumption.
Qed.

Lemma rate_all_ok done cl moves adj : cinv done cl moves -> forall rm l, rinv cl rm l ->
  (forall v x, In (v, x) adj -> v < n /\ (0 < x)%Z) ->
  exists rm' l', rate_all cl rm adj = Some rm' /\ rinv cl rm' l'.
Proof.
  intros C. induction adj as [|[v x] adj IH]; intros rm l R Hadj; [exists rm, l; auto|]. cbn [rate_all].
  destruct (Hadj v x) as [Hv Hx]; [left; reflexivity|]. destruct (rate_ok done cl moves rm l v x C R Hv Hx) as (rm1 & l1 & -> & R1).
  apply (IH rm1 l1 R1). intros v' x' H. apply Hadj. right. exact H.
Qed.

Lemma pick_loop_ok cl uw coin : forall used data i best gain, NoDup used ->
  (forall k, In k used -> k < length cl /\ k < length data /\ nth k data 0%Z <> 0%Z) ->
  (forall k, ~ In k used -> nth k data 0%Z = 0%Z) ->
  exists best' data', pick_loop limit cl uw coin i used data best gain = Some (best', data') /\ length data' = length data /\
    (forall k, nth k data' 0%Z = 0%Z) /\ (best' = best \/ (In best' used /\ (wgt cl best' + uw <= limit)%Z)).
Proof.
  induction used as [|c used IH]; intros data i best gain ND H1 H2.
  - exists best, data. cbn [pick_loop]. repeat split; auto.
  - cbn [pick_loop]. apply NoDup_cons_iff in ND. destruct ND as [Nc ND]. destruct (H1 c (or_introl eq_refl)) as (A & B & D).
    rewrite (nth_error_nth' cl dcl A). rewrite (proj2 (Z.eqb_neq _ _) D).
    assert (P1 : forall k, In k used -> k < length cl /\ k < length (upd c 0%Z data) /\ nth k (upd c 0%Z data) 0%Z <> 0%Z).
    { intros k Hk. destruct (H1 k (or_intror Hk)) as (A' & B' & D'). rewrite upd_length. repeat split; auto.
      rewrite upd_nth_other; [exact D'|]. intros ->. contradiction. }
    assert (P2 : forall k, ~ In k used -> nth k (upd c 0%Z data) 0%Z = 0%Z).
    { intros k Hk. destruct (Nat.eq_dec c k) as [->|Hne]; [rewrite upd_nth_same by exact B; reflexivity|].
      rewrite upd_nth_other by congruence. apply H2. intros [E|E]; contradiction. }
    destruct (_ && _) eqn:T.
    + destruct (IH (upd c 0%Z data) (S i) c (nth c data 0%Z) ND P1 P2) as (b & d & -> & L & Z0 & R). exists b, d.
      rewrite upd_length in L. repeat split; auto. right. destruct R as [->|[R1 R2]]; [|split; [right; exact R1|exact R2]].
      split; [left; reflexivity|]. apply andb_true_iff in T. destruct T as [_ T]. apply Z.leb_le in T. exact T.
    + destruct (IH (upd c 0%Z data) (S i) best gain ND P1 P2) as (b & d & -> & L & Z0 & R). exists b, d.
      rewrite upd_length in L. repeat split; auto. destruct R as [->|[R1 R2]]; [left; reflexivity|right; split; [right; exact R1|exact R2]].
Qed.

Lemma pick_ok cl rm l u uw coin : n < length cl -> rinv cl rm l ->
  exists best rm', pick_from_map limit u uw coin cl rm = Some (best, rm') /\ finv NR rm' [] /\
    (best = u \/ (best < n /\ lead cl best = best /\ (wgt cl best + uw <= limit)%Z)).
Proof.
  intros Hl [F K]. destruct F as [F1 F2 F3 F4 F5 F6]. unfold pick_from_map. rewrite F2.
  destruct (pick_loop_ok cl uw coin (map fst l) (fa_data rm) 0 u 0%Z F4) as (b & d & -> & L & Z0 & R).
  - intros k Hk. destruct (K k Hk) as [Kn Kl]. rewrite F1. repeat split; try lia. rewrite F3 by lia.
    assert (0 < acc_get k l)%Z by (apply acc_get_pos; [exact F6|apply touched_iff, Hk]). lia.
  - intros k Hk. destruct (le_lt_dec NR k); [apply nth_overflow; lia|]. rewrite F3 by assumption. apply acc_get_untouched.
    destruct (touched k l) eqn:T; [|reflexivity]. apply touched_iff in T. contradiction.
  - eexists; eexists. split; [reflexivity|]. split.
    + constructor; cbn; try contradiction; try constructor; try lia.
    + destruct R as [->|[R1 R2]]; [left; reflexivity|]. right. destruct (K b R1). auto.
Qed.

Lemma choose_ok done cl moves rm l u coin : cinv done cl moves -> rinv cl rm l -> u < n -> ~ done u -> lkd cl u = false ->
  exists cl' moves' rm', choose bits limit u (w u) coin (cl, moves, rm) = Some (cl', moves', rm') /\
    cinv (fun v => done v \/ v = u) cl' moves' /\ finv NR rm' [].
Proof.
  intros C R Hu Hd Hlk. unfold choose. destruct (pick_ok cl rm l u (w u) coin (ci_len _ _ _ C) R) as (b & rm' & -> & F & B).
  destruct (Nat.eqb_spec b u) as [->|Hne].
  - exists cl, moves, rm'. split; [reflexivity|]. split; [|exact F]. apply (cinv_weaken done); [intros v Hv; left; exact Hv|exact C].
  - destruct B as [->|(B1 & B2 & B3)]; [contradiction|]. exists (join bits u b (w u) cl), (S moves), rm'. split; [reflexivity|]. split; [|exact F].
    apply join_ok; assumption.
Qed.
End Base.

(** ** The first label propagation *)
Section Lp.
Variables (bits limit : Z) (g : graph) (NR : nat).
Hypothesis Hbits : (1 <= bits)%Z.
Hypothesis Hlim : (limit < 2 ^ (bits - 1))%Z.
Hypothesis Hw : forall v, v < gn g -> (0 <= gvw g v < 2 ^ (bits - 1))%Z.
Hypothesis HNR : gn g <= NR.
Hypothesis Cg : closed_graph g.
Hypothesis Pg : positive_edges g.

Lemma handle_all_ok coin : forall ord done cl moves rm, NoDup ord -> (forall u, In u ord -> u < gn g /\ ~ done u) ->
  cinv limit (gn g) (gvw g) done cl moves -> finv NR rm [] ->
  exists cl' moves' rm', handle_all bits limit g coin ord (cl, moves, rm) = Some (cl', moves', rm') /\
    cinv limit (gn g) (gvw g) (fun _ => True) cl' moves' /\ finv NR rm' [].
Proof.
  induction ord as [|u ord IH]; intros done cl moves rm ND Ho C F.
  - exists cl, moves, rm. split; [reflexivity|]. split; [|exact F]. apply (cinv_weaken bits limit (gn g) NR (gvw g) Hbits Hlim Hw HNR done); auto.
  - cbn [handle_all]. apply NoDup_cons_iff in ND. destruct ND as [Nu ND]. destruct (Ho u (or_introl eq_refl)) as [Hu Hd].
    unfold handle_node. rewrite (nth_error_nth' cl dcl) by (pose proof (ci_len _ _ _ _ _ _ C); lia).
    destruct (lkd cl u) eqn:Lk.
    + apply (IH done); auto. intros v Hv. apply Ho. right. exact Hv.
    + destruct (rate_all_ok bits limit (gn g) NR (gvw g) Hbits Hlim Hw HNR done cl moves (gadj g u) C rm []) as (rm1 & l1 & -> & R1).
      * split; [exact F|]. intros k [].
      * intros v x H. split; [apply (Cg u v x Hu H)|apply (Pg u v x Hu H)].
      * destruct (choose_ok bits limit (gn g) NR (gvw g) Hbits Hlim Hw HNR done cl moves rm1 l1 u (coin u) C R1 Hu Hd Lk)
          as (cl' & moves' & rm' & -> & C' & F').
        apply (IH (fun v => done v \/ v = u)); auto. intros v Hv. destruct (Ho v (or_intror Hv)) as [A B]. split; [exact A|].
        intros [D|D]; [exact (B D)|]. subst v. contradiction.
Qed.

Lemma label_propagation_ok coin ord cl rm : NoDup ord -> (forall u, In u ord -> u < gn g) -> gn g < length cl -> finv NR rm [] ->
  exists cl' moves' rm', label_propagation bits limit g coin ord cl rm = Some (cl', moves', rm') /\
    cinv limit (gn g) (gvw g) (fun _ => True) cl' moves' /\ finv NR rm' [].
Proof.
  intros ND Ho Hl F. unfold label_propagation. apply (handle_all_ok coin ord (fun _ => False)); auto.
  apply (reset_ok bits limit (gn g) NR (gvw g)); assumption.
Qed.
End Lp.
