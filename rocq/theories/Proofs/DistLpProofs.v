(* Distributed label propagation refinement: weights stay exact, copies agree, ranks take the same decisions. *)
From Verif Require Import Lib.Prelude Model.GridModel Model.DistGraphModel Model.DistLpModel Spec.Graph Spec.DistGraphSpec
  Proofs.GridBase Proofs.ImportProofs Proofs.DistViewProofs Proofs.ExchangeProofs Proofs.DistSyncProofs Proofs.DistMetricsProofs.

Lemma nth_error_same {A} (l l' : list A) : (forall i, nth_error l i = nth_error l' i) -> l = l'.
Proof.
  revert l'. induction l as [|a t IH]; intros [|b t'] H; [reflexivity|specialize (H 0); discriminate|specialize (H 0); discriminate|].
  pose proof (H 0) as H0. injection H0 as ->. f_equal. apply IH. intros i. exact (H (S i)).
Qed.
Definition inb (j : nat) (l : list nat) : bool := existsb (Nat.eqb j) l.
Lemma inb_spec j l : inb j l = true <-> In j l.
Proof. unfold inb. rewrite existsb_exists. split; [intros [x [A B]]; apply Nat.eqb_eq in B; congruence|intros H; exists j; rewrite Nat.eqb_refl; auto]. Qed.
Lemma inb_cons j a l : inb j (a :: l) = (a =? j) || inb j l.
Proof. unfold inb. cbn [existsb]. rewrite (Nat.eqb_sym j a). reflexivity. Qed.

Section Rank.
Variables (k : nat) (ignore : bool) (d : dcsr) (coin : nat -> bool) (src tgt : nat -> nat) (wt : nat -> Z).
(** the node moves *)
Definition goes (u : nat) : bool := negb (tgt u =? src u) && (ignore || coin u).
Definition change (u b : nat) : Z := if goes u then Z.sub (if tgt u =? b then wt u else 0%Z) (if src u =? b then wt u else 0%Z) else 0%Z.

Lemma try_moves_ok us s : NoDup us -> length (mv_delta s) = k ->
  (forall u, In u us -> nth_error (mv_part s) u = Some (src u) /\ nth_error (mv_next s) u = Some (Some (tgt u)) /\ src u < k /\ tgt u < k /\ dnode_weight (dc_nw d) u = Some (wt u)) ->
  exists s', try_moves ignore d coin us s = Some s' /\ mv_moves s' = mv_moves s ++ map (fun u => (u, src u)) (filter goes us) /\
    length (mv_delta s') = k /\ length (mv_part s') = length (mv_part s) /\ length (mv_next s') = length (mv_next s) /\
    (forall j, nth_error (mv_part s') j = if inb j us && goes j then Some (tgt j) else nth_error (mv_part s) j) /\
    (forall j, nth_error (mv_next s') j = if inb j us && goes j then Some None else nth_error (mv_next s) j) /\
    (forall b, b < k -> nth b (mv_delta s') 0%Z = Z.add (nth b (mv_delta s) 0%Z) (zsum (map (fun u => change u b) us))).
Proof.
  revert s. induction us as [|u t IH]; intros s ND Ld H; cbn [try_moves].
  - exists s. cbn [filter map zsum]. rewrite app_nil_r. repeat split; try reflexivity; try exact Ld. intros b Hb. lia.
  - destruct (H u (or_introl eq_refl)) as (A1 & A2 & A3 & A4 & A5). rewrite A1. cbn [bind]. rewrite A2. cbn [bind]. inversion ND as [|x y Nin ND']. subst x y.
    assert (Skip : goes u = false -> exists s', try_moves ignore d coin t s = Some s' /\ mv_moves s' = mv_moves s ++ map (fun u => (u, src u)) (filter goes (u :: t)) /\
      length (mv_delta s') = k /\ length (mv_part s') = length (mv_part s) /\ length (mv_next s') = length (mv_next s) /\
      (forall j, nth_error (mv_part s') j = if inb j (u :: t) && goes j then Some (tgt j) else nth_error (mv_part s) j) /\
      (forall j, nth_error (mv_next s') j = if inb j (u :: t) && goes j then Some None else nth_error (mv_next s) j) /\
      (forall b, b < k -> nth b (mv_delta s') 0%Z = Z.add (nth b (mv_delta s) 0%Z) (zsum (map (fun u => change u b) (u :: t))))).
    { intros Hg. destruct (IH s ND' Ld) as (s' & E & B1 & B2 & B3 & B4 & B5 & B6 & B7); [intros v Hv; apply H; right; exact Hv|].
      exists s'. split; [exact E|]. cbn [filter]. rewrite Hg. split; [exact B1|]. split; [exact B2|]. split; [exact B3|]. split; [exact B4|].
      split; [|split].
      - intros j. rewrite B5, inb_cons. destruct (Nat.eqb_spec u j) as [<-|Hne]; [rewrite Hg, !andb_false_r; reflexivity|reflexivity].
      - intros j. rewrite B6, inb_cons. destruct (Nat.eqb_spec u j) as [<-|Hne]; [rewrite Hg, !andb_false_r; reflexivity|reflexivity].
      - intros b Hb. rewrite (B7 b Hb). cbn [map zsum]. unfold change at 2. rewrite Hg. lia. }
    destruct (Nat.eqb_spec (tgt u) (src u)) as [Eq|Ne].
    + apply Skip. unfold goes. rewrite (proj2 (Nat.eqb_eq _ _) Eq). reflexivity.
    + destruct (ignore || coin u) eqn:Ec; [|apply Skip; unfold goes; rewrite Ec, andb_false_r; reflexivity].
      assert (Hg : goes u = true) by (unfold goes; rewrite Ec, (proj2 (Nat.eqb_neq _ _) Ne); reflexivity).
      rewrite A5. cbn [bind]. unfold add_delta at 1. rewrite (nth_error_nth' (mv_delta s) 0%Z) by lia. cbn [bind].
      unfold add_delta at 1. rewrite (nth_error_nth' _ 0%Z) by (rewrite upd_length; lia). cbn [bind].
      match goal with |- context [try_moves ignore d coin t ?x] => set (s1 := x) end.
      destruct (IH s1 ND') as (s' & E & B1 & B2 & B3 & B4 & B5 & B6 & B7); [unfold s1; cbn [mv_delta]; rewrite !upd_length; exact Ld| |].
      { intros v Hv. assert (v <> u) by congruence. destruct (H v (or_intror Hv)) as (C1 & C2 & C3). unfold s1. cbn [mv_part mv_next].
        rewrite !upd_nth_error. rewrite (proj2 (Nat.eqb_neq u v)) by congruence. cbn [andb]. auto. }
      unfold s1 in B1, B3, B4, B5, B6, B7. cbn [mv_moves mv_part mv_next mv_delta] in B1, B3, B4, B5, B6, B7. rewrite upd_length in B3. rewrite upd_length in B4.
      assert (Lp : u < length (mv_part s)) by (apply nth_error_Some; congruence). assert (Ln : u < length (mv_next s)) by (apply nth_error_Some; congruence).
      exists s'. split; [exact E|]. cbn [filter]. rewrite Hg. cbn [map]. split; [rewrite B1, <- app_assoc; reflexivity|]. split; [exact B2|]. split; [exact B3|]. split; [exact B4|].
      split; [|split].
      * intros j. rewrite B5, inb_cons, upd_nth_error, (proj2 (Nat.ltb_lt u _)) by exact Lp. rewrite andb_true_r.
        destruct (Nat.eqb_spec u j) as [<-|Hne]; [|reflexivity]. rewrite Hg. cbn [orb andb]. destruct (inb u t && true); reflexivity.
      * intros j. rewrite B6, inb_cons, upd_nth_error, (proj2 (Nat.ltb_lt u _)) by exact Ln. rewrite andb_true_r.
        destruct (Nat.eqb_spec u j) as [<-|Hne]; [|reflexivity]. rewrite Hg. cbn [orb andb]. destruct (inb u t && true); reflexivity.
      * intros b Hb. rewrite (B7 b Hb). cbn [map zsum]. unfold change at 2. rewrite Hg. rewrite !upd_nth, !upd_length, !(proj2 (Nat.ltb_lt _ (length (mv_delta s)))) by lia. rewrite !andb_true_r.
        destruct (Nat.eqb_spec (tgt u) b), (Nat.eqb_spec (src u) b), (Nat.eqb_spec (src u) (tgt u)); subst; try congruence; lia.
Qed.

Lemma revert_ok l part next : NoDup l -> (forall u, In u l -> nth_error part u = Some (tgt u) /\ u < length next) ->
  exists part' next', revert (map (fun u => (u, src u)) l) part next = Some (part', next') /\
    (forall j, nth_error part' j = if inb j l then Some (src j) else nth_error part j) /\
    (forall j, nth_error next' j = if inb j l then Some (Some (tgt j)) else nth_error next j).
Proof.
  revert part next. induction l as [|u t IH]; intros part next ND H; cbn [map revert].
  - exists part, next. repeat split; reflexivity.
  - inversion ND as [|x y Nin ND']. subst x y. destruct (H u (or_introl eq_refl)) as [A1 A2]. assert (Lp : u < length part) by (apply nth_error_Some; congruence).
    rewrite A1. cbn [bind]. rewrite store_ok by exact A2. cbn [bind]. rewrite store_ok by exact Lp. cbn [bind].
    destruct (IH (upd u (src u) part) (upd u (Some (tgt u)) next) ND') as (p' & n' & E & B1 & B2).
    { intros v Hv. assert (v <> u) by congruence. destruct (H v (or_intror Hv)) as [C1 C2]. rewrite upd_length, upd_nth_error, (proj2 (Nat.eqb_neq u v)) by congruence. auto. }
    exists p', n'. split; [exact E|]. split; intros j; rewrite inb_cons; [rewrite B1|rewrite B2]; rewrite upd_nth_error, (proj2 (Nat.ltb_lt u _)) by assumption; rewrite andb_true_r;
      (destruct (Nat.eqb_spec u j) as [<-|Hne]; [cbn [orb]; destruct (inb u t); reflexivity|reflexivity]).
Qed.
End Rank.

Section System.
Variables (P : nat) (G : graph) (dist : list nat).
Hypothesis HD : distribution P (gn G) dist.
Variable d : nat -> dcsr.
Hypothesis RO : forall r, r < P -> rank_ok G dist r (d r).
Hypothesis HN : forall r u, r < P -> u < dn (d r) -> dnode_weight (dc_nw (d r)) u = Some (gvw G (nth r dist 0 + u)).
Variables (k : nat) (ignore : bool) (mx : nat -> Z).
Let ds := map d (seq 0 P).

Lemma dn_r r : r < P -> dn (d r) = nth (S r) dist 0 - nth r dist 0.
Proof. intros Hr. destruct (RO r Hr) as [[V _] _ _]. exact V. Qed.
Lemma own_l2g r u : r < P -> u < dn (d r) -> dlocal_to_global (d r) u = Some (nth r dist 0 + u).
Proof. intros Hr. destruct (RO r Hr) as [(_ & V2 & _) _ _]. apply V2. Qed.
Lemma owner_of r u : r < P -> u < dn (d r) -> find_owner dist (nth r dist 0 + u) = r /\ nth r dist 0 + u < gn G.
Proof.
  intros Hr Hu. rewrite (dn_r r Hr) in Hu. assert (O : owns dist r (nth r dist 0 + u)) by (unfold owns; lia).
  pose proof (owns_lt P (gn G) dist HD r _ Hr O) as Lt. split; [|exact Lt]. destruct (find_owner_owns P (gn G) dist _ HD Lt) as [A B].
  exact (owns_unique P (gn G) dist HD _ r _ A Hr B O).
Qed.

(** The state of a rank: partition [part], proposals [nxt]. *)
Record ready (part : nat -> nat) (nxt : nat -> nat) (r : nat) (s : lpst) : Prop := {
  rd_part : forall l g, dlocal_to_global (d r) l = Some g -> nth_error (lp_part s) l = Some (part g);
  rd_next : forall u, u < dn (d r) -> nth_error (lp_next s) u = Some (Some (nxt u));
  rd_bound : forall u, u < dn (d r) -> nxt u < k;
  rd_bw : lp_bw s = map (block_weight G part) (seq 0 k) }.

Section Attempt.
Variables (part : nat -> nat) (nxt : nat -> nat -> nat) (lo hi : nat -> nat) (coin : nat -> nat -> bool).
Hypothesis Hrange : forall r, r < P -> lo r <= hi r <= dn (d r).
Hypothesis Hk : forall g, g < gn G -> part g < k.
Hypothesis Hout : forall r u, r < P -> u < dn (d r) -> ~ lo r <= u < hi r -> nxt r u = part (nth r dist 0 + u).

Definition mvd (r u : nat) : bool := (lo r <=? u) && (u <? hi r) && goes ignore (coin r) (fun u => part (nth r dist 0 + u)) (nxt r) u.
(** The partition after the moves. *)
Definition part1 (g : nat) : nat := let r := find_owner dist g in let u := g - nth r dist 0 in if mvd r u then nxt r u else part g.
Lemma part1_own r u : r < P -> u < dn (d r) -> part1 (nth r dist 0 + u) = if mvd r u then nxt r u else part (nth r dist 0 + u).
Proof. intros Hr Hu. unfold part1. destruct (owner_of r u Hr Hu) as [-> _]. replace (nth r dist 0 + u - nth r dist 0) with u by lia. reflexivity. Qed.

Definition sources (r u : nat) : nat := part (nth r dist 0 + u).
Definition weights (r u : nat) : Z := gvw G (nth r dist 0 + u).
Definition deltas : list Z := map (fun b => Z.sub (block_weight G part1 b) (block_weight G part b)) (seq 0 k).

Lemma zsum_zero {A} (f : A -> Z) l : (forall x, In x l -> f x = 0%Z) -> zsum (map f l) = 0%Z.
Proof. induction l as [|a t IH]; intros H; cbn [map zsum]; [reflexivity|]. rewrite (H a (or_introl eq_refl)), IH; [reflexivity|]. intros x Hx. apply H. right. exact Hx. Qed.
Lemma zsum_minus {A} (f g : A -> Z) l : zsum (map (fun x => Z.sub (f x) (g x)) l) = Z.sub (zsum (map f l)) (zsum (map g l)).
Proof. induction l as [|a t IH]; cbn [map zsum]; [reflexivity|]. rewrite IH. lia. Qed.
Lemma zsum_window (f : nat -> Z) a b n : a <= b <= n -> (forall u, u < n -> ~ a <= u < b -> f u = 0%Z) -> zsum (map f (seq a (b - a))) = zsum (map f (seq 0 n)).
Proof.
  intros H Z. replace n with (a + ((b - a) + (n - b))) by lia. rewrite !seq_app, !map_app, !zsum_app. cbn [Nat.add].
  rewrite (zsum_zero f (seq 0 a)) by (intros u Hu; apply in_seq in Hu; apply Z; lia).
  rewrite (zsum_zero f (seq (a + (b - a)) (n - b))) by (intros u Hu; apply in_seq in Hu; apply Z; lia). lia.
Qed.
Lemma delta_of r b : r < P -> zsum (map (fun u => change ignore (coin r) (sources r) (nxt r) (weights r) u b) (seq (lo r) (hi r - lo r))) =
  Z.sub (zsum (map (fun u => if part1 (nth r dist 0 + u) =? b then gvw G (nth r dist 0 + u) else 0%Z) (seq 0 (nth (S r) dist 0 - nth r dist 0))))
        (zsum (map (fun u => if part (nth r dist 0 + u) =? b then gvw G (nth r dist 0 + u) else 0%Z) (seq 0 (nth (S r) dist 0 - nth r dist 0)))).
Proof.
  intros Hr. rewrite <- zsum_minus. pose proof (Hrange r Hr) as Rg. rewrite <- (dn_r r Hr).
  rewrite (zsum_window _ (lo r) (hi r) (dn (d r)) Rg).
  - apply zsum_map_ext. intros u Hu. apply in_seq in Hu. rewrite (part1_own r u Hr) by lia. unfold change, mvd, sources, weights.
    destruct (goes ignore (coin r) (fun u0 => part (nth r dist 0 + u0)) (nxt r) u) eqn:Eg; [|rewrite andb_false_r; lia].
    destruct (Nat.leb_spec (lo r) u) as [L1|L1]; [destruct (Nat.ltb_spec u (hi r)) as [L2|L2]; cbn [andb]; [reflexivity|]|cbn [andb]];
      unfold goes in Eg; rewrite (Hout r u Hr) in Eg by lia; rewrite Nat.eqb_refl in Eg; discriminate.
  - intros u Hu Hw. unfold change, goes, sources. rewrite (Hout r u Hr Hu Hw), Nat.eqb_refl. reflexivity.
Qed.

Lemma perform_moves_ok sts : length sts = P -> (forall r s, nth_error sts r = Some s -> ready part (nxt r) r s) ->
  exists rs, perform_moves k ignore mx ds (fun r => seq (lo r) (hi r - lo r)) coin sts = Some rs /\ length rs = P /\
    let fl := feasible k ignore mx (map (block_weight G part) (seq 0 k)) deltas in
    (forall x, In x rs -> fst x = fl) /\
    (fl = false -> map snd rs = sts) /\
    (fl = true -> forall r s, nth_error (map snd rs) r = Some s ->
       (forall u, u < dn (d r) -> nth_error (lp_part s) u = Some (part1 (nth r dist 0 + u))) /\
       (forall l g, dn (d r) <= l -> dlocal_to_global (d r) l = Some g -> nth_error (lp_part s) l = Some (part g)) /\
       (forall u, u < dn (d r) -> nth_error (lp_next s) u = Some (if mvd r u then None else Some (nxt r u))) /\
       lp_bw s = map (block_weight G part1) (seq 0 k)).
Proof.
  intros Ls Hs. set (us := fun r => seq (lo r) (hi r - lo r)).
  assert (St : forall r, r < P -> exists s, nth_error sts r = Some s /\ ready part (nxt r) r s).
  { intros r Hr. destruct (nth_error sts r) as [s|] eqn:E; [exists s; split; [reflexivity|exact (Hs r s E)]|]. apply nth_error_None in E. lia. }
  assert (Tm : forall r, r < P -> exists m s, nth_error sts r = Some s /\ try_moves ignore (d r) (coin r) (us r) (Mv [] (repeat 0%Z k) (lp_part s) (lp_next s)) = Some m /\
    mv_moves m = map (fun u => (u, sources r u)) (filter (goes ignore (coin r) (sources r) (nxt r)) (us r)) /\
    length (mv_part m) = length (lp_part s) /\ length (mv_next m) = length (lp_next s) /\
    (forall j, nth_error (mv_part m) j = if inb j (us r) && goes ignore (coin r) (sources r) (nxt r) j then Some (nxt r j) else nth_error (lp_part s) j) /\
    (forall j, nth_error (mv_next m) j = if inb j (us r) && goes ignore (coin r) (sources r) (nxt r) j then Some None else nth_error (lp_next s) j) /\
    (forall b, b < k -> nth b (mv_delta m) 0%Z = zsum (map (fun u => change ignore (coin r) (sources r) (nxt r) (weights r) u b) (us r)))).
  { intros r Hr. destruct (St r Hr) as (s & Es & [R1 R2 R3 R4]). pose proof (Hrange r Hr) as Rg.
    destruct (try_moves_ok k ignore (d r) (coin r) (sources r) (nxt r) (weights r) (us r) (Mv [] (repeat 0%Z k) (lp_part s) (lp_next s))) as (m & E & B1 & B2 & B3 & B4 & B5 & B6 & B7).
    - apply seq_NoDup.
    - cbn [mv_delta]. apply repeat_length.
    - intros u Hu. apply in_seq in Hu. assert (Hu' : u < dn (d r)) by lia. cbn [mv_part mv_next].
      split; [exact (R1 u _ (own_l2g r u Hr Hu'))|]. split; [exact (R2 u Hu')|]. split; [apply Hk; exact (proj2 (owner_of r u Hr Hu'))|]. split; [exact (R3 u Hu')|exact (HN r u Hr Hu')].
    - exists m, s. cbn [mv_moves mv_part mv_next mv_delta] in *. split; [exact Es|]. split; [exact E|]. split; [exact B1|]. split; [exact B3|]. split; [exact B4|]. split; [exact B5|]. split; [exact B6|].
      intros b Hb. rewrite (B7 b Hb), nth_repeat. lia. }
  unfold perform_moves.
  set (F := fun r => bind (nth_error ds r) (fun d0 => bind (nth_error sts r) (fun s => try_moves ignore d0 (coin r) (us r) (Mv [] (repeat 0%Z k) (lp_part s) (lp_next s))))).
  set (h := fun r => match F r with Some m => m | None => Mv [] [] [] [] end).
  assert (Fh : forall r, r < P -> F r = Some (h r) /\ exists s, nth_error sts r = Some s /\ try_moves ignore (d r) (coin r) (us r) (Mv [] (repeat 0%Z k) (lp_part s) (lp_next s)) = Some (h r)).
  { intros r Hr. destruct (Tm r Hr) as (m & s & Es & Em & _). assert (E : F r = Some m) by (unfold F, ds; rewrite nth_error_map_seq by exact Hr; cbn [bind]; rewrite Es; exact Em).
    unfold h. rewrite E. split; [reflexivity|]. exists s. auto. }
  assert (Lds : length ds = P) by (unfold ds; rewrite map_length, seq_length; reflexivity). rewrite Lds.
  rewrite (traverse_ok F h) by (intros r Hr; apply in_seq in Hr; apply Fh; lia). cbn [bind].
  assert (Dl : sum_deltas k (map mv_delta (map h (seq 0 P))) = deltas).
  { unfold sum_deltas, deltas. apply map_ext_in. intros b Hb. apply in_seq in Hb. rewrite !map_map.
    unfold block_weight. rewrite <- (rank_sums P (gn G) dist (fun u => if part1 u =? b then gvw G u else 0%Z) HD), <- (rank_sums P (gn G) dist (fun u => if part u =? b then gvw G u else 0%Z) HD), <- zsum_minus.
    apply zsum_map_ext. intros r Hr. apply in_seq in Hr. rewrite <- (delta_of r b) by lia.
    destruct (Tm r ltac:(lia)) as (m & s & Es & Em & _ & _ & _ & _ & _ & B7). destruct (Fh r ltac:(lia)) as (_ & s' & Es' & Em'). assert (s' = s) by congruence. subst s'.
    assert (m = h r) by congruence. subst m. apply B7. lia. }
  rewrite Dl. clear Dl.
  set (fl := feasible k ignore mx (map (block_weight G part) (seq 0 k)) deltas).
  assert (Ex : forall p, In p (combine sts (map h (seq 0 P))) -> exists r s, r < P /\ nth_error sts r = Some s /\ p = (s, h r)).
  { intros p Hp. apply In_nth_error in Hp. destruct Hp as [i Hi]. assert (Li : i < P) by (assert (i < length (combine sts (map h (seq 0 P)))) as L by (apply nth_error_Some; congruence); rewrite combine_length in L; lia).
    destruct (St i Li) as (s & Es & _). exists i, s. split; [exact Li|]. split; [exact Es|].
    assert (Ei : nth_error (combine sts (map h (seq 0 P))) i = Some (s, h i)).
    { rewrite (nth_error_nth' _ (s, h i)) by (rewrite combine_length, map_length, seq_length; lia).
      rewrite combine_nth by (rewrite map_length, seq_length; lia). rewrite (nth_error_nth _ _ s Es). rewrite (nth_indep _ _ (h 0)) by (rewrite map_length, seq_length; lia). rewrite map_nth, seq_nth by lia. reflexivity. }
    congruence. }
  (* the decision of every rank *)
  assert (Cc : forall r s, r < P -> nth_error sts r = Some s ->
    (fl = true -> conclude k ignore mx deltas (lp_bw s) (h r) = Some (true, Lp (mv_part (h r)) (mv_next (h r)) (map (block_weight G part1) (seq 0 k)))) /\
    (fl = false -> conclude k ignore mx deltas (lp_bw s) (h r) = Some (false, s))).
  { intros r s Hr Es. destruct (Tm r Hr) as (m & s0 & Es0 & Em & B1 & B3 & B4 & B5 & B6 & _). assert (s0 = s) by congruence. subst s0.
    destruct (Fh r Hr) as (_ & s' & Es' & Em'). assert (s' = s) by congruence. subst s'. assert (m = h r) by congruence. subst m.
    destruct (Hs r s Es) as [R1 R2 R3 R4]. unfold conclude. rewrite R4. fold fl. split; intros ->.
    - do 3 f_equal. apply map_ext_in. intros b Hb. apply in_seq in Hb. unfold deltas. rewrite !nth_map_seq by lia. cbn [Nat.add]. lia.
    - rewrite B1. destruct (revert_ok (sources r) (nxt r) (filter (goes ignore (coin r) (sources r) (nxt r)) (us r)) (mv_part (h r)) (mv_next (h r))) as (p' & n' & E & C1 & C2).
      + apply NoDup_filter, seq_NoDup.
      + intros u Hu. apply filter_In in Hu. destruct Hu as [Hu Hg]. rewrite B5, (proj2 (inb_spec u (us r)) Hu), Hg. split; [reflexivity|].
        apply in_seq in Hu. rewrite B4. apply nth_error_Some. rewrite R2 by (pose proof (Hrange r Hr); lia). discriminate.
      + rewrite E. cbn [bind fst snd]. do 2 f_equal.
        assert (In1 : forall j, inb j (filter (goes ignore (coin r) (sources r) (nxt r)) (us r)) = inb j (us r) && goes ignore (coin r) (sources r) (nxt r) j).
        { intros j. apply Bool.eq_true_iff_eq. rewrite andb_true_iff, !inb_spec, filter_In. tauto. }
        assert (Ep : p' = lp_part s).
        { apply nth_error_same. intros j. rewrite C1, In1, B5. destruct (inb j (us r) && goes ignore (coin r) (sources r) (nxt r) j) eqn:Ej; [|reflexivity].
          apply andb_true_iff in Ej. destruct Ej as [Ej _]. apply inb_spec, in_seq in Ej. assert (j < dn (d r)) as Hj by (pose proof (Hrange r Hr); lia).
          rewrite (R1 j _ (own_l2g r j Hr Hj)). reflexivity. }
        assert (En : n' = lp_next s).
        { apply nth_error_same. intros j. rewrite C2, In1, B6. destruct (inb j (us r) && goes ignore (coin r) (sources r) (nxt r) j) eqn:Ej; [|reflexivity].
          apply andb_true_iff in Ej. destruct Ej as [Ej _]. apply inb_spec, in_seq in Ej. assert (j < dn (d r)) as Hj by (pose proof (Hrange r Hr); lia).
          rewrite (R2 j Hj). reflexivity. }
        rewrite Ep, En, <- R4. destruct s; reflexivity. }
  destruct (traverse_map (fun p => conclude k ignore mx deltas (lp_bw (fst p)) (snd p)) (combine sts (map h (seq 0 P)))) as (rs & E & Lr & N).
  { intros p Hp. destruct (Ex p Hp) as (r & s & Hr & Es & ->). cbn [fst snd]. destruct (Cc r s Hr Es) as [Ct Cf]. destruct fl; eexists; [exact (Ct eq_refl)|exact (Cf eq_refl)]. }
  assert (Nr : forall r, r < P -> exists s, nth_error sts r = Some s /\ nth_error rs r = Some (fl, if fl then Lp (mv_part (h r)) (mv_next (h r)) (map (block_weight G part1) (seq 0 k)) else s)).
  { intros r Hr. destruct (St r Hr) as (s & Es & _). exists s. split; [exact Es|].
    assert (Ei : nth_error (combine sts (map h (seq 0 P))) r = Some (s, h r)).
    { rewrite (nth_error_nth' _ (s, h r)) by (rewrite combine_length, map_length, seq_length; lia).
      rewrite combine_nth by (rewrite map_length, seq_length; lia). rewrite (nth_error_nth _ _ s Es). rewrite (nth_indep _ _ (h 0)) by (rewrite map_length, seq_length; lia). rewrite map_nth, seq_nth by lia. reflexivity. }
    destruct (N r _ Ei) as (y & Ey & Cy). cbn [fst snd] in Cy. destruct (Cc r s Hr Es) as [Ct Cf]. destruct fl; [rewrite (Ct eq_refl) in Cy|rewrite (Cf eq_refl) in Cy]; congruence. }
  rewrite combine_length, map_length, seq_length in Lr. assert (Lr' : length rs = P) by lia.
  exists rs. split; [exact E|]. split; [exact Lr'|]. cbn zeta. fold fl. split; [|split].
  - intros x Hx. apply In_nth_error in Hx. destruct Hx as [i Hi]. assert (Li : i < P) by (rewrite <- Lr'; apply nth_error_Some; congruence).
    destruct (Nr i Li) as (s & _ & Ei). rewrite Ei in Hi. injection Hi as <-. reflexivity.
  - intros Hf. apply nth_error_same. intros i. rewrite map_nth_error'. destruct (Nat.lt_ge_cases i P) as [Li|Li].
    + destruct (Nr i Li) as (s & Es & Ei). rewrite Ei, Es, Hf. reflexivity.
    + rewrite (proj2 (nth_error_None rs i)) by lia. rewrite (proj2 (nth_error_None sts i)) by lia. reflexivity.
  - intros Hf r s Hrs. rewrite map_nth_error' in Hrs. destruct (nth_error rs r) as [y|] eqn:Ey; [|discriminate]. injection Hrs as <-.
    assert (Hr : r < P) by (rewrite <- Lr'; apply nth_error_Some; congruence). destruct (Nr r Hr) as (s & Es & Ei). rewrite Ei in Ey. injection Ey as <-. rewrite Hf. cbn [snd lp_part lp_next lp_bw].
    destruct (Tm r Hr) as (m & s0 & Es0 & Em & B1 & B3 & B4 & B5 & B6 & _). assert (s0 = s) by congruence. subst s0.
    destruct (Fh r Hr) as (_ & s' & Es' & Em'). assert (s' = s) by congruence. subst s'. assert (m = h r) by congruence. subst m.
    destruct (Hs r s Es) as [R1 R2 R3 R4]. pose proof (Hrange r Hr) as Rg.
    assert (Mv_ : forall j, inb j (us r) && goes ignore (coin r) (sources r) (nxt r) j = mvd r j).
    { intros j. unfold mvd. f_equal. apply Bool.eq_true_iff_eq. rewrite inb_spec, andb_true_iff, Nat.leb_le, Nat.ltb_lt. unfold us. rewrite in_seq. lia. }
    split; [|split; [|split; [|reflexivity]]].
    + intros u Hu. rewrite B5, Mv_, (part1_own r u Hr Hu). destruct (mvd r u); [reflexivity|]. exact (R1 u _ (own_l2g r u Hr Hu)).
    + intros l g Hl Hg. rewrite B5, Mv_. unfold mvd at 1. rewrite (proj2 (Nat.ltb_ge l (hi r))) by lia. rewrite andb_false_r. exact (R1 l g Hg).
    + intros u Hu. rewrite B6, Mv_. destruct (mvd r u); [reflexivity|]. exact (R2 u Hu).
Qed.

Lemma part1_bound : (forall r u, r < P -> u < dn (d r) -> nxt r u < k) -> forall g, g < gn G -> part1 g < k.
Proof.
  intros Hn g Hg. destruct (find_owner_owns P (gn G) dist g HD Hg) as [Hr O]. set (r := find_owner dist g) in *.
  assert (Hu : g - nth r dist 0 < dn (d r)) by (rewrite (dn_r r Hr); unfold owns in O; lia).
  replace g with (nth r dist 0 + (g - nth r dist 0)) by (unfold owns in O; lia). rewrite (part1_own r _ Hr Hu). destruct (mvd r (g - nth r dist 0)); [exact (Hn r _ Hr Hu)|].
  apply Hk. exact (proj2 (owner_of r _ Hr Hu)).
Qed.
End Attempt.

(** The states after the attempts, before the exchange: partition [part2], moved nodes [mv]. *)
Record moved (part part2 : nat -> nat) (nxt : nat -> nat) (mv : nat -> bool) (r : nat) (s : lpst) : Prop := {
  mo_own : forall u, u < dn (d r) -> nth_error (lp_part s) u = Some (part2 (nth r dist 0 + u));
  mo_ghost : forall l g, dn (d r) <= l -> dlocal_to_global (d r) l = Some g -> nth_error (lp_part s) l = Some (part g);
  mo_next : forall u, u < dn (d r) -> nth_error (lp_next s) u = Some (if mv u then None else Some (nxt u));
  mo_bw : lp_bw s = map (block_weight G part2) (seq 0 k) }.

Definition within (part part2 : nat -> nat) : Prop :=
  ignore = false -> forall b, b < k -> (block_weight G part2 b <= Z.max (mx b) (block_weight G part b))%Z.

Lemma feasible_within part part2 : feasible k ignore mx (map (block_weight G part) (seq 0 k)) (map (fun b => Z.sub (block_weight G part2 b) (block_weight G part b)) (seq 0 k)) = true ->
  within part part2.
Proof.
  intros F I b Hb. unfold feasible in F. rewrite I in F. cbn [orb] in F. rewrite forallb_forall in F. specialize (F b ltac:(apply in_seq; lia)).
  rewrite !nth_map_seq in F by lia. cbn [Nat.add] in F. apply negb_true_iff, andb_false_iff in F. destruct F as [F|F]; [apply Z.ltb_ge in F|apply Z.ltb_ge in F]; lia.
Qed.

Lemma attempts_ok part nxt lo hi coins sts : (forall r, r < P -> lo r <= hi r <= dn (d r)) -> (forall g, g < gn G -> part g < k) ->
  (forall r u, r < P -> u < dn (d r) -> ~ lo r <= u < hi r -> nxt r u = part (nth r dist 0 + u)) ->
  length sts = P -> (forall r s, nth_error sts r = Some s -> ready part (nxt r) r s) ->
  exists sts2 part2 mv, attempts k ignore mx ds (fun r => seq (lo r) (hi r - lo r)) coins sts = Some sts2 /\ length sts2 = P /\
    (forall r s, nth_error sts2 r = Some s -> moved part part2 (nxt r) (mv r) r s) /\
    (forall r u, r < P -> u < dn (d r) -> mv r u = false -> part2 (nth r dist 0 + u) = part (nth r dist 0 + u)) /\
    (forall r u, mv r u = true -> lo r <= u < hi r) /\
    (forall g, g < gn G -> part2 g < k) /\ within part part2.
Proof.
  intros Hrg Hk Hout Ls Hs. induction coins as [|c t IH]; cbn [attempts].
  - exists sts, part, (fun _ _ => false). split; [reflexivity|]. split; [exact Ls|]. split; [|split; [reflexivity|split; [discriminate|split; [exact Hk|intros _ b _; lia]]]].
    intros r s Es. assert (Hr : r < P) by (rewrite <- Ls; apply nth_error_Some; congruence). destruct (Hs r s Es) as [R1 R2 R3 R4]. constructor.
    + intros u Hu. exact (R1 u _ (own_l2g r u Hr Hu)).
    + intros l g _ Hl. exact (R1 l g Hl).
    + exact R2.
    + exact R4.
  - destruct (perform_moves_ok part nxt lo hi c Hrg Hk Hout sts Ls Hs) as (rs & E & Lr & Same & Back & Fwd). rewrite E. cbn [bind].
    set (fl := feasible k ignore mx (map (block_weight G part) (seq 0 k)) (deltas part nxt lo hi c)) in *.
    destruct (forallb fst rs) eqn:Fa.
    + exists (map snd rs).
      assert (HP : fl = true \/ P = 0).
      { destruct rs as [|x l]; [right; cbn [length] in Lr; lia|left]. cbn [forallb] in Fa. apply andb_true_iff in Fa. rewrite <- (Same x (or_introl eq_refl)). exact (proj1 Fa). }
      destruct HP as [Hf|Z].
      * exists (part1 part nxt lo hi c), (fun r => mvd part nxt lo hi c r). split; [reflexivity|]. split; [rewrite map_length; exact Lr|]. split.
        { intros r s Es. destruct (Fwd Hf r s Es) as (B1 & B2 & B3 & B4). constructor; assumption. }
        split; [intros r u Hr Hu Hm; rewrite part1_own, Hm by assumption; reflexivity|].
        split; [intros r u Hm; unfold mvd in Hm; rewrite !andb_true_iff, Nat.leb_le, Nat.ltb_lt in Hm; lia|].
        split; [|exact (feasible_within part _ Hf)].
        apply part1_bound; try assumption. intros r u Hr Hu. destruct (nth_error sts r) as [s|] eqn:Es; [exact (rd_bound _ _ _ _ (Hs r s Es) u Hu)|apply nth_error_None in Es; lia].
      * exists part, (fun _ _ => false). split; [reflexivity|]. split; [rewrite map_length; exact Lr|]. split; [|split; [reflexivity|split; [discriminate|split; [exact Hk|intros _ b _; lia]]]].
        intros r s Es. exfalso. assert (r < length (map snd rs)) by (apply nth_error_Some; congruence). rewrite map_length in *. lia.
    + assert (Hf : fl = false).
      { destruct fl; [|reflexivity]. exfalso. assert (forallb fst rs = true) by (apply forallb_forall; exact Same). congruence. }
      assert (Fe : existsb fst rs = false).
      { destruct (existsb fst rs) eqn:Ee; [|reflexivity]. apply existsb_exists in Ee. destruct Ee as (x & Hx & Fx). rewrite (Same x Hx) in Fx. congruence. }
      rewrite Fe, (Back Hf). exact IH.
Qed.

Lemma reset_next_ok us part next : (forall u, In u us -> u < length part /\ u < length next) ->
  exists n', reset_next us part next = Some n' /\ length n' = length next /\
    (forall j, ~ In j us -> nth_error n' j = nth_error next j) /\ (forall j, In j us -> nth_error n' j = option_map Some (nth_error part j)).
Proof.
  revert next. induction us as [|u t IH]; intros next H; cbn [reset_next].
  - exists next. repeat split; try reflexivity. intros j [].
  - destruct (H u (or_introl eq_refl)) as [L1 L2]. destruct (nth_error part u) as [b|] eqn:E; [|apply nth_error_None in E; lia]. cbn [bind]. rewrite store_ok by exact L2. cbn [bind].
    destruct (IH (upd u (Some b) next)) as (n' & E' & L & A & B); [intros v Hv; rewrite upd_length; apply H; right; exact Hv|]. rewrite upd_length in L.
    exists n'. split; [exact E'|]. split; [exact L|]. split.
    + intros j Hj. rewrite A by (intros C; apply Hj; right; exact C). rewrite upd_nth_error. rewrite (proj2 (Nat.eqb_neq u j)) by (intros C; apply Hj; left; exact C). reflexivity.
    + intros j [<-|Hj]; [|exact (B j Hj)]. destruct (in_dec Nat.eq_dec u t) as [I|I]; [exact (B u I)|]. rewrite (A u I), upd_nth_error, Nat.eqb_refl, (proj2 (Nat.ltb_lt u _)) by exact L2. rewrite E. reflexivity.
Qed.

(** Between chunks. *)
Definition good (part : nat -> nat) (sts : list lpst) : Prop :=
  length sts = P /\ (forall g, g < gn G -> part g < k) /\ forall r s, nth_error sts r = Some s -> ready part (fun u => part (nth r dist 0 + u)) r s.

Definition nxt_of (sts : list lpst) (r u : nat) : nat :=
  match nth_error sts r with Some s => match nth_error (lp_next s) u with Some (Some b) => b | _ => 0 end | None => 0 end.

Lemma proposes_ready part lo hi sts sts1 : good part sts -> length sts1 = P -> (forall r, r < P -> lo r <= hi r <= dn (d r)) ->
  (forall r s s1, nth_error sts r = Some s -> nth_error sts1 r = Some s1 -> proposes k (lo r) (hi r) s s1) ->
  (forall r s, nth_error sts1 r = Some s -> ready part (nxt_of sts1 r) r s) /\
  (forall r u, r < P -> u < dn (d r) -> ~ lo r <= u < hi r -> nxt_of sts1 r u = part (nth r dist 0 + u)).
Proof.
  intros (Ls & Hk & Hg) L1 Hrg Hp.
  assert (Q : forall r s1, nth_error sts1 r = Some s1 -> r < P /\ exists s, nth_error sts r = Some s /\ proposes k (lo r) (hi r) s s1 /\ ready part (fun u => part (nth r dist 0 + u)) r s).
  { intros r s1 E1. assert (Hr : r < P) by (rewrite <- L1; apply nth_error_Some; congruence). split; [exact Hr|].
    destruct (nth_error sts r) as [s|] eqn:E; [exists s; split; [reflexivity|split; [exact (Hp r s s1 E E1)|exact (Hg r s E)]]|apply nth_error_None in E; lia]. }
  assert (Nx : forall r s1 u, nth_error sts1 r = Some s1 -> u < dn (d r) -> exists b, nth_error (lp_next s1) u = Some (Some b) /\ b < k /\ nxt_of sts1 r u = b /\ (~ lo r <= u < hi r -> b = part (nth r dist 0 + u))).
  { intros r s1 u E1 Hu. destruct (Q r s1 E1) as (Hr & s & E & (P1 & P2 & P3 & P4 & P5) & [R1 R2 R3 R4]). unfold nxt_of. rewrite E1.
    destruct (Nat.lt_ge_cases u (lo r)) as [A|A]; [|destruct (Nat.lt_ge_cases u (hi r)) as [B|B]].
    - pose proof (P4 u (or_introl A)) as X. rewrite (R2 u Hu) in X. rewrite X. eexists. split; [reflexivity|]. split; [exact (R3 u Hu)|]. split; [reflexivity|]. reflexivity.
    - destruct (P5 u (conj A B)) as (b & X & Hb). rewrite X. exists b. split; [reflexivity|]. split; [exact Hb|]. split; [reflexivity|]. intros C. lia.
    - pose proof (P4 u (or_intror B)) as X. rewrite (R2 u Hu) in X. rewrite X. eexists. split; [reflexivity|]. split; [exact (R3 u Hu)|]. split; [reflexivity|]. reflexivity. }
  split.
  - intros r s1 E1. destruct (Q r s1 E1) as (Hr & s & E & (P1 & P2 & P3 & P4 & P5) & [R1 R2 R3 R4]). constructor.
    + intros l g Hl. rewrite P1. exact (R1 l g Hl).
    + intros u Hu. destruct (Nx r s1 u E1 Hu) as (b & X & _ & Y & _). rewrite X, Y. reflexivity.
    + intros u Hu. destruct (Nx r s1 u E1 Hu) as (b & _ & X & Y & _). rewrite Y. exact X.
    + rewrite P2. exact R4.
  - intros r u Hr Hu Ho. destruct (nth_error sts1 r) as [s1|] eqn:E1; [|apply nth_error_None in E1; lia]. destruct (Nx r s1 u E1 Hu) as (b & _ & _ & Y & Z). rewrite Y. exact (Z Ho).
Qed.

Variable HC : closed_graph G.
Variable HS : symmetric_adjacency G.

(** The exchange after the attempts. *)
Lemma synchronize_ok part part2 nxt mv lo hi threads sts2 bufs : (forall r, r < P -> lo r <= hi r <= dn (d r) /\ 0 < threads r) -> length sts2 = P ->
  (forall r s, nth_error sts2 r = Some s -> moved part part2 (nxt r) (mv r) r s) ->
  (forall r u, r < P -> u < dn (d r) -> ~ lo r <= u < hi r -> nxt r u = part (nth r dist 0 + u)) ->
  (forall r u, r < P -> u < dn (d r) -> mv r u = false -> part2 (nth r dist 0 + u) = part (nth r dist 0 + u)) ->
  (forall r u, mv r u = true -> lo r <= u < hi r) -> (forall g, g < gn G -> part2 g < k) ->
  (forall r s, nth_error sts2 r = Some s -> move_buffers P (d r) (threads r) (lo r) (hi r) s (bufs r)) ->
  forall q s msgs, nth_error sts2 q = Some s -> Permutation msgs (inbox P bufs q) ->
  exists s3, synchronize (d q) (lo q) (hi q) msgs s = Some s3 /\ ready part2 (fun u => part2 (nth q dist 0 + u)) q s3.
Proof.
  intros Hrg L2 Hm Hout Hst Hmv Hk2 Hb q s msgs Es Hp. assert (Hq : q < P) by (rewrite <- L2; apply nth_error_Some; congruence).
  set (st := fun r => nth r sts2 (Lp [] [] [])).
  assert (St : forall r, r < P -> nth_error sts2 r = Some (st r)) by (intros r Hr; apply nth_error_nth'; lia).
  assert (Eq : st q = s) by (pose proof (St q Hq); congruence).
  destruct (sync_some P G dist HD part part2 d (fun r => lp_part (st r)) 0 (fun r => moved_filter (st r)) threads lo hi bufs HC HS RO Hrg) with (q := q) (msgs := msgs) as (arr & E & La & A).
  - intros r u Hr Hu. exact (mo_own _ _ _ _ _ _ (Hm r _ (St r Hr)) u Hu).
  - intros r l g Hr Hl Hg. exact (mo_ghost _ _ _ _ _ _ (Hm r _ (St r Hr)) l g Hl Hg).
  - intros r u Hr Hu Hn. apply Hst; [exact Hr|exact Hu|]. destruct (mv r u) eqn:Em; [|reflexivity]. exfalso. apply Hn. split; [exact (Hmv r u Em)|].
    unfold moved_filter. rewrite (mo_next _ _ _ _ _ _ (Hm r _ (St r Hr)) u Hu), Em. reflexivity.
  - intros r Hr. exact (Hb r _ (St r Hr)).
  - exact Hq.
  - exact Hp.
  - cbn beta in E, La. rewrite Eq in E, La. destruct (Hm q s Es) as [M1 M2 M3 M4]. destruct (Hrg q Hq) as [Rg _].
    destruct (reset_next_ok (seq (lo q) (hi q - lo q)) arr (lp_next s)) as (n' & E' & Ln & B1 & B2).
    { intros u Hu. apply in_seq in Hu. assert (Hu' : u < dn (d q)) by lia. split; apply nth_error_Some; [rewrite (A u _ (own_l2g q u Hq Hu'))|rewrite (M3 u Hu')]; discriminate. }
    exists (Lp arr n' (lp_bw s)). split; [unfold synchronize; rewrite E; cbn [bind]; rewrite E'; reflexivity|]. constructor; cbn [lp_part lp_next lp_bw].
    + exact A.
    + intros u Hu. destruct (in_dec Nat.eq_dec u (seq (lo q) (hi q - lo q))) as [I|I].
      * rewrite (B2 u I), (A u _ (own_l2g q u Hq Hu)). reflexivity.
      * rewrite (B1 u I), (M3 u Hu). rewrite in_seq in I. destruct (mv q u) eqn:Em; [pose proof (Hmv q u Em); lia|].
        rewrite (Hst q u Hq Hu Em), (Hout q u Hq Hu) by lia. reflexivity.
    + intros u Hu. apply Hk2. exact (proj2 (owner_of q u Hq Hu)).
    + exact M4.
Qed.

Lemma ds_nth r d0 : nth_error ds r = Some d0 -> r < P /\ d0 = d r.
Proof.
  intros E. assert (L : r < length ds) by (apply nth_error_Some; congruence). unfold ds in *. rewrite map_length, seq_length in L. split; [exact L|]. rewrite nth_error_map_seq in E by exact L. congruence.
Qed.
Lemma ds_nth' r : r < P -> nth_error ds r = Some (d r).
Proof. intros Hr. apply nth_error_map_seq. exact Hr. Qed.
Lemma ds_len : length ds = P.
Proof. unfold ds. rewrite map_length, seq_length. reflexivity. Qed.

Theorem chunk_ok part lo hi threads sts sts3 : good part sts -> (forall r, r < P -> lo r <= hi r <= dn (d r) /\ 0 < threads r) ->
  chunk k ignore mx ds lo hi threads sts sts3 -> exists part2, good part2 sts3 /\ within part part2.
Proof.
  intros Hg Hrg C. destruct C as [sts sts1 L0 L1 Hp|sts sts1 sts2 sts3 coins bufs msgs L0 L1 Hp Ha Hb L3 Hs].
  - exists part. split; [|intros _ b _; lia]. pose proof Hg as (_ & Hk & Hgd). rewrite ds_len in L1. split; [exact L1|]. split; [exact Hk|]. intros r s1 E1.
    assert (Hr : r < P) by (rewrite <- L1; apply nth_error_Some; congruence). rewrite ds_len in L0.
    destruct (nth_error sts r) as [s|] eqn:E; [|apply nth_error_None in E; lia]. destruct (Hp r s s1 E E1) as [(P1 & P2 & P3 & P4 & P5) U]. destruct (Hgd r s E) as [R1 R2 R3 R4]. constructor.
    + intros l g Hl. rewrite P1. exact (R1 l g Hl).
    + intros u Hu. destruct (Nat.lt_ge_cases u (lo r)) as [A|A]; [rewrite P4 by (left; exact A); exact (R2 u Hu)|].
      destruct (Nat.lt_ge_cases u (hi r)) as [B|B]; [|rewrite P4 by (right; exact B); exact (R2 u Hu)].
      rewrite (U u (conj A B)), P1, (R1 u _ (own_l2g r u Hr Hu)). reflexivity.
    + exact R3.
    + rewrite P2. exact R4.
  - rewrite ds_len in *. assert (Hrg' : forall r, r < P -> lo r <= hi r <= dn (d r)) by (intros r Hr; apply Hrg; exact Hr).
    destruct (proposes_ready part lo hi sts sts1 Hg L1 Hrg' Hp) as [Rd Ho]. pose proof Hg as (_ & Hk & _).
    destruct (attempts_ok part (nxt_of sts1) lo hi coins sts1 Hrg' Hk Ho L1 Rd) as (s2 & part2 & mv & E & L2 & M & St & Mr & Hk2 & W).
    assert (s2 = sts2) by congruence. subst s2. exists part2. split; [|exact W]. split; [exact L3|]. split; [exact Hk2|]. intros q s3 E3.
    assert (Hq : q < P) by (rewrite <- L3; apply nth_error_Some; congruence).
    destruct (nth_error sts2 q) as [s|] eqn:Es; [|apply nth_error_None in Es; lia].
    destruct (Hs q (d q) s (ds_nth' q Hq) Es) as [Pm Sy]. rewrite E3 in Sy.
    destruct (synchronize_ok part part2 (nxt_of sts1) mv lo hi threads sts2 bufs Hrg L2 M Ho St Mr Hk2) with (q := q) (s := s) (msgs := msgs q) as (s3' & E3' & Rd3); [|exact Es|exact Pm|].
    + intros r s' E'. assert (Hr : r < P) by (rewrite <- L2; apply nth_error_Some; congruence). exact (Hb r (d r) s' (ds_nth' r Hr) E').
    + assert (s3' = s3) by congruence. subst s3'. exact Rd3.
Qed.
(** Nothing fails and nobody waits: the attempts have a result on all ranks, and so has the exchange. *)
Theorem chunk_total part lo hi threads sts sts1 coins : good part sts -> (forall r, r < P -> lo r <= hi r <= dn (d r) /\ 0 < threads r) -> length sts1 = P ->
  (forall r s s1, nth_error sts r = Some s -> nth_error sts1 r = Some s1 -> proposes k (lo r) (hi r) s s1) ->
  exists sts2, attempts k ignore mx ds (fun r => seq (lo r) (hi r - lo r)) coins sts1 = Some sts2 /\ length sts2 = P /\
    forall bufs, (forall r s, nth_error sts2 r = Some s -> move_buffers P (d r) (threads r) (lo r) (hi r) s (bufs r)) ->
    forall q s msgs, nth_error sts2 q = Some s -> Permutation msgs (inbox P bufs q) -> exists s3, synchronize (d q) (lo q) (hi q) msgs s = Some s3.
Proof.
  intros Hg Hrg L1 Hp. assert (Hrg' : forall r, r < P -> lo r <= hi r <= dn (d r)) by (intros r Hr; apply Hrg; exact Hr).
  destruct (proposes_ready part lo hi sts sts1 Hg L1 Hrg' Hp) as [Rd Ho]. pose proof Hg as (_ & Hk & _).
  destruct (attempts_ok part (nxt_of sts1) lo hi coins sts1 Hrg' Hk Ho L1 Rd) as (sts2 & part2 & mv & E & L2 & M & St & Mr & Hk2 & W).
  exists sts2. split; [exact E|]. split; [exact L2|]. intros bufs Hb q s msgs Es Pm.
  destruct (synchronize_ok part part2 (nxt_of sts1) mv lo hi threads sts2 bufs Hrg L2 M Ho St Mr Hk2 Hb q s msgs Es Pm) as (s3 & E3 & _). exists s3. exact E3.
Qed.

Theorem refine_ok part sts sts' : good part sts -> refine k ignore mx ds sts sts' -> exists part', good part' sts' /\ within part part'.
Proof.
  intros Hg R. revert part Hg. induction R as [sts|lo hi threads sts sts1 sts2 Hrg C R IH]; intros part Hg.
  - exists part. split; [exact Hg|]. intros _ b _. lia.
  - destruct (chunk_ok part lo hi threads sts sts1 Hg) as (p1 & G1 & W1); [intros r Hr; exact (Hrg r (d r) (ds_nth' r Hr))|exact C|].
    destruct (IH p1 G1) as (p2 & G2 & W2). exists p2. split; [exact G2|]. intros I b Hb. specialize (W1 I b Hb). specialize (W2 I b Hb). lia.
Qed.
End System.
