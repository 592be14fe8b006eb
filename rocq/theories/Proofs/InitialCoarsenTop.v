(* The hierarchy built by Model/InitialCoarsenModel.v. *)
From Verif Require Import Lib.Prelude Lib.Count Spec.Graph Spec.Quotient Spec.RatingMap Spec.InitialCoarsenSpec Model.RatingMapModel Model.VarintModel
  Model.InitialCoarsenModel Proofs.GraphFacts Proofs.RatingMapProofs Proofs.PermProofs Proofs.QuotientProofs
  Proofs.InitialCoarsenBase Proofs.InitialCoarsenMap Proofs.InitialCoarsenContract.

(** The state between two levels. *)
Record cok (limit : Z) (g : graph) (co : coarsener) : Prop := mkCok {
  ck_len : gn g < length (fst (fst (co_lp co)));
  ck_rm : exists NR, gn g <= NR /\ finv NR (snd (co_lp co)) [];
  ck_ec : exists NE, gn g <= NE /\ finv NE (co_ec co) [];
  ck_nodes : gn g <= length (co_nodes co);
  ck_pre : co_pre co = true -> cinv limit (gn g) (gvw g) (fun _ => True) (fst (fst (co_lp co))) (snd (fst (co_lp co))) }.

Lemma idle_finv a n : idle_array a -> n <= length (fa_data a) -> exists N, n <= N /\ finv N a [].
Proof.
  intros [H1 H2] Hn. exists (length (fa_data a)). split; [exact Hn|]. constructor; cbn; try contradiction; try constructor; auto.
Qed.
Lemma finv_idle a N : finv N a [] -> idle_array a.
Proof.
  intros F. split; [exact (fi_used _ _ _ F)|]. intros k. destruct (le_lt_dec N k); [apply nth_overflow; rewrite (fi_len _ _ _ F); assumption|].
  rewrite (fi_data _ _ _ F) by assumption. reflexivity.
Qed.
Lemma enlarge_length {A} n (x : A) l : n <= length (enlarge n x l) /\ length l <= length (enlarge n x l).
Proof. unfold enlarge. destruct (Nat.ltb_spec (length l) n); rewrite ?app_length, ?repeat_length; lia. Qed.
Lemma enlarge_idle n a : idle_array a -> idle_array (fra_enlarge n a).
Proof.
  intros [H1 H2]. split; [exact H1|]. intros k. cbn [fra_enlarge fa_data]. unfold enlarge. destruct (_ <? _); [|apply H2].
  destruct (le_lt_dec (length (fa_data a)) k); [|rewrite app_nth1 by assumption; apply H2]. rewrite app_nth2 by assumption. apply nth_repeat.
Qed.
Lemma init_ok limit g co : idle co -> cok limit g (init_coarsener g co).
Proof.
  intros [I1 I2]. unfold init_coarsener. destruct (co_lp co) as [[cl moves] rm]. cbn [snd] in I1. constructor; cbn [co_lp co_ec co_nodes co_pre fst snd].
  - destruct (enlarge_length (S (gn g)) dcl cl). lia.
  - apply idle_finv; [apply enlarge_idle, I1|]. apply enlarge_length.
  - apply idle_finv; [apply enlarge_idle, I2|]. apply enlarge_length.
  - apply enlarge_length.
  - discriminate.
Qed.

Section Top.
Variables (bits limit : Z).
Hypothesis Hbits : (1 <= bits)%Z.
Hypothesis Hlim : (limit < 2 ^ (bits - 1))%Z.

Lemma contract_ok g coin co : 0 < gn g -> closed_graph g -> positive_edges g -> fits (2 ^ (bits - 1)) g -> cok limit g co -> co_pre co = true ->
  exists mapping h co', contract bits limit g coin co = Some (mapping, h, co') /\
    gn h = gn g - snd (fst (co_lp co)) /\ length mapping = gn g /\ is_quotient g (fun u => nth u mapping 0) h /\ 0 < gn h /\
    (forall u v, u < gn g -> v < gn g -> u <> v -> nth u mapping 0 = nth v mapping 0 -> (gvw h (nth u mapping 0%nat) <= limit)%Z) /\
    positive_edges h /\ fits (2 ^ (bits - 1)) h /\ co_pre co' = true /\ cok limit h co'.
Proof.
  intros Hn0 Cg Pg Hw [K1 (NR & HNR & FR) (NE & HNE & FE) K4 K5] Hpre. specialize (K5 Hpre). unfold contract.
  destruct (co_lp co) as [[cl moves] rm] eqn:Elp. cbn [fst snd] in *.
  destruct (map_nodes_ok limit (gn g) (gvw g) cl moves K5) as (ls & lm & mapping & sizes & -> & L1 & L2 & L3 & L4 & L5 & L6 & L7 & L8).
  set (c_n := gn g - moves) in *. assert (Hcn0 : 0 < c_n) by (destruct (L6 0 Hn0); lia). assert (Hcn : c_n <= gn g) by (unfold c_n; lia).
  destruct (put_nodes_ok (gn g) c_n mapping sizes (co_nodes co) Hcn L3) as (first & nodes & -> & P2 & P3); [intros x Hx; apply L6, Hx|exact L8|exact K4|].
  rewrite P3. set (cw := map (fun L => wgt cl L) ls).
  assert (Wc : forall c, c < c_n -> nth c cw 0%Z = sumn (gn g) (fun u => if nth u mapping 0 =? c then gvw g u else 0%Z)).
  { intros c Hc. unfold cw. rewrite (nth_indep _ 0%Z (wgt cl 0)) by (rewrite map_length; lia). rewrite (map_nth (fun L => wgt cl L)).
    assert (Hcl : c < length ls) by lia. destruct (L4 (nth c ls 0) (nth_In ls 0 Hcl)) as [A B]. rewrite (ci_weight _ _ _ _ _ _ K5 _ A B). apply sumn_ext. intros u Hu.
    destruct (L6 u Hu) as [M1 M2]. rewrite <- M2. destruct (Nat.eqb_spec (nth u mapping 0) c) as [->|Hne]; [rewrite Nat.eqb_refl; reflexivity|].
    rewrite (proj2 (Nat.eqb_neq _ _)); [reflexivity|]. intros E. apply Hne. apply (NoDup_nth ls 0) in E; auto; lia. }
  assert (Wl : forall u v, u < gn g -> v < gn g -> u <> v -> nth u mapping 0 = nth v mapping 0 -> (nth (nth u mapping 0%nat) cw 0 <= limit)%Z).
  { intros u v Hu Hv Hne E. destruct (L6 u Hu) as [M1 M2]. destruct (L6 v Hv) as [M3 M4]. rewrite E, M4 in M2.
    unfold cw. rewrite (nth_indep _ 0%Z (wgt cl 0)) by (rewrite map_length; lia). rewrite (map_nth (fun L => wgt cl L)).
    rewrite E, M4. destruct (Nat.eq_dec (lead cl v) v) as [Ev|Ev]; [|apply (ci_limit _ _ _ _ _ _ K5 v Hv Ev)].
    rewrite M2. apply (ci_limit _ _ _ _ _ _ K5 u Hu). congruence. }
  assert (Wf : forall c, c < c_n -> (0 <= nth c cw 0 < 2 ^ (bits - 1))%Z).
  { intros c Hc. split.
    - rewrite Wc by exact Hc. apply sumn_nonneg. intros u Hu. specialize (Hw u Hu). destruct (_ =? _); lia.
    - destruct (L7 c Hc) as (u & Hu & Eu).
      assert (D : (exists v, v < gn g /\ v <> u /\ nth v mapping 0 = c) \/ (forall v, v < gn g -> v <> u -> nth v mapping 0 <> c)).
      { destruct (existsb (fun v => negb (v =? u) && (nth v mapping 0 =? c)) (seq 0 (gn g))) eqn:X.
        - left. apply existsb_exists in X. destruct X as (v & Hv & X). apply in_seq in Hv. apply andb_true_iff in X. destruct X as [X1 X2].
          apply Nat.eqb_eq in X2. apply negb_true_iff, Nat.eqb_neq in X1. exists v. repeat split; auto; lia.
        - right. intros v Hv Hne E. assert (Y : existsb (fun v => negb (v =? u) && (nth v mapping 0 =? c)) (seq 0 (gn g)) = true); [|congruence].
          apply existsb_exists. exists v. split; [apply in_seq; lia|]. rewrite E, Nat.eqb_refl, (proj2 (Nat.eqb_neq v u) Hne). reflexivity. }
      destruct D as [(v & Hv & Hne & Ev)|D].
      + rewrite <- Eu. specialize (Wl u v Hu Hv ltac:(congruence) ltac:(congruence)). lia.
      + rewrite Wc by exact Hc. rewrite (sumn_single (gn g) u); [|exact Hu|].
        * rewrite Eu, Nat.eqb_refl. apply Hw, Hu.
        * intros i Hi Hne. rewrite (proj2 (Nat.eqb_neq _ _) (D i Hi Hne)). reflexivity. }
  assert (HNRc : c_n <= NR) by lia. assert (HNEc : c_n <= NE) by lia.
  set (wc := fun c => nth c cw 0%Z).
  assert (Hlc : c_n < length cl) by lia.
  destruct (reset_ok bits limit c_n NR wc Hbits Hlim Wf HNRc cl Hlc) as [R1 R2].
  set (s0 := mkE 0 [0] [] (co_ec co) (reset_clustering bits c_n wc cl, 0, rm) (co_lock co)).
  assert (I0 : einv limit g NR NE c_n mapping cw 0 [] s0).
  { constructor; cbn [s0 e_cu e_nodes e_edges e_ec e_lp e_lock fst snd]; auto.
    - apply (cinv_weaken bits limit c_n NR wc Hbits Hlim Wf HNRc (fun _ => False)); [intros v []|exact R1].
    - exists []. split; [split; [exact FR|intros k []]|auto]. }
  assert (Hf : forall x, x < gn g -> nth x mapping 0 < c_n) by (intros x Hx; apply L6, Hx).
  destruct (all_buckets_ok bits limit g NR NE c_n mapping cw Hbits Hlim HNRc HNEc Cg Pg Hf L7 Wf coin s0 Hcn0 I0) as (s1 & E1 & I1).
  fold wc. fold s0. rewrite E1.
  destruct (finish_ok bits limit g NR NE c_n mapping cw Hbits Hlim HNRc HNEc Cg Pg Hf L7 Wf coin (c_n - 1) s1 ltac:(lia) I1) as (s & E2 & I2 & Fe).
  rewrite E2. replace (S (c_n - 1)) with c_n in I2 by lia. rewrite (ei_cu _ _ _ _ _ _ _ _ _ _ I2), Nat.eqb_refl.
  eexists mapping, _, _. split; [reflexivity|]. cbn [gn].
  destruct I2 as [J1 J2 J3 J4 J5 J6 J7].
  set (E c := acc_run (bucket_ops g (fun u => nth u mapping 0) c (filter (fun u => nth u mapping 0 =? c) (seq 0 (gn g))))) in *.
  assert (Hadj : forall c, c < c_n -> slice (e_nodes s) (e_edges s) c = E c).
  { intros c Hc. rewrite J2, J3. apply (slice_flat_map E c_n c Hc). }
  split; [reflexivity|]. split; [exact L2|]. split.
  { apply (build_quotient g (fun u => nth u mapping 0) _ (fun c => c) (fun c => filter (fun u => nth u mapping 0 =? c) (seq 0 (gn g))) E); cbn [gn gadj gvw]; auto.
    - intros c Hc; exact Hc.
    - intros a b _ _ Eab. exact Eab.
    - intros c Hc. unfold is_bucket. reflexivity.
    - intros c Hc. rewrite Hadj by exact Hc. rewrite (map_ext _ (fun e => e)) by (intros []; reflexivity). rewrite map_id. reflexivity.
    - intros c Hc. unfold wc. rewrite Wc by exact Hc. symmetry. apply (zsum_bucket (gn g) (fun u => nth u mapping 0) c _ (gvw g)). reflexivity. }
  split; [exact Hcn0|]. split; [exact Wl|]. split.
  { intros c v x Hc Hin. cbn [gn gadj] in *. rewrite Hadj in Hin by exact Hc.
    apply (E_positive bits limit g NR NE c_n mapping cw Hbits Hlim HNRc HNEc Cg Pg Hf L7 Wf c (v, x) Hin). }
  split; [exact Wf|]. split; [reflexivity|].
  destruct J6 as (l & [J6 _] & J6').
  (* the last coarse node was finished: nothing is left in the rating map *)
  constructor; cbn [gn co_lp co_ec co_nodes co_pre].
  - exact (ci_len _ _ _ _ _ _ J5).
  - exists NR. split; [exact HNRc|]. 
    exact Fe.
  - exists NE. split; [exact HNEc|exact J4].
  - lia.
  - intros _. destruct J5 as [X1 X2 X3 X4 X5 X6 X7]. constructor; auto.
Qed.

Lemma coarsen_ok env lvl g co : 0 < gn g -> closed_graph g -> positive_edges g -> fits (2 ^ (bits - 1)) g -> cok limit g co ->
  NoDup (ce_order env) -> (co_pre co = false -> forall u, In u (ce_order env) -> u < gn g) -> (forall m, ce_converged env m m = true) ->
  exists r co', coarsen bits limit env lvl g co = Some (r, co') /\ co_pre co' = true /\
    match r with
    | None => (exists c, c <= gn g /\ ce_converged env c (gn g) = true) /\ cok limit g co'
    | Some (mapping, h) =>
        gn h < gn g /\ length mapping = gn g /\ is_quotient g (fun u => nth u mapping 0) h /\ 0 < gn h /\
        (forall u v, u < gn g -> v < gn g -> u <> v -> nth u mapping 0 = nth v mapping 0 -> (gvw h (nth u mapping 0%nat) <= limit)%Z) /\
        positive_edges h /\ fits (2 ^ (bits - 1)) h /\ cok limit h co'
    end.
Proof.
  intros Hn0 Cg Pg Hw K HND Hord Hcv. unfold coarsen.
  assert (K1 : exists co1, (if co_pre co then Some co
         else match label_propagation bits limit g (ce_coin0 env) (ce_order env) (fst (fst (co_lp co))) (snd (co_lp co)) with
              | Some lp => Some (mkCo lp (co_ec co) (co_nodes co) (co_lock co) true)
              | None => None
              end) = Some co1 /\ co_pre co1 = true /\ cok limit g co1).
  { destruct (co_pre co) eqn:Hp; [exists co; auto|]. destruct K as [A1 (NR & HNR & FR) A3 A4 A5].
    destruct (label_propagation_ok bits limit g NR Hbits Hlim Hw HNR Cg Pg (ce_coin0 env) (ce_order env) (fst (fst (co_lp co))) (snd (co_lp co)) HND (Hord eq_refl) A1 FR)
      as (cl' & moves' & rm' & -> & C' & F'). eexists. split; [reflexivity|]. split; [reflexivity|].
    constructor; cbn [co_lp co_ec co_nodes co_pre fst snd]; auto. { exact (ci_len _ _ _ _ _ _ C'). } exists NR. auto. }
  destruct K1 as (co1 & -> & Hp & K1). destruct (ce_converged env (gn g - snd (fst (co_lp co1))) (gn g)) eqn:Ev.
  - exists None, co1. split; [reflexivity|]. split; [exact Hp|]. split; [|exact K1]. eexists. split; [|exact Ev]. lia.
  - destruct (contract_ok g (ce_coin env lvl) co1 Hn0 Cg Pg Hw K1 Hp) as (mapping & h & co' & -> & H1 & H2 & H3 & H4 & H5 & H6 & H7 & H8 & H9).
    exists (Some (mapping, h)), co'. split; [reflexivity|]. split; [exact H8|]. split; [|auto 10].
    destruct (Nat.eq_dec (snd (fst (co_lp co1))) 0) as [E0|E0]; [|lia]. rewrite E0, Nat.sub_0_r, Hcv in Ev. discriminate.
Qed.

Lemma coarsen_loop_ok env climit : NoDup (ce_order env) -> (forall m, ce_converged env m m = true) -> forall fuel lvl g co, gn g <= fuel ->
  0 < gn g -> closed_graph g -> positive_edges g -> fits (2 ^ (bits - 1)) g -> cok limit g co ->
  (co_pre co = false -> forall u, In u (ce_order env) -> u < gn g) ->
  exists levels co', coarsen_loop bits limit fuel env climit lvl g co = Some (levels, co') /\
    coarsening limit g levels /\ closed_graph (coarsest g levels) /\ positive_edges (coarsest g levels) /\ fits (2 ^ (bits - 1)) (coarsest g levels) /\ 0 < gn (coarsest g levels) /\
    (gn (coarsest g levels) <= climit \/ exists c, c <= gn (coarsest g levels) /\ ce_converged env c (gn (coarsest g levels)) = true) /\ idle co'.
Proof.
  intros HND Hcv. induction fuel as [|fuel IH]; intros lvl g co Hf Hn0 Cg Pg Hw K Hord; [lia|]. cbn [coarsen_loop].
  assert (Hidle : forall h co', cok limit h co' -> idle co').
  { intros h co' [_ (NR & _ & F1) (NE & _ & F2) _ _]. split; [apply (finv_idle _ NR F1)|apply (finv_idle _ NE F2)]. }
  destruct (Nat.leb_spec (gn g) climit).
  - exists [], co. cbn [coarsening coarsest]. split; [reflexivity|]. eauto 10.
  - destruct (coarsen_ok env lvl g co Hn0 Cg Pg Hw K HND Hord Hcv) as (r & co' & -> & Hp & Hr). destruct r as [[mapping h]|].
    + destruct Hr as (R1 & R2 & R3 & R4 & R5 & R6 & R7 & R8).
      destruct (IH (S lvl) h co' ltac:(lia) R4 (quotient_closed g h _ R3 Cg) R6 R7 R8) as (levels & co'' & -> & L1 & L2); [congruence|].
      exists ((mapping, h) :: levels), co''. cbn [coarsening coarsest]. split; [reflexivity|]. split; [auto 10|exact L2].
    + destruct Hr as [R1 R2]. exists [], co'. cbn [coarsening coarsest]. split; [reflexivity|]. eauto 12.
Qed.

Lemma coarsening_hierarchy : forall levels g, coarsening limit g levels -> hierarchy g levels.
Proof. induction levels as [|[mapping h] levels IH]; intros g H; [exact I|]. destruct H as (_ & Q & _ & _ & R). split; [exact Q|apply IH, R]. Qed.

Lemma initial_coarsening_ok env climit g co : 0 < gn g -> closed_graph g -> positive_edges g -> fits (2 ^ (bits - 1)) g ->
  idle co -> legal_env (gn g) env ->
  exists levels co', coarsen_loop bits limit (gn g) env climit 0 g (init_coarsener g co) = Some (levels, co') /\
    coarsening limit g levels /\
    (gn (coarsest g levels) <= climit \/ exists c, c <= gn (coarsest g levels) /\ ce_converged env c (gn (coarsest g levels)) = true) /\ idle co'.
Proof.
  intros Hn0 Cg Pg Hw Hi (E1 & E2 & E3).
  destruct (coarsen_loop_ok env climit E1 E3 (gn g) 0 g (init_coarsener g co) (le_n _) Hn0 Cg Pg Hw (init_ok limit g co Hi) (fun _ => E2))
    as (levels & co' & H1 & H2 & _ & _ & _ & _ & H3 & H4). exists levels, co'. auto.
Qed.
End Top.
