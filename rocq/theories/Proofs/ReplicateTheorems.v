(* Groups of ranks: the copies of the graph and the best partition of the groups. *)
From Verif Require Import Lib.Prelude Model.GridModel Model.MathModel Model.DistGraphModel Model.ReplicateModel Spec.Graph Spec.DistGraphSpec Spec.ReplicateSpec
  Proofs.GridBase Proofs.GridTopo Proofs.ImportProofs Proofs.DistViewProofs Proofs.ExchangeProofs Proofs.DistMetricsProofs Proofs.DistSystemProofs
  Proofs.ReplicateProofs Proofs.ReplicateAll Proofs.ReplicateBest Proofs.ReplicateGroups.

Section Even.
Variables (P R Q : nat).
Hypothesis HRp : 0 < R.
Hypothesis HPQ : P = R * Q.
Variables (G : graph) (dist edist : list nat) (d : nat -> dcsr).
Hypothesis HX : distributed P G dist edist d.
Notation ds := (map d (seq 0 P)).
Notation from r := (nth r dist 0).
Notation cnt r := (nth (S r) dist 0 - nth r dist 0).
Notation dist' := (new_distribution P R Q dist).
Notation edist' := (new_distribution P R Q edist).
Notation HD := (x_dist P G dist edist d HX).

Section Copies.
Hypothesis HY : weights_everywhere P d.
Theorem groups_correct wg wl (d' : nat -> dcsr) : closed_graph G -> (forall r, r < P -> replicate_outcome P R ds wg wl r (d' r)) ->
  forall c, c < R -> distributed Q G dist' edist' (fun q => d' (q * R + c)) /\ weights_everywhere Q (fun q => d' (q * R + c)).
Proof.
  intros HC HO c Hc.
  assert (X : forall q, q < Q -> q * R + c < P /\ (q * R + c) / R = q) by (intros q Hq; split; [apply (rank_lt P R Q HPQ q c Hq Hc)|apply (div_of P R Q HRp HPQ); assumption]).
  assert (K : forall q, q < Q -> let d0 := d' (q * R + c) in
    local_view G dist' q (dn d0) (dghost_n d0) (dlocal_to_global d0) (dglobal_to_local d0) (dghost_owner d0) (dcontains d0) (dadj d0) /\
    (forall u, u < dn d0 -> dnode_weight (dc_nw d0) u = Some (gvw G (nth q dist' 0 + u))) /\
    dc_rank d0 = q /\ dc_dist d0 = dist' /\ dc_edist d0 = edist' /\ dc_nodes d0 = c_nodes G (lo R dist q) (num R dist q) /\ length (dc_edges d0) = off G (lo R dist q) (num R dist q) /\ dc_ew d0 = c_ew G (we P d) (lo R dist q) (num R dist q) /\
    (wn P d = true -> length (dc_nw d0) = dn d0 + dghost_n d0) /\ (wn P d = false -> dc_nw d0 = [])).
  { intros q Hq. destruct (X q Hq) as [Hr E]. pose proof (outcome_ok P R Q HRp HPQ G dist edist d HX HY wg wl (q * R + c) (d' (q * R + c)) HC Hr (HO _ Hr)) as O. cbv zeta in O. rewrite E in O. exact O. }
  pose proof (x_edist P G dist edist d HX) as XE.
  split.
  - split; [exact (nd_distribution P R Q HRp HPQ G dist edist d HX)|]. split; [unfold new_distribution; rewrite map_length, seq_length; reflexivity|].
    assert (NE : forall q, q <= Q -> nth q edist' 0 = off G 0 (lo R dist q)) by (intros q Hq; apply (ne_nth P R Q HRp HPQ G dist edist d HX HY q Hq)).
    split; [rewrite NE by lia; unfold lo; rewrite Nat.mul_0_r; rewrite (from0 P G dist HD); reflexivity|].
    intros q Hq. destruct (K q Hq) as (K1 & K2 & K3 & K4 & K5 & K6 & K7 & K8 & _). split; [exact K1|]. split; [exact K2|]. split; [exact K3|]. split; [exact K4|]. split; [exact K5|].
    assert (Ln : length (dc_nodes (d' (q * R + c))) = num R dist q + 1) by (rewrite K6; unfold c_nodes; rewrite map_length, seq_length; reflexivity).
    assert (Dn : dn (d' (q * R + c)) = num R dist q) by (unfold dn; lia).
    split.
    + rewrite !NE by lia. rewrite K7. assert (M : R * q + R <= P) by (subst P; replace (R * q + R) with (R * S q) by lia; apply Nat.mul_le_mono_l; lia).
      pose proof (from_mono P G dist HD (R * q) (R * q + R) ltac:(lia) M). replace (lo R dist (S q)) with (lo R dist q + num R dist q) by (unfold lo, num; replace (R * S q) with (R * q + R) by lia; lia). rewrite off_add. reflexivity.
    + rewrite K6. unfold dn. rewrite K6. rewrite K6 in Ln. rewrite Ln. split; [lia|]. split; [rewrite c_nth by lia; reflexivity|]. replace (num R dist q + 1 - 1) with (num R dist q) by lia.
      split; [intros i Hi; rewrite !c_nth by lia; apply off_mono; lia|]. split; [rewrite c_nth by lia; symmetry; exact K7|]. rewrite K8, K7. destruct (we P d); [right|left; reflexivity]. cbn [c_ew]. apply off_map.
  - split.
    + intros (q0 & Hq0 & N0). assert (W : wn P d = true) by (destruct (wn P d) eqn:E; [reflexivity|]; exfalso; apply N0; destruct (K q0 Hq0) as (_ & _ & _ & _ & _ & _ & _ & _ & _ & K9); apply K9; exact E || reflexivity).
      intros q Hq. destruct (K q Hq) as (_ & _ & _ & _ & _ & _ & _ & _ & K8 & _). specialize (K8 W). destruct (dc_nw (d' (q * R + c))); [right; cbn in K8; lia|left; discriminate].
    + intros (q0 & Hq0 & N0). assert (W : we P d = true) by (destruct (we P d) eqn:E; [reflexivity|]; exfalso; apply N0; destruct (K q0 Hq0) as (_ & _ & _ & _ & _ & _ & _ & K8 & _); rewrite K8; try rewrite E; reflexivity).
      intros q Hq. destruct (K q Hq) as (_ & _ & _ & _ & _ & _ & K7 & K8 & _). rewrite W in K8. cbn [c_ew] in K8. destruct (dc_ew (d' (q * R + c))) as [|x t] eqn:E; [right|left; discriminate].
      apply length_zero_iff_nil. rewrite K7, <- (off_map G snd), <- K8. reflexivity.
Qed.

(** Every run of the loop ends, with a result. *)
Theorem groups_complete wg wl r : closed_graph G -> r < P -> exists data, all_data P R ds wg wl r = Some data /\
  let adj := snd (fst data) in let a := nth (r / R) dist' 0 in let b := nth (S (r / R)) dist' 0 in
  forall junk sched s, length junk = length adj -> import_run a b adj sched (import_start a b adj junk) = Some s ->
    length sched <= 3 * length adj /\
    ((exists e s', import_step a b adj e s = Some s') \/
     forall order, Permutation order (entries (im_map s)) -> exists d', replicate_outcome P R ds wg wl r d' /\ dc_edges d' = im_edges s).
Proof.
  intros HC Hr. eexists. split; [apply (all_data_ok P R Q HRp HPQ G dist edist d HX HY wg wl r Hr)|]. cbn [fst snd]. pose proof (div_lt P R Q HRp HPQ r Hr) as Hq. intros junk sched s J Run.
  destruct (import_terminates _ _ _ junk sched s J Run) as [L [F|S]]; (split; [exact L|]); [right|left; exact S]. intros order Ord. set (q := r / R) in *.
  destruct (fit_exists P R Q HRp HPQ G) as (bits & Fit).
  destruct (import_view Q G dist' q (c_nodes G (lo R dist q) (num R dist q)) (c_edges G (lo R dist q) (num R dist q)) (c_nw G (wn P d) (lo R dist q) (num R dist q)) (c_ew G (we P d) (lo R dist q) (num R dist q)) bits
    (nd_distribution P R Q HRp HPQ G dist edist d HX) Hq (new_arrays P R Q HRp HPQ G dist edist d HX HY q Hq) Fit HC junk sched s J Run F order Ord (fun _ => 0%Z) edist') as (di & Ei & _).
  assert (Fz : exists gh, finalize (nth (S q) dist' 0 - nth q dist' 0) dist' (im_next s) order = Some gh).
  { unfold import_graph in Ei. replace (q + 1) with (S q) in Ei by lia. assert (Ld' : length dist' = Q + 1) by (unfold new_distribution; rewrite map_length, seq_length; reflexivity). rewrite !(nth_error_nth' dist' 0) in Ei by lia. cbn [bind] in Ei.
    repeat match type of Ei with bind ?t _ = _ => let E := fresh "E" in destruct t eqn:E; [cbn [bind] in Ei|discriminate Ei] end. eexists. reflexivity. }
  destruct Fz as (gh & Fz). eexists. split.
  - exists (d r), (map d (seq (R * q) R)). eexists. exists (lo R dist q), junk, sched, s, order, gh. eexists.
    split; [rewrite nth_error_map_seq by exact Hr; reflexivity|]. split; [rewrite (primary_is P R Q HRp HPQ r Hr); apply (members P R Q HRp HPQ d q Hq)|].
    split; [apply (all_data_ok P R Q HRp HPQ G dist edist d HX HY wg wl r Hr)|]. split; [apply (new_from_ok P R Q HRp HPQ G dist edist d HX r Hr)|]. cbn [fst snd]. fold q.
    destruct (x_names P G dist edist d HX r Hr) as [-> ->]. rewrite (new_size_is P R Q HRp HPQ r Hr), (new_rank_is P R Q HRp HPQ r Hr). fold q.
    split; [exact J|]. split.
    + rewrite map_length, seq_length. rewrite <- Run. f_equal.
      * symmetry. apply (nd_lo P R Q HRp HPQ G dist edist d HX). lia.
      * rewrite (num_is P R Q HRp HPQ G dist edist d HX) by exact Hq. rewrite <- (nd_lo P R Q HRp HPQ G dist edist d HX q) by lia.
        pose proof (nd_distribution P R Q HRp HPQ G dist edist d HX) as (_ & _ & _ & Mono). specialize (Mono q Hq). lia.
    + split; [exact F|]. split; [exact Ord|]. split; [exact Fz|]. split; [|reflexivity]. apply (new_weights_ok P R Q HRp HPQ G dist edist d HX HY r _ Hr).
  - reflexivity.
Qed.
End Copies.

(** The best partition. *)
Theorem scatter_correct (cut : nat -> Z) (blocks : nat -> nat -> nat) (cuts : nat -> Z) (parts : nat -> list nat) :
  (forall r, r < P -> cuts r = cut (r mod R)) ->
  (forall r, r < P -> nth (S (r / R)) dist' 0 - nth (r / R) dist' 0 <= length (parts r) /\
     forall u, u < nth (S (r / R)) dist' 0 - nth (r / R) dist' 0 -> nth_error (parts r) u = Some (blocks (r mod R) (nth (r / R) dist' 0 + u))) ->
  exists c, c < R /\ (forall c', c' < R -> (cut c <= cut c')%Z) /\
    forall r, r < P -> scatter_best P R cuts parts dist r = Some (map (blocks c) (seq (from r) (cnt r))).
Proof.
  intros HC HB. destruct (minloc_ok (map cut (seq 0 R))) with (i := 0) as (m & b & E & N & M & _); [destruct R; [lia|discriminate]|].
  assert (Hb : b < R) by (assert (X : nth_error (map cut (seq 0 R)) b <> None) by (rewrite N; discriminate); apply nth_error_Some in X; rewrite map_length, seq_length in X; exact X).
  rewrite nth_error_map_seq in N by exact Hb. injection N as N. cbn [Nat.add] in N, E. exists b. split; [exact Hb|]. split; [intros c' Hc'; rewrite N; apply M; apply in_map, in_seq; lia|].
  intros r Hr. pose proof (div_lt P R Q HRp HPQ r Hr) as Hq. destruct (split_rank P R Q HRp HPQ r) as [Er Mr]. unfold scatter_best. rewrite (primary_is P R Q HRp HPQ r Hr). set (q := r / R) in *.
  assert (Mq : R * q + R <= P) by (subst P; replace (R * q + R) with (R * S q) by lia; apply Nat.mul_le_mono_l; lia).
  assert (Rk : forall i, i < R -> R * q + i < P /\ (R * q + i) mod R = i /\ (R * q + i) / R = q).
  { intros i Hi. split; [lia|]. rewrite (Nat.mul_comm R q). split; [apply (mod_of P R Q HRp HPQ); assumption|apply (div_of P R Q HRp HPQ); assumption]. }
  replace (map cuts (seq (R * q) R)) with (map cut (seq 0 R)).
  2: { rewrite <- (map_shift cuts (R * q) R). apply map_ext_in. intros i Hi. apply in_seq in Hi. destruct (Rk i ltac:(lia)) as (H1 & H2 & _). rewrite HC, H2 by exact H1. reflexivity. }
  rewrite E. cbn [bind snd]. rewrite (nth_error_nth' _ 0) by (rewrite seq_length; exact Hb). rewrite seq_nth by exact Hb. cbn [bind].
  pose proof (index_primary P R Q HRp HPQ r Hr) as Ix. rewrite (primary_is P R Q HRp HPQ r Hr) in Ix. fold q in Ix. rewrite Ix. cbn [bind].
  destruct (Rk b Hb) as (B1 & B2 & B3). rewrite (new_size_is P R Q HRp HPQ) by exact B1. rewrite (new_rank_is P R Q HRp HPQ) by exact B1. rewrite B3.
  replace (P / Q) with R by (subst P; rewrite Nat.div_mul by lia; reflexivity). rewrite (Nat.mul_comm q R).
  pose proof (ld P G dist edist d HX) as Ld.
  rewrite (traverse_ok _ (fun pe => cnt pe)).
  2: { intros pe Hpe. apply in_seq in Hpe. replace (pe + 1) with (S pe) by lia. rewrite !(nth_error_nth' dist 0) by lia. reflexivity. }
  cbn [bind]. rewrite nth_error_map_from by exact Mr. rewrite <- Er. cbn [bind].
  rewrite displs_nth by (rewrite map_length, seq_length; lia). rewrite (firstn_map_seq P R Q HRp HPQ) by lia. cbn [bind]. replace (r + 1) with (S r) by lia. rewrite !(nth_error_nth' dist 0) by lia. cbn [bind]. rewrite Nat.eqb_refl.
  assert (T : forall len, R * q + len <= P -> list_sum (map (fun pe => cnt pe) (seq (R * q) len)) = from (R * q + len) - from (R * q)).
  { induction len as [|len IH]; intros Hl; [rewrite Nat.add_0_r, Nat.sub_diag; reflexivity|]. rewrite seq_S, map_app, list_sum_app, IH by lia. cbn [map list_sum fold_right]. rewrite Nat.add_0_r.
    pose proof (from_mono P G dist HD (R * q) (R * q + len) ltac:(lia) ltac:(lia)). pose proof (from_mono P G dist HD (R * q + len) (S (R * q + len)) ltac:(lia) ltac:(lia)). replace (R * q + S len) with (S (R * q + len)) by lia. lia. }
  rewrite T by lia. rewrite <- Er.
  destruct (HB (R * q + b) B1) as [Lp Bp]. rewrite B3, B2 in *. fold q in Lp, Bp.
  pose proof (nd_lo P R Q HRp HPQ G dist edist d HX q ltac:(lia)) as NL. pose proof (nd_hi P R Q HRp HPQ G dist edist d HX q Hq) as NH. rewrite NL, NH in *. unfold lo in *.
  pose proof (from_mono P G dist HD (R * q) r ltac:(lia) ltac:(lia)) as F1. pose proof (from_mono P G dist HD (S r) (R * q + R) ltac:(lia) ltac:(lia)) as F2. pose proof (from_mono P G dist HD r (S r) ltac:(lia) ltac:(lia)) as F3.
  unfold slice. rewrite (proj2 (Nat.leb_le _ _)) by lia. f_equal.
  rewrite (firstn_of_nth _ _ (fun u => blocks b (from r + u))).
  - apply map_shift.
  - intros u Hu. rewrite nth_error_skipn, Bp by lia. f_equal. f_equal. lia.
Qed.
End Even.

(** Distribution of the best partition of the groups, with the ghosts. *)
Theorem scatter_everywhere (P R Q : nat) (G : graph) (dist edist : list nat) (d : nat -> dcsr) (blocks : nat -> nat -> nat) (parts : nat -> list nat) :
  0 < R -> P = R * Q -> distributed P G dist edist d -> closed_graph G -> symmetric_adjacency G ->
  let dist' := new_distribution P R Q dist in
  (forall r, r < P -> nth (S (r / R)) dist' 0 - nth (r / R) dist' 0 <= length (parts r) /\
     forall u, u < nth (S (r / R)) dist' 0 - nth (r / R) dist' 0 -> nth_error (parts r) u = Some (blocks (r mod R) (nth (r / R) dist' 0 + u))) ->
  exists c, c < R /\ (forall c', c' < R -> (cut_weight G (blocks c) <= cut_weight G (blocks c'))%Z) /\
    exists own, (forall r, r < P -> scatter_best P R (fun r => cut_weight G (blocks (r mod R))) parts dist r = Some (own r) /\ length (own r) = dn (d r)) /\
    forall fresh threads bufs, (forall r, r < P -> length (fresh r) = dghost_n (d r)) -> (forall r, r < P -> 0 < threads r) ->
      (forall r, r < P -> buffers_outcome P (d r) (fun u => u) (fun _ _ => true) (value_message (own r ++ fresh r) 0) (threads r) 0 (dn (d r)) (bufs r)) ->
      forall r msgs, r < P -> Permutation msgs (inbox P bufs r) ->
      exists arr, receive_values (d r) (own r ++ fresh r) msgs = Some arr /\ length arr = dn (d r) + dghost_n (d r) /\
        forall l g, dlocal_to_global (d r) l = Some g -> nth_error arr l = Some (blocks c g).
Proof.
  intros HR0 HP HX HC HS dist' HB. destruct (scatter_correct P R Q HR0 HP G dist edist d HX (fun c => cut_weight G (blocks c)) blocks (fun r => cut_weight G (blocks (r mod R))) parts (fun r _ => eq_refl) HB) as (c & Hc & Hm & Hs).
  exists c. split; [exact Hc|]. split; [exact Hm|]. exists (fun r => map (blocks c) (seq (nth r dist 0) (nth (S r) dist 0 - nth r dist 0))).
  assert (Dn : forall r, r < P -> dn (d r) = nth (S r) dist 0 - nth r dist 0) by (intros r Hr; apply (n_of P G dist d (x_lv P G dist edist d HX) r Hr)).
  assert (Lo : forall r, r < P -> length (map (blocks c) (seq (nth r dist 0) (nth (S r) dist 0 - nth r dist 0))) = dn (d r)) by (intros r Hr; rewrite map_length, seq_length, Dn by exact Hr; reflexivity).
  split; [intros r Hr; split; [apply Hs; exact Hr|apply Lo; exact Hr]|].
  intros fresh threads bufs Lf Ht Hb r msgs Hr Hp.
  destruct (sync_ok P G dist (x_dist P G dist edist d HX) (blocks c) d (fun r => map (blocks c) (seq (nth r dist 0) (nth (S r) dist 0 - nth r dist 0)) ++ fresh r) 0 threads bufs HC HS) with (q := r) (msgs := msgs) as (arr & Ea & La & Na).
  - intros q Hq. destruct HX as (_ & _ & _ & H). destruct (H q Hq) as (V & _ & A & B & _). constructor; assumption.
  - exact Ht.
  - intros q Hq. right. rewrite app_length, Lo, Lf by exact Hq. lia.
  - intros q u Hq Hu. rewrite app_nth1 by (rewrite Lo by exact Hq; exact Hu). rewrite nth_map_seq by (rewrite <- Dn by exact Hq; exact Hu). reflexivity.
  - exact Hb.
  - exact Hr.
  - exact Hp.
  - exists arr. split; [exact Ea|]. rewrite app_length, Lo, Lf in La by exact Hr. split; [exact La|exact Na].
Qed.
