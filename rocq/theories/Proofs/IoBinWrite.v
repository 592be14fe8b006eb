(* Writing ParHIP files. *)
From Verif Require Import Lib.Prelude Lib.Slice Spec.Graph Spec.TextFormat Spec.BinFormat Spec.BinBuild Model.VarintModel Model.CompressModel
  Model.CompressedGraphModel Model.CsrModel Model.IoTextModel Model.IoBinModel Proofs.CsrProofs Proofs.SubgraphBase Proofs.CompressGraphProofs
  Proofs.IoTextMetis Proofs.IoTextTop Proofs.IoTextRound Proofs.IoBinBase.
Local Open Scope Z_scope.

Lemma csr_before xadj adjncy vw ew u : wf_csr xadj adjncy vw ew -> (u <= length xadj - 1)%nat ->
  arcs_before (user_graph xadj adjncy vw ew) u = Z.of_nat (nth u xadj 0%nat).
Proof.
  intros Hwf. unfold arcs_before. induction u as [|u IH]; intros Hu.
  - destruct Hwf as (_ & -> & _). reflexivity.
  - rewrite sumn_S, IH by lia. cbn [user_graph gadj]. rewrite map_length, seq_length. destruct Hwf as (_ & _ & W & _). specialize (W u ltac:(lia)). lia.
Qed.

Section Write.
Variable c : ioconf.
Variables (xadj adjncy : list nat) (vw ew : list Z).
Let g := user_graph xadj adjncy vw ew.
Variable dsorted : bool.
Let G := cg_make (sa_make xadj) adjncy (sa_make vw) ew dsorted.
Hypothesis Hwn : io_wn c = 32 \/ io_wn c = 64.
Hypothesis Hwi : io_wi c = 32 \/ io_wi c = 64.
Hypothesis Hww : io_ww c = 32 \/ io_ww c = 64.
Hypothesis Hwf : wf_csr xadj adjncy vw ew.
Hypothesis Hv : forall x, In x vw -> 1 <= x < 2 ^ (io_ww c - 1).
Hypothesis He : forall x, In x ew -> 1 <= x < 2 ^ (io_ww c - 1).
Hypothesis Hn : Z.of_nat (gn g) + 1 < 2 ^ io_wn c.
Hypothesis Hm : num_arcs g < 2 ^ io_wi c.
Let bn := nbytes (io_wn c).
Let bi := nbytes (io_wi c).
Let bw := nbytes (io_ww c).
Let nw := cg_is_node_weighted G.
Let eww := cg_is_edge_weighted G.
Let n := gn g.

Lemma w_bytes w : w = 32 \/ w = 64 -> 256 ^ Z.of_nat (nbytes w) = 2 ^ w /\ Z.of_nat (nbytes w) = w / 8 /\ (Nat.eqb (nbytes w) 8 = (w =? 64)) /\ w8 (nbytes w).
Proof. intros [-> | ->]; repeat split; try reflexivity; [left|right]; reflexivity. Qed.
Lemma w_same : same_graph (cg_graph G) g.
Proof. apply cg_make_faithful; auto; try (split; reflexivity); intros x Hx; [apply Hv in Hx|apply He in Hx]; lia. Qed.
Lemma w_m : num_arcs g = Z.of_nat (length adjncy).
Proof. apply csr_arcs. exact Hwf. Qed.
Lemma w_vw : nw = true -> length vw = n /\ forall u, (u < n)%nat -> gvw g u = nth u vw 0.
Proof.
  intros E. pose proof Hwf as (_ & _ & _ & _ & _ & [W|W] & _).
  - exfalso. revert E. unfold nw, G. rewrite W. unfold cg_is_node_weighted, cg_make. cbn. rewrite Z.eqb_refl. discriminate.
  - split; [rewrite W; reflexivity|]. intros u Hu. unfold g. cbn. destruct vw; [|reflexivity]. unfold n, g in Hu. cbn in Hu, W. lia.
Qed.
Lemma w_ew : eww = true -> length ew = length adjncy /\ (ew = [] -> adjncy = []).
Proof.
  intros E. pose proof Hwf as (_ & _ & _ & _ & _ & _ & [W|W]).
  - exfalso. revert E. unfold eww, G. rewrite W. unfold cg_is_edge_weighted, cg_make, cg_m. cbn. rewrite Z.eqb_refl. discriminate.
  - split; [exact W|]. intros ->. destruct adjncy; [reflexivity|discriminate].
Qed.
Lemma w_adj u i : (u < n)%nat -> (i < length (gadj g u))%nat ->
  nth i (gadj g u) (0%nat, 0) = (nth (nth u xadj 0%nat + i) adjncy 0%nat, match ew with [] => 1 | _ => nth (nth u xadj 0%nat + i) ew 0 end) /\
  (nth u xadj 0 + i < length adjncy)%nat.
Proof.
  intros Hu Hi. pose proof (wf_csr_range _ _ _ _ u Hwf Hu) as R. unfold g in *. cbn [user_graph gadj] in *. rewrite map_length, seq_length in Hi. split; [|lia].
  match goal with |- nth i (map ?f _) _ = _ => rewrite (nth_indep _ (0%nat, 0) (f 0%nat)) by (rewrite map_length, seq_length; lia); rewrite (map_nth f), seq_nth by lia end.
  reflexivity.
Qed.
Lemma w_weights : weights_ok g nw eww.
Proof.
  pose proof w_same as [Sn S]. split.
  - intros u Hu. split.
    + unfold g in *. cbn in *. destruct vw eqn:Ev; [lia|]. rewrite <- Ev in *. pose proof Hwf as (_ & _ & _ & _ & _ & [W|W] & _); [congruence|].
      pose proof (Hv (nth u vw 0)) as Q. apply Q. apply nth_In. lia.
    + intros E. destruct (S u ltac:(congruence)) as [_ <-]. cbn. unfold cg_node_weight. fold nw. now rewrite E.
  - intros u v w Hu Hi. split.
    + unfold g in *. cbn in Hi. apply in_map_iff in Hi. destruct Hi as (e & E & Hi). inversion E; subst. destruct ew as [|x t] eqn:Ee; [lia|].
      rewrite <- Ee in *. pose proof (wf_csr_range _ _ _ _ u Hwf Hu). apply in_seq in Hi. pose proof Hwf as (_ & _ & _ & _ & _ & _ & [W|W]); [congruence|].
      pose proof (He (nth e ew 0)) as Q. apply Q. apply nth_In. lia.
    + intros E. destruct (S u ltac:(congruence)) as [Sa _]. rewrite <- Sa in Hi. cbn in Hi. unfold cg_adjacent_nodes in Hi. apply in_map_iff in Hi.
      destruct Hi as (e & E2 & _). inversion E2. unfold cg_edge_weight. fold eww. now rewrite E.
Qed.

Definition w_nv (u : nat) : Z := wrap_u (io_wi c) (24 + Z.of_nat bi * (Z.of_nat n + 1) + Z.of_nat bn * arcs_before g u).
Lemma w_before u : (u <= n)%nat -> arcs_before g u = Z.of_nat (nth u xadj 0%nat).
Proof. intros Hu. apply csr_before; auto. Qed.

Lemma w_X1 : length xadj = S n.
Proof. unfold n, g. cbn. destruct Hwf. lia. Qed.
Lemma w_NL : Z.of_nat n + 1 < 2 ^ io_wn c. Proof. exact Hn. Qed.
Lemma w_Pn : 256 ^ Z.of_nat bn = 2 ^ io_wn c /\ Z.of_nat bn = io_wn c / 8 /\ (Nat.eqb bn 8 = (io_wn c =? 64)). Proof. destruct (w_bytes _ Hwn) as (? & ? & ? & _). auto. Qed.
Lemma w_Pi : 256 ^ Z.of_nat bi = 2 ^ io_wi c /\ Z.of_nat bi = io_wi c / 8 /\ (Nat.eqb bi 8 = (io_wi c =? 64)). Proof. destruct (w_bytes _ Hwi) as (? & ? & ? & _). auto. Qed.
Lemma w_Pw : 256 ^ Z.of_nat bw = 2 ^ io_ww c /\ Z.of_nat bw = io_ww c / 8 /\ (Nat.eqb bw 8 = (io_ww c =? 64)). Proof. destruct (w_bytes _ Hww) as (? & ? & ? & _). auto. Qed.
Lemma write_layout : layout bn bi bw bw nw eww g w_nv (parhip_write c G).
Proof.
  assert (Gn : cg_n G = n) by reflexivity. assert (Gm : Z.of_nat (cg_m G) = num_arcs g) by (rewrite w_m; reflexivity).
  assert (P64 : forall w, w = 32 \/ w = 64 -> 2 ^ w <= 2 ^ 64) by (intros w [-> | ->]; vm_compute; discriminate).
  pose proof w_X1 as X1. pose proof w_NL as NLt.
  pose proof (P64 _ Hwn) as Ln. pose proof (P64 _ Hwi) as Li.
  unfold parhip_write. fold nw eww. rewrite Gn, Gm. rewrite (wrap_u_small (io_wn c)) by (unfold n; lia).
  replace (Z.to_nat (Z.of_nat n + 1)) with (S n) by lia. rewrite <- (proj1 (proj2 w_Pn)), <- (proj1 (proj2 w_Pi)). unfold ph_kSize. fold bn bi bw.
  set (NL := map _ (seq 0 (S n))).
  assert (HNL : NL = map w_nv (seq 0 (S n))).
  { unfold NL. apply map_ext_in. intros u Hu. apply in_seq in Hu. unfold w_nv. rewrite w_before by lia. unfold wrap_u. rewrite Zplus_mod_idemp_l. f_equal.
    change (sa_get 0%nat (cg_nodes G) u) with (nth u xadj 0%nat). lia. }
  rewrite HNL. clear NL HNL. change (cg_edges G) with adjncy. change (cg_node_weights G) with (sa_make vw). change (cg_edge_weights G) with ew.
  rewrite (full_list (sa_make vw) vw) by (split; reflexivity).
  set (H1 := wr_int 8 (ph_version _ _ _ _ _ _)). set (NA := wr_array bi _). set (EA := wr_array bn _). set (VA := if nw then _ else []). set (WA := if eww then _ else []).
  assert (L1 : length H1 = 8%nat) by apply store_le_length.
  assert (L2 : length (wr_int 8 (Z.of_nat n)) = 8%nat) by apply store_le_length.
  assert (L3 : length (wr_int 8 (num_arcs g)) = 8%nat) by apply store_le_length.
  assert (LN : length NA = (bi * S n)%nat) by (unfold NA; rewrite wr_array_length, map_length, seq_length; reflexivity).
  assert (LE : Z.of_nat (length EA) = Z.of_nat bn * num_arcs g) by (unfold EA; rewrite wr_array_length, map_length, w_m; lia).
  assert (Hs : H1 ++ wr_int 8 (Z.of_nat n) ++ wr_int 8 (num_arcs g) ++ NA ++ EA ++ VA ++ WA =
               (H1 ++ wr_int 8 (Z.of_nat n) ++ wr_int 8 (num_arcs g)) ++ NA ++ EA ++ VA ++ WA) by (now rewrite <- !app_assoc).
  set (H := H1 ++ wr_int 8 (Z.of_nat n) ++ wr_int 8 (num_arcs g)) in *.
  assert (LH : length H = 24%nat) by (unfold H; rewrite !app_length, L1, L2, L3; reflexivity).
  assert (N0 : 0 <= num_arcs g) by (rewrite w_m; lia).
  split; [|split; [|split; [|split; [|split; [|split]]]]].
  - apply field_app_l. unfold H1. replace (ph_version _ _ _ _ _ _) with
      ((if eww then 0 else 1) + 2 * (if nw then 0 else 1) + 4 * (if Nat.eqb bi 8 then 0 else 1) + 8 * (if Nat.eqb bn 8 then 0 else 1) +
       16 * (if Nat.eqb bw 8 then 0 else 1) + 32 * (if Nat.eqb bw 8 then 0 else 1)).
    + apply field_int. destruct eww, nw, (Nat.eqb bi 8), (Nat.eqb bn 8), (Nat.eqb bw 8); vm_compute; split; congruence.
    + rewrite <- (proj2 (proj2 w_Pn)), <- (proj2 (proj2 w_Pi)), <- (proj2 (proj2 w_Pw)). destruct eww, nw, (Nat.eqb bi 8), (Nat.eqb bn 8), (Nat.eqb bw 8); reflexivity.
  - eapply field_app_r with (pos := 0); [apply field_app_l, field_int|lia|rewrite L1; lia]. change (256 ^ Z.of_nat 8) with (2 ^ 64). fold n in Hn. lia.
  - eapply field_app_r with (pos := 8); [|lia|rewrite L1; lia]. eapply field_app_r with (pos := 0); [apply field_app_l, field_int|lia|rewrite L2; lia].
    change (256 ^ Z.of_nat 8) with (2 ^ 64). lia.
  - intros u Hu. fold n in Hu. rewrite Hs. eapply field_app_r with (pos := Z.of_nat bi * Z.of_nat u); [|lia|lia]. apply field_app_l.
    assert (Q : nth u (map w_nv (seq 0 (S n))) 0 = w_nv u) by (apply nth_map_seq; lia). rewrite <- Q. apply field_array; [rewrite map_length, seq_length; lia|].
    rewrite Q, (proj1 w_Pi). apply Z.mod_pos_bound. destruct Hwi as [-> | ->]; reflexivity.
  - intros u i Hu Hi. fold n in Hu. rewrite w_before by lia. destruct (w_adj u i Hu Hi) as [Ea Hlt]. rewrite Ea. cbn [fst].
    rewrite Hs. set (e := (nth u xadj 0 + i)%nat) in *.
    eapply field_app_r with (pos := Z.of_nat bi * (Z.of_nat n + 1) + Z.of_nat bn * Z.of_nat e); [|lia|rewrite LH; unfold e; lia].
    eapply field_app_r with (pos := Z.of_nat bn * Z.of_nat e); [|lia|rewrite LN; lia]. apply field_app_l.
    assert (Q : nth e (map Z.of_nat adjncy) 0 = Z.of_nat (nth e adjncy 0%nat)) by exact (map_nth Z.of_nat adjncy 0%nat e). rewrite <- Q.
    apply field_array; [rewrite map_length; lia|]. rewrite Q, (proj1 w_Pn). pose proof Hwf as (_ & _ & _ & _ & W & _). specialize (W _ (nth_In adjncy 0%nat Hlt)).
    fold n in Hn. lia.
  - intros E u Hu. fold n in Hu. destruct (w_vw E) as [Lv Gv]. rewrite Gv by exact Hu. rewrite Hs.
    eapply field_app_r with (pos := Z.of_nat bi * (Z.of_nat n + 1) + Z.of_nat bn * num_arcs g + Z.of_nat bw * Z.of_nat u); [|lia|rewrite LH; fold n; lia].
    eapply field_app_r with (pos := Z.of_nat bn * num_arcs g + Z.of_nat bw * Z.of_nat u); [|lia|rewrite LN; lia].
    eapply field_app_r with (pos := Z.of_nat bw * Z.of_nat u); [|lia|lia]. apply field_app_l. unfold VA. rewrite E.
    apply field_array; [lia|]. rewrite (proj1 w_Pw). pose proof (Hv (nth u vw 0) ltac:(apply nth_In; lia)) as B.
    assert (2 ^ (io_ww c - 1) <= 2 ^ io_ww c) by (apply Z.pow_le_mono_r; lia). lia.
  - intros E u i Hu Hi. fold n in Hu. rewrite w_before by lia. destruct (w_adj u i Hu Hi) as [Ea Hlt]. rewrite Ea. cbn [snd]. destruct (w_ew E) as [Le Ne].
    rewrite Hs. set (e := (nth u xadj 0 + i)%nat) in *.
    assert (Em : match ew with [] => 1 | _ :: _ => nth e ew 0 end = nth e ew 0). { case_eq ew; [|reflexivity]. intros Ez. exfalso. rewrite (Ne Ez) in Hlt. cbn in Hlt. lia. }
    rewrite Em. assert (LV : Z.of_nat (length VA) = if nw then Z.of_nat bw * Z.of_nat n else 0).
    { unfold VA. case_eq nw; intros Enw; [|reflexivity]. rewrite wr_array_length. rewrite (proj1 (w_vw Enw)). lia. }
    set (vl := if nw then Z.of_nat bw * Z.of_nat n else 0) in *. fold n. assert (V0 : 0 <= vl) by lia. fold vl.
    eapply field_app_r with (pos := Z.of_nat bi * (Z.of_nat n + 1) + Z.of_nat bn * num_arcs g + vl + Z.of_nat bw * Z.of_nat e); [|lia|rewrite LH; unfold e; lia].
    eapply field_app_r with (pos := Z.of_nat bn * num_arcs g + vl + Z.of_nat bw * Z.of_nat e); [|lia|rewrite LN; lia].
    eapply field_app_r with (pos := vl + Z.of_nat bw * Z.of_nat e); [|lia|lia].
    eapply field_app_r with (pos := Z.of_nat bw * Z.of_nat e); [|lia|lia]. unfold WA. rewrite E.
    apply field_array; [lia|]. rewrite (proj1 w_Pw). pose proof (He (nth e ew 0) ltac:(apply nth_In; lia)) as B.
    assert (2 ^ (io_ww c - 1) <= 2 ^ io_ww c) by (apply Z.pow_le_mono_r; lia). lia.
Qed.
Lemma write_file : 24 + Z.of_nat bi * (Z.of_nat n + 1) + Z.of_nat bn * num_arcs g < 2 ^ io_wi c ->
  parhip_file bn bi bw bw nw eww g (parhip_write c G).
Proof.
  intros Hs. pose proof write_layout as (F0 & F1 & F2 & F3 & F4 & F5 & F6). split; [exact F0|]. split; [exact F1|]. split; [exact F2|].
  split; [|split; [exact F4|split; [exact F5|exact F6]]]. intros u Hu. fold n in Hu. specialize (F3 u Hu). unfold w_nv in F3. fold n.
  rewrite wrap_u_small in F3; [exact F3|]. rewrite w_before by exact Hu.
  assert (Hle : (nth u xadj 0 <= length adjncy)%nat).
  { destruct (Nat.eq_dec u n) as [->|Hne].
    - pose proof Hwf as (W0 & _ & _ & W & _). rewrite last_nth in W. unfold n, g. cbn. lia.
    - pose proof (wf_csr_range _ _ _ _ u Hwf ltac:(unfold n, g in *; cbn in *; lia)). lia. }
  rewrite w_m in Hs. assert (Z.of_nat bn * Z.of_nat (nth u xadj 0%nat) <= Z.of_nat bn * Z.of_nat (length adjncy)) by (apply Z.mul_le_mono_nonneg_l; lia). lia.
Qed.
Lemma write_length : Z.of_nat (length (parhip_write c G)) = 24 + Z.of_nat bi * (Z.of_nat n + 1) + Z.of_nat bn * num_arcs g +
  (if nw then Z.of_nat bw * Z.of_nat n else 0) + (if eww then Z.of_nat bw * num_arcs g else 0).
Proof.
  assert (Gn : cg_n G = n) by reflexivity. rewrite w_m.
  unfold parhip_write. fold nw eww. rewrite Gn. rewrite (wrap_u_small (io_wn c)) by (unfold n; lia). fold bn bi bw.
  change (cg_edges G) with adjncy. change (cg_node_weights G) with (sa_make vw). change (cg_edge_weights G) with ew.
  rewrite (full_list (sa_make vw) vw) by (split; reflexivity).
  rewrite !app_length, !wr_array_length, !map_length, seq_length. unfold wr_int. rewrite !store_le_length.
  assert (A : length (if nw then wr_array bw vw else []) = (if nw then bw * n else 0)%nat) by (case_eq nw; intros E; [rewrite wr_array_length, (proj1 (w_vw E))|]; reflexivity).
  assert (B : length (if eww then wr_array bw ew else []) = (if eww then bw * length adjncy else 0)%nat) by (case_eq eww; intros E; [rewrite wr_array_length, (proj1 (w_ew E))|]; reflexivity).
  rewrite A, B. destruct nw, eww; lia.
Qed.
End Write.
