(* Round trips of binary graph files. *)
From Verif Require Import Lib.Prelude Lib.Slice Spec.Graph Spec.TextFormat Spec.BinFormat Spec.BinBuild Model.VarintModel Model.CompressModel
  Model.CompressedGraphModel Model.CompactArrayModel Model.CsrModel Model.IoTextModel Model.IoBinModel Proofs.CsrProofs Proofs.SubgraphBase Proofs.CompressGraphProofs
  Proofs.IoTextMetis Proofs.IoTextTop Proofs.IoTextRound Proofs.IoBinBase Proofs.IoBinWrite.
Local Open Scope Z_scope.

Lemma w_cases a b : a = 32 \/ a = 64 -> b = 32 \/ b = 64 -> a <= b -> nbytes a = 8%nat -> b = 64.
Proof. intros [-> | ->] [-> | ->]; cbn; auto; try lia. discriminate. Qed.

Lemma parhip_round_trip c1 c2 xadj adjncy vw ew ds sorted :
  widths c1 -> widths c2 -> io_wn c1 <= io_wn c2 -> io_wi c1 <= io_wi c2 -> io_ww c1 <= io_ww c2 ->
  wf_csr xadj adjncy vw ew -> (forall x, In x vw -> 1 <= x < 2 ^ (io_ww c1 - 1)) -> (forall x, In x ew -> 1 <= x < 2 ^ (io_ww c1 - 1)) ->
  let g := user_graph xadj adjncy vw ew in
  Z.of_nat (gn g) + 1 < 2 ^ io_wn c1 ->
  24 + Z.of_nat (nbytes (io_wi c1)) * (Z.of_nat (gn g) + 1) + Z.of_nat (nbytes (io_wn c1)) * num_arcs g < 2 ^ io_wi c1 ->
  let file := parhip_write c1 (cg_make (sa_make xadj) adjncy (sa_make vw) ew ds) in
  Z.of_nat (length file) < 2 ^ 64 ->
  exists h, parhip_csr_read c2 file sorted = Ok h /\ same_graph (cg_graph h) g /\ cg_sorted h = sorted.
Proof.
  intros (A1 & A2 & A3) (B1 & B2 & B3) L1 L2 L3 Hwf Hv He g Hn Hs file Hlen.
  assert (Hm : num_arcs g < 2 ^ io_wi c1).
  { assert (0 <= num_arcs g) by (unfold g; rewrite csr_arcs by exact Hwf; lia).
    assert (1 <= Z.of_nat (nbytes (io_wn c1))) by (destruct A1 as [-> | ->]; vm_compute; discriminate).
    assert (num_arcs g <= Z.of_nat (nbytes (io_wn c1)) * num_arcs g) by nia. lia. }
  pose proof (write_file c1 xadj adjncy vw ew ds A1 A2 A3 Hwf Hv He Hn Hm Hs) as F. pose proof (w_weights c1 xadj adjncy vw ew ds A1 A2 A3 Hwf Hv He Hn Hm) as W.
  destruct (w_bytes _ A1) as (_ & _ & _ & D1), (w_bytes _ A2) as (_ & _ & _ & D2), (w_bytes _ A3) as (_ & _ & _ & D3).
  assert (Mw : 2 ^ (io_ww c1 - 1) <= 2 ^ (io_ww c2 - 1)) by (apply Z.pow_le_mono_r; lia).
  assert (One : 1 < 2 ^ (io_ww c1 - 1)) by (destruct A3 as [-> | ->]; reflexivity).
  edestruct (fun H1 H2 H3 H4 => parhip_read_ok c2 _ _ _ _ _ _ g file H1 F Hlen H2 W H3 H4 sorted) as (h & E & S & _ & Q); [..|exists h; auto].
  - split; [exact B1|]. split; [exact B2|]. split; [exact B3|]. split; [exact D1|]. split; [exact D2|]. split; [exact D3|]. split; [exact D3|].
    split; [exact (w_cases _ _ A1 B1 L1)|]. split; [exact (w_cases _ _ A2 B2 L2)|]. split; intros _; exact (w_cases _ _ A3 B3 L3).
  - apply user_graph_closed. exact Hwf.
  - assert (2 ^ io_wi c1 <= 2 ^ io_wi c2) by (apply Z.pow_le_mono_r; lia). lia.
  - intros u Hu. pose proof Hwf as (_ & _ & _ & _ & _ & Wv & We). clear F W Hs Hm Hlen Hn D1 D2 D3 A1 A2 A3 B1 B2 B3 L1 L2 L3. clear file. unfold g in *. clear g. cbn [user_graph gn gvw gadj] in *. split.
    + destruct Wv as [Wv|Wv]; [rewrite Wv; lia|]. pose proof (Hv (nth u vw 0) ltac:(apply nth_In; lia)). destruct vw; lia.
    + rewrite Forall_forall. intros [v w] Hi. apply in_map_iff in Hi. destruct Hi as (e & Ee & Hi). apply (f_equal snd) in Ee. cbn [snd] in *.
      pose proof (wf_csr_range _ _ _ _ u Hwf Hu). apply in_seq in Hi. destruct We as [We|We]; [rewrite We in Ee; lia|].
      pose proof (He (nth e ew 0) ltac:(apply nth_In; lia)). destruct ew; lia.
Qed.

(** Builds with narrower types refuse the file. *)
Lemma parhip_refuses c bn bi bnw bew nw ew g t sorted : parhip_file bn bi bnw bew nw ew g t ->
  (bn = 8%nat /\ io_wn c = 32 \/ bi = 8%nat /\ io_wi c = 32 \/ nw = true /\ bnw = 8%nat /\ io_ww c = 32 \/ ew = true /\ bew = 8%nat /\ io_ww c = 32) ->
  parhip_csr_read c t sorted = Throws.
Proof.
  intros (F0 & F1 & F2 & _) H. unfold parhip_csr_read.
  assert (E1 : map_file t = Ok t). { destruct t; [|reflexivity]. apply field_len in F0; cbn in *; lia. }
  rewrite E1. cbn [bind]. unfold ph_parse. rewrite (field_rd _ _ _ _ F0). cbn [bind]. rewrite (field_rd _ _ _ _ F1). cbn [bind]. rewrite (field_rd _ _ _ _ F2). cbn [bind].
  assert (E2 : forall A (k : unit -> res A), (let* x := ph_validate c {| ph_ew := ew; ph_nw := nw; ph_e64 := Nat.eqb bi 8; ph_n64 := Nat.eqb bn 8; ph_nw64 := Nat.eqb bnw 8; ph_ew64 := Nat.eqb bew 8;
     ph_n := Z.of_nat (gn g); ph_m := num_arcs g |} in k x) = Throws).
  { intros A k. unfold ph_validate. cbn [ph_n64 ph_e64 ph_nw ph_nw64 ph_ew ph_ew64].
    destruct H as [[-> ->]|[[-> ->]|[(-> & -> & ->)|(-> & -> & ->)]]]; cbn [Nat.eqb andb Z.eqb Pos.eqb];
    repeat match goal with |- context [if ?b then _ else _] => destruct b end; reflexivity. }
  rewrite <- (E2 _ (fun _ => let* nodes := ph_read_nodes c {| ph_ew := ew; ph_nw := nw; ph_e64 := Nat.eqb bi 8; ph_n64 := Nat.eqb bn 8; ph_nw64 := Nat.eqb bnw 8; ph_ew64 := Nat.eqb bew 8;
     ph_n := Z.of_nat (gn g); ph_m := num_arcs g |} t in
    let* edges := ph_read_edges c {| ph_ew := ew; ph_nw := nw; ph_e64 := Nat.eqb bi 8; ph_n64 := Nat.eqb bn 8; ph_nw64 := Nat.eqb bnw 8; ph_ew64 := Nat.eqb bew 8;
     ph_n := Z.of_nat (gn g); ph_m := num_arcs g |} t in
    let* node_weights := ph_read_node_weights c {| ph_ew := ew; ph_nw := nw; ph_e64 := Nat.eqb bi 8; ph_n64 := Nat.eqb bn 8; ph_nw64 := Nat.eqb bnw 8; ph_ew64 := Nat.eqb bew 8;
     ph_n := Z.of_nat (gn g); ph_m := num_arcs g |} t in
    let* edge_weights := ph_read_edge_weights c {| ph_ew := ew; ph_nw := nw; ph_e64 := Nat.eqb bi 8; ph_n64 := Nat.eqb bn 8; ph_nw64 := Nat.eqb bnw 8; ph_ew64 := Nat.eqb bew 8;
     ph_n := Z.of_nat (gn g); ph_m := num_arcs g |} t in
    Ok (cg_make (sa_make (map Z.to_nat nodes)) (map Z.to_nat edges) (sa_make node_weights) edge_weights sorted))).
  unfold ph_make. destruct ew, nw, (Nat.eqb bi 8), (Nat.eqb bn 8), (Nat.eqb bnw 8), (Nat.eqb bew 8); reflexivity.
Qed.

(** 32-bit offsets: a graph with 2^30 nodes and one edge. *)
Section Overflow.
Variable n : nat.
Hypothesis Hn : Z.of_nat n = 2 ^ 30.
Definition big_xadj : list nat := 0%nat :: 1%nat :: repeat 2%nat (n - 1).
Lemma big_n : (2 <= n)%nat /\ length big_xadj = S n.
Proof. assert (1 < n)%nat by lia. split; [lia|]. cbn [big_xadj length]. rewrite repeat_length. lia. Qed.
Lemma big_nth u : (u <= n)%nat -> nth u big_xadj 0%nat = Nat.min u 2.
Proof.
  intros Hu. destruct u as [|[|u]]; [reflexivity..|]. cbn [big_xadj nth]. rewrite (nth_indep _ 0%nat 2%nat) by (rewrite repeat_length; lia). rewrite nth_repeat. lia.
Qed.
Lemma big_wf : wf_csr big_xadj [1; 0]%nat [] [].
Proof.
  destruct big_n as [N2 L]. unfold wf_csr. rewrite L. split; [lia|]. split; [reflexivity|]. split; [|split; [|split; [|split; left; reflexivity]]].
  - intros i Hi. rewrite !big_nth by lia. lia.
  - rewrite last_nth, L. replace (S n - 1)%nat with n by lia. rewrite big_nth by lia. cbn [length]. lia.
  - intros v [<-|[<-|[]]]; lia.
Qed.
Lemma big_gn : gn (user_graph big_xadj [1; 0]%nat [] []) = n.
Proof. cbn [user_graph gn]. destruct big_n as [_ ->]. lia. Qed.
Lemma big_arcs : num_arcs (user_graph big_xadj [1; 0]%nat [] []) = 2.
Proof. rewrite csr_arcs by exact big_wf. reflexivity. Qed.
Lemma big_overflow : exists h,
  parhip_csr_read conf32 (parhip_write conf32 (cg_make (sa_make big_xadj) [1; 0]%nat (sa_make []) [] false)) false = Ok h /\
  cg_m h = 2%nat /\ Z.of_nat (sa_get 0%nat (cg_nodes h) 0) = 3 * 2 ^ 30 /\ Z.of_nat (sa_get 0%nat (cg_nodes h) 1) = 3 * 2 ^ 30 + 1.
Proof.
  assert (O1 : io_wn conf32 = 32 \/ io_wn conf32 = 64) by (left; reflexivity).
  assert (O2 : io_wi conf32 = 32 \/ io_wi conf32 = 64) by (left; reflexivity).
  assert (O3 : io_ww conf32 = 32 \/ io_ww conf32 = 64) by (left; reflexivity).
  set (G := cg_make (sa_make big_xadj) [1; 0]%nat (sa_make []) [] false). set (g := user_graph big_xadj [1; 0]%nat [] []).
  assert (No : forall x : Z, In x [] -> 1 <= x < 2 ^ (io_ww conf32 - 1)) by (intros x []).
  assert (Bn : Z.of_nat (gn g) + 1 < 2 ^ io_wn conf32) by (unfold g; rewrite big_gn, Hn; reflexivity).
  assert (Bm : num_arcs g < 2 ^ io_wi conf32) by (unfold g; rewrite big_arcs; reflexivity).
  pose proof (write_layout conf32 big_xadj [1; 0]%nat [] [] false O1 O2 O3 big_wf No No Bn Bm) as Ly.
  pose proof (write_length conf32 big_xadj [1; 0]%nat [] [] false O1 O2 O3 big_wf No No Bn Bm) as Wl.
  assert (W1 : cg_is_node_weighted G = false).
  { unfold cg_is_node_weighted, G, cg_make. cbn [cg_n cg_nodes cg_total_node_weight sa_make sa_size length]. unfold cg_n. cbn [cg_nodes]. rewrite Z.eqb_refl. reflexivity. }
  assert (W2 : cg_is_edge_weighted G = false) by reflexivity.
  fold G in Ly, Wl. fold g in Ly, Wl. rewrite W1, W2 in Ly, Wl. unfold g in Wl. rewrite big_gn, big_arcs, Hn in Wl. fold g in Wl.
  assert (Lt : Z.of_nat (length (parhip_write conf32 G)) < 2 ^ 64) by (rewrite Wl; reflexivity).
  rewrite (r_csr conf32 _ _ _ _ _ _ g _ _) with (2 := Ly) (3 := Lt).
  - eexists. split; [reflexivity|]. split; [|split].
    + unfold cg_m, cg_make. cbn [cg_edges]. rewrite map_length. apply Nat2Z.inj. rewrite <- (arcs_len g). unfold g. rewrite big_arcs. reflexivity.
    + cbn [cg_make cg_nodes]. unfold sa_get, sa_make. cbn [sa_data]. rewrite nth_map_seq by lia.
      unfold g. rewrite big_gn, big_arcs, Hn. fold g. unfold w_nv. rewrite csr_before by (first [exact big_wf | destruct big_n as [_ ->]; lia]).
      rewrite big_gn, Hn. rewrite Z2Nat.id; [reflexivity|vm_compute; discriminate].
    + cbn [cg_make cg_nodes]. unfold sa_get, sa_make. cbn [sa_data]. destruct big_n as [N2 _]. rewrite nth_map_seq by (unfold g; rewrite big_gn; lia).
      unfold g. rewrite big_gn, big_arcs, Hn. fold g. unfold w_nv. rewrite csr_before by (first [exact big_wf | destruct big_n as [_ ->]; lia]).
      rewrite big_gn, Hn. rewrite Z2Nat.id; [reflexivity|vm_compute; discriminate].
  - unfold can_read. cbn. unfold w8. repeat split; auto; discriminate.
  - intros u Hu. split; [cbn; lia|]. rewrite Forall_forall. intros [v w] Hi. unfold g in Hi. cbn [user_graph gadj] in Hi. apply in_map_iff in Hi. destruct Hi as (e & Ee & _).
    apply (f_equal snd) in Ee. cbn in *. lia.
Qed.
End Overflow.

(** ** Compressed binary files *)
Lemma in_int_ok k x r : 0 <= x < 256 ^ Z.of_nat k -> in_int k (wr_int k x ++ r) = Ok (x, r).
Proof.
  intros H. unfold in_int, wr_int. rewrite store_load.
  - f_equal. f_equal. rewrite skipn_app, store_le_length, Nat.sub_diag, skipn_all2 by (rewrite store_le_length; lia). reflexivity.
  - change 256 with (2 ^ 8) in H. rewrite <- Z.pow_mul_r in H by lia. exact H.
Qed.
Lemma in_array_ok k xs r : (forall x, In x xs -> 0 <= x < 256 ^ Z.of_nat k) -> in_array k (length xs) (wr_array k xs ++ r) = Ok (xs, r).
Proof.
  induction xs as [|x xs IH]; intros H; [reflexivity|]. cbn [length in_array]. unfold wr_array. cbn [map concat]. rewrite <- app_assoc.
  change (store_le k x) with (wr_int k x). rewrite in_int_ok by (apply H; left; reflexivity). cbn [bind]. fold (wr_array k xs).
  rewrite IH by (intros; apply H; right; auto). reflexivity.
Qed.
Lemma in_static_ok k xs r : Z.of_nat (length xs) < 2 ^ 64 -> (forall x, In x xs -> 0 <= x < 256 ^ Z.of_nat k) -> in_static k (wr_static k xs ++ r) = Ok (xs, r).
Proof.
  intros L H. unfold in_static, wr_static. rewrite <- app_assoc. rewrite in_int_ok by (change (256 ^ Z.of_nat 8) with (2 ^ 64); lia). cbn [bind].
  rewrite Nat2Z.id. now apply in_array_ok.
Qed.
Lemma wr_bytes xs : (forall x, In x xs -> 0 <= x < 256) -> wr_array 1 xs = xs.
Proof.
  induction xs as [|x xs IH]; intros H; [reflexivity|]. change (wr_array 1 (x :: xs)) with (store_le 1 x ++ wr_array 1 xs). rewrite IH by (intros; apply H; right; auto). cbn [store_le app].
  rewrite Z.mod_small by (apply H; left; reflexivity). reflexivity.
Qed.
Lemma wrap_s_unsigned w x : 1 <= w -> 0 <= x < 2 ^ (w - 1) -> wrap_s w x = x.
Proof. intros Hw H. apply wrap_s_small; [exact Hw|]. pose proof (Z.pow_nonneg 2 (w - 1)). lia. Qed.

Definition b2z (b : bool) : Z := if b then 1 else 0.
Lemma flags_ok sv iv hd so w i n e nw : 
  let fl := Z.lor (Z.shiftl (b2z sv) 9) (Z.lor (Z.shiftl (b2z iv) 8) (Z.lor (Z.shiftl (b2z hd) 7)
   (Z.lor (Z.shiftl (b2z so) 6) (Z.lor (Z.shiftl (b2z w) 5) (Z.lor (Z.shiftl (b2z w) 4)
   (Z.lor (Z.shiftl (b2z i) 3) (Z.lor (Z.shiftl (b2z n) 2)
   (Z.lor (Z.shiftl (b2z e) 1) (b2z nw))))))))) in
  0 <= fl < 256 ^ Z.of_nat 2 /\ flag fl 1 = nw /\ flag fl 2 = e /\ flag fl 4 = n /\ flag fl 8 = i /\ flag fl 16 = w /\ flag fl 32 = w /\
  flag fl 64 = so /\ flag fl 128 = hd /\ flag fl 256 = iv /\ flag fl 512 = sv.
Proof. destruct sv, iv, hd, so, w, i, n, e, nw; vm_compute; repeat split; congruence. Qed.

Definition without_unit_weights (g : stored_graph) : stored_graph :=
  {| sg_nodes := sg_nodes g; sg_edges := sg_edges g; sg_node_weights := if sg_is_node_weighted g then sg_node_weights g else [];
     sg_sorted := sg_sorted g; sg_max_degree := sg_max_degree g; sg_num_edges := sg_num_edges g;
     sg_has_edge_weights := sg_has_edge_weights g; sg_total_edge_weight := sg_total_edge_weight g;
     sg_num_high_degree_nodes := sg_num_high_degree_nodes g; sg_num_high_degree_parts := sg_num_high_degree_parts g;
     sg_num_interval_nodes := sg_num_interval_nodes g; sg_num_intervals := sg_num_intervals g |}.

Section Compressed.
Variables (c : bconf) (g : stored_graph).
Hypothesis Hc : settings_ok c.
Hypothesis Hg : held_by c g.
Lemma pow64 w : w = 32 \/ w = 64 -> 2 ^ w <= 2 ^ 64 /\ 2 ^ (w - 1) <= 2 ^ 63.
Proof. intros [-> | ->]; vm_compute; split; discriminate. Qed.
Lemma c_read c' : settings_ok c' ->
  compressed_read c' (compressed_write c g) =
  if Bool.eqb (io_wn (bc_io c) =? 64) (io_wn (bc_io c') =? 64) && Bool.eqb (io_wi (bc_io c) =? 64) (io_wi (bc_io c') =? 64) &&
     Bool.eqb (io_ww (bc_io c) =? 64) (io_ww (bc_io c') =? 64) && Bool.eqb (bc_hd c) (bc_hd c') && Bool.eqb (bc_iv c) (bc_iv c') &&
     Bool.eqb (bc_sv c) (bc_sv c') && (bc_thr c =? bc_thr c') && (bc_part c =? bc_part c') && (bc_len c =? bc_len c')
  then Ok (without_unit_weights g) else Throws.
Proof.
  intros Hc'. destruct Hc as ((A1 & A2 & A3) & T1 & T2 & T3). destruct Hc' as ((A1' & A2' & A3') & _).
  destruct Hg as (G1 & G2 & G3 & G4 & G5 & G6 & G7 & G8 & G9 & G10 & G11 & G12 & G13 & G14 & G15 & G16 & G17).
  pose proof (pow64 _ A1) as [P1 _]. pose proof (pow64 _ A2) as [P2 _]. pose proof (pow64 _ A3) as [_ P3].
  assert (P4 : 256 ^ Z.of_nat 8 = 2 ^ 64) by reflexivity. assert (P5 : 2 ^ 63 < 2 ^ 64) by reflexivity.
  assert (N0 : 0 <= sg_n g) by (unfold sg_n; lia).
  assert (U0 : 0 <= bc_thr c < 256 ^ Z.of_nat 8) by (rewrite P4; lia).
  assert (U1 : 0 <= bc_part c < 256 ^ Z.of_nat 8) by (rewrite P4; lia).
  assert (U2 : 0 <= bc_len c < 256 ^ Z.of_nat 8) by (rewrite P4; lia).
  assert (U3 : 0 <= sg_n g < 256 ^ Z.of_nat 8) by (rewrite P4; lia).
  assert (U4 : 0 <= sg_num_edges g < 256 ^ Z.of_nat 8) by (rewrite P4; lia).
  assert (U5 : 0 <= sg_total_edge_weight g < 256 ^ Z.of_nat 8) by (rewrite P4; lia).
  assert (U6 : 0 <= sg_max_degree g < 256 ^ Z.of_nat 8) by (rewrite P4; lia).
  assert (U7 : 0 <= sg_num_high_degree_nodes g < 256 ^ Z.of_nat 8) by (rewrite P4; lia).
  assert (U8 : 0 <= sg_num_high_degree_parts g < 256 ^ Z.of_nat 8) by (rewrite P4; lia).
  assert (U9 : 0 <= sg_num_interval_nodes g < 256 ^ Z.of_nat 8) by (rewrite P4; lia).
  assert (U10 : 0 <= sg_num_intervals g < 256 ^ Z.of_nat 8) by (rewrite P4; lia).
  assert (V1 : 0 <= Z.of_nat (ca_bw (sg_nodes g)) < 256 ^ Z.of_nat 1) by (change (256 ^ Z.of_nat 1) with 256; lia).
  assert (V2 : 0 <= Z.of_nat (length (ca_bytes (sg_nodes g))) < 256 ^ Z.of_nat 8) by (rewrite P4; lia).
  assert (V3 : 0 <= sg_total_edge_weight g < 2 ^ (64 - 1)) by (change (64 - 1) with 63; lia).
  assert (W1 : 1 <= io_ww (bc_io c)) by lia.
  unfold compressed_read, compressed_write. rewrite in_int_ok by (split; [discriminate|reflexivity]). cbn [bind]. rewrite Z.eqb_refl. cbn [negb].
  unfold bh_write. rewrite <- !app_assoc.
  destruct (flags_ok (bc_sv c) (bc_iv c) (bc_hd c) (sg_sorted g) (io_ww (bc_io c) =? 64) (io_wi (bc_io c) =? 64) (io_wn (bc_io c) =? 64) (sg_has_edge_weights g) (sg_is_node_weighted g))
    as (Fb & F1 & F2 & F4 & F8 & F16 & F32 & F64 & F128 & F256 & F512).
  change (bh_flags c g) with (Z.lor (Z.shiftl (b2z (bc_sv c)) 9) (Z.lor (Z.shiftl (b2z (bc_iv c)) 8) (Z.lor (Z.shiftl (b2z (bc_hd c)) 7)
   (Z.lor (Z.shiftl (b2z (sg_sorted g)) 6) (Z.lor (Z.shiftl (b2z (io_ww (bc_io c) =? 64)) 5) (Z.lor (Z.shiftl (b2z (io_ww (bc_io c) =? 64)) 4)
   (Z.lor (Z.shiftl (b2z (io_wi (bc_io c) =? 64)) 3) (Z.lor (Z.shiftl (b2z (io_wn (bc_io c) =? 64)) 2)
   (Z.lor (Z.shiftl (b2z (sg_has_edge_weights g)) 1) (b2z (sg_is_node_weighted g))))))))))).
  set (fl := Z.lor _ _) in *. clearbody fl.
  rewrite in_int_ok by exact Fb. cbn [bind].
  do 11 (rewrite in_int_ok by assumption; cbn [bind]).
  rewrite F1, F2, F4, F8, F16, F32, F64, F128, F256, F512.
  destruct (Bool.eqb (io_wn (bc_io c) =? 64) (io_wn (bc_io c') =? 64)) eqn:E1; cbn [negb andb]; [|reflexivity].
  destruct (Bool.eqb (io_wi (bc_io c) =? 64) (io_wi (bc_io c') =? 64)) eqn:E2; cbn [negb andb]; [|reflexivity].
  destruct (Bool.eqb (io_ww (bc_io c) =? 64) (io_ww (bc_io c') =? 64)) eqn:E3; cbn [negb andb]; [|reflexivity].
  destruct (Bool.eqb (bc_hd c) (bc_hd c')); cbn [negb andb]; [|reflexivity].
  destruct (Bool.eqb (bc_iv c) (bc_iv c')); cbn [negb andb]; [|reflexivity].
  destruct (Bool.eqb (bc_sv c) (bc_sv c')); cbn [negb andb]; [|reflexivity].
  destruct (bc_thr c =? bc_thr c'); cbn [negb andb]; [|reflexivity].
  destruct (bc_part c =? bc_part c'); cbn [negb andb]; [|reflexivity].
  destruct (bc_len c =? bc_len c'); cbn [negb andb]; [|reflexivity].
  apply Bool.eqb_prop in E1, E2, E3.
  assert (Q1 : io_wn (bc_io c') = io_wn (bc_io c)) by (destruct A1 as [X|X], A1' as [Y|Y]; rewrite X, Y in *; cbn in E1; congruence).
  assert (Q2 : io_wi (bc_io c') = io_wi (bc_io c)) by (destruct A2 as [X|X], A2' as [Y|Y]; rewrite X, Y in *; cbn in E2; congruence).
  assert (Q3 : io_ww (bc_io c') = io_ww (bc_io c)) by (destruct A3 as [X|X], A3' as [Y|Y]; rewrite X, Y in *; cbn in E3; congruence).
  rewrite Q1, Q2, Q3. rewrite Forall_forall in G4, G7, G9.
  assert (Us : ca_usize (sg_nodes g) = length (ca_bytes (sg_nodes g))) by (rewrite <- G1 at 1; reflexivity).
  unfold in_compact, wr_compact. rewrite <- !app_assoc. rewrite in_int_ok by exact V1. cbn [bind].
  rewrite in_int_ok by (rewrite Us; exact V2). cbn [bind]. rewrite !Nat2Z.id. rewrite Us, firstn_all.
  rewrite <- (wr_bytes (ca_bytes (sg_nodes g))) at 2 by exact G4. rewrite in_array_ok by exact G4. cbn [bind]. rewrite G1.
  rewrite in_static_ok by (first [exact G8 | exact G7]). cbn [bind].
  assert (Bw : forall x, In x (sg_node_weights g) -> 0 <= x < 256 ^ Z.of_nat (nbytes (io_ww (bc_io c)))).
  { intros x Hx. rewrite (proj1 (w_bytes _ A3)). pose proof (G9 x Hx). assert (2 ^ (io_ww (bc_io c) - 1) <= 2 ^ io_ww (bc_io c)) by (apply Z.pow_le_mono_r; [reflexivity|clear - W1; lia]). clear - H H0. lia. }
  unfold without_unit_weights. rewrite !wrap_u_small by assumption. rewrite (wrap_s_unsigned 64) by (first [exact V3 | discriminate]).
  rewrite (wrap_s_unsigned (io_ww (bc_io c))) by assumption.
  destruct (sg_is_node_weighted g).
  - rewrite <- (app_nil_r (wr_static _ _)). rewrite in_static_ok by (first [exact G10 | exact Bw]). cbn [bind]. f_equal. f_equal.
    rewrite <- (map_id (sg_node_weights g)) at 2. apply map_ext_in. intros x Hx. apply wrap_s_unsigned; [exact W1|apply G9; exact Hx].
  - reflexivity.
Qed.
End Compressed.

Lemma compressed_detected c g : is_compressed (compressed_write c g) = true.
Proof. unfold is_compressed, compressed_write, wr_int. rewrite store_load by (split; [discriminate|reflexivity]). apply Z.eqb_refl. Qed.
Lemma parhip_not_compressed c g : is_compressed (parhip_write c g) = false.
Proof.
  unfold is_compressed, parhip_write, wr_int at 1. rewrite store_load.
  - destruct (cg_is_edge_weighted g), (cg_is_node_weighted g), (io_wi c =? 64), (io_wn c =? 64), (io_ww c =? 64); reflexivity.
  - destruct (cg_is_edge_weighted g), (cg_is_node_weighted g), (io_wi c =? 64), (io_wn c =? 64), (io_ww c =? 64); vm_compute; split; congruence.
Qed.
Lemma metis_not_compressed c g : is_compressed (metis_write c g) = false.
Proof.
  unfold is_compressed, metis_write. destruct (dec_ok (Z.of_nat (cg_n g)) ltac:(lia)) as (D1 & D2 & _).
  destruct (dec (Z.of_nat (cg_n g))) as [|d ds]; [congruence|]. inversion D2 as [|? ? Hd _]. rewrite <- app_comm_cons. set (X := ds ++ _).
  change (load_le 8 (d :: X)) with (match load_le 7 X with None => None | Some r => Some (d + 256 * r) end). destruct (load_le 7 X) as [r|]; [|reflexivity]. unfold digit in Hd. apply Z.eqb_neq. unfold kMagicNumber. intros E.
  apply (f_equal (fun x => x mod 256)) in E. rewrite Z.mul_comm, Z.mod_add in E by lia. rewrite (Z.mod_small d) in E by lia.
  change (4850180331074310995 mod 256) with 83 in E. lia.
Qed.
