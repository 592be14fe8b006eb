(* Binary files: fields, arrays; reading the ParHIP layout. *)
From Verif Require Import Lib.Prelude Lib.Slice Spec.Graph Spec.TextFormat Spec.BinFormat Spec.BinBuild Model.VarintModel Model.CompressModel
  Model.CompressedGraphModel Model.CsrModel Model.IoTextModel Model.IoBinModel Proofs.CsrProofs Proofs.SubgraphBase Proofs.CompressGraphProofs
  Proofs.IoTextMetis Proofs.IoTextTop Proofs.IoTextRound.
Local Open Scope Z_scope.

Lemma le_value_bound bs : Forall (fun b => 0 <= b < 256) bs -> 0 <= le_value bs < 256 ^ Z.of_nat (length bs).
Proof.
  induction 1 as [|b bs Hb H IH]; [cbn; lia|]. cbn [le_value fold_right length]. fold (le_value bs). rewrite Nat2Z.inj_succ, Z.pow_succ_r by lia. lia.
Qed.
Lemma field_bound t pos k v : field t pos k v -> 0 <= v < 256 ^ Z.of_nat k.
Proof. intros (bs & <- & F & _ & <-). now apply le_value_bound. Qed.
Lemma field_len t pos k v : field t pos k v -> (0 < k)%nat -> 0 <= pos -> pos + Z.of_nat k <= Z.of_nat (length t).
Proof.
  intros (bs & L & _ & E & _) Hk Hp. apply (f_equal (@length Z)) in E. rewrite firstn_length, skipn_length, L in E. lia.
Qed.
Lemma load_firstn : forall bs data k, length bs = k -> firstn k data = bs -> load_le k data = Some (le_value bs).
Proof.
  induction bs as [|b bs IH]; intros data k L E; cbn in L; subst k; [destruct data; reflexivity|].
  destruct data as [|x data]; cbn in E; [discriminate|]. injection E; intros E1 E2. cbn [load_le length]. rewrite (IH data (length bs) eq_refl E1).
  now rewrite E2.
Qed.
Lemma field_rd t pos k v : field t pos k v -> rd k t pos = Ok v.
Proof. intros (bs & L & F & E & <-). unfold rd. now rewrite (load_firstn bs _ k L E). Qed.
Lemma rd_array_ok k t v : forall len pos, (forall i, (i < len)%nat -> field t (pos + Z.of_nat k * Z.of_nat i) k (v i)) ->
  rd_array k t pos len = Ok (map v (seq 0 len)).
Proof.
  intros len. revert v. induction len as [|len IH]; intros v pos H; [reflexivity|]. cbn [rd_array].
  pose proof (H 0%nat ltac:(lia)) as H0. rewrite Z.mul_0_r, Z.add_0_r in H0. rewrite (field_rd _ _ _ _ H0). cbn [bind].
  rewrite (IH (fun i => v (S i))).
  - cbn [bind seq map]. rewrite <- seq_shift, map_map. reflexivity.
  - intros i Hi. specialize (H (S i) ltac:(lia)). replace (pos + Z.of_nat k + Z.of_nat k * Z.of_nat i) with (pos + Z.of_nat k * Z.of_nat (S i)) by lia. exact H.
Qed.

(** Fields of concatenations. *)
Lemma field_app_r pre t pos k v q : field t pos k v -> 0 <= pos -> q = Z.of_nat (length pre) + pos -> field (pre ++ t) q k v.
Proof.
  intros (bs & L & F & E & V) Hp ->. exists bs. repeat split; auto. rewrite Z2Nat.inj_add, Nat2Z.id by lia.
  rewrite <- E. f_equal. rewrite skipn_app. rewrite skipn_all2 by lia. cbn [app]. f_equal. lia.
Qed.
Lemma field_app_l suf t pos k v : field t pos k v -> field (t ++ suf) pos k v.
Proof.
  intros (bs & L & F & E & V). exists bs. repeat split; auto. destruct k as [|k]; [cbn in *; auto|].
  assert (Hl : (Z.to_nat pos + S k <= length t)%nat). { apply (f_equal (@length Z)) in E. rewrite firstn_length, skipn_length, L in E. lia. }
  rewrite skipn_app. replace (Z.to_nat pos - length t)%nat with 0%nat by lia. cbn [skipn]. rewrite firstn_app, skipn_length.
  replace (S k - (length t - Z.to_nat pos))%nat with 0%nat by lia. cbn [firstn]. now rewrite app_nil_r.
Qed.
Lemma store_le_value : forall k x, 0 <= x < 256 ^ Z.of_nat k -> le_value (store_le k x) = x /\ Forall (fun b => 0 <= b < 256) (store_le k x).
Proof.
  induction k as [|k IH]; intros x Hx; [cbn in *; split; [lia|constructor]|]. cbn [store_le le_value fold_right]. fold (le_value (store_le k (x / 256))).
  rewrite Nat2Z.inj_succ, Z.pow_succ_r in Hx by lia. destruct (IH (x / 256)) as [E F].
  - split; [apply Z.div_pos; lia|apply Z.div_lt_upper_bound; lia].
  - rewrite E. pose proof (Z.mod_pos_bound x 256 ltac:(lia)). pose proof (Z.div_mod x 256 ltac:(lia)). split; [lia|constructor; auto].
Qed.
Lemma field_int k x : 0 <= x < 256 ^ Z.of_nat k -> field (wr_int k x) 0 k x.
Proof.
  intros H. destruct (store_le_value k x H) as [E F]. exists (store_le k x). repeat split; auto; [apply store_le_length|].
  cbn [Z.to_nat skipn]. unfold wr_int. rewrite <- (store_le_length k x) at 1. apply firstn_all.
Qed.
Lemma wr_array_length k xs : length (wr_array k xs) = (k * length xs)%nat.
Proof. unfold wr_array. induction xs as [|x xs IH]; cbn [map concat length]; [lia|]. rewrite app_length, store_le_length, IH. lia. Qed.
Lemma field_array k : forall xs i, (i < length xs)%nat -> 0 <= nth i xs 0 < 256 ^ Z.of_nat k -> field (wr_array k xs) (Z.of_nat k * Z.of_nat i) k (nth i xs 0).
Proof.
  unfold wr_array. induction xs as [|x xs IH]; intros i Hi Hb; cbn [length] in Hi; [lia|]. cbn [map concat]. destruct i as [|i].
  - cbn [nth] in *. rewrite Z.mul_0_r. apply field_app_l. now apply field_int.
  - cbn [nth] in *. eapply field_app_r; [apply IH; [lia|exact Hb]|lia|]. rewrite store_le_length. lia.
Qed.

(** Rows of a CSR graph. *)
Section Rows.
Variable g : graph.
Let rows := map snd (adj_list g).
Lemma rows_len : length rows = gn g.
Proof. unfold rows. now rewrite map_length, adj_list_length. Qed.
Lemma first_arcs u : (u <= gn g)%nat -> arcs_before g u = Z.of_nat (length (concat (firstn u rows))).
Proof.
  unfold arcs_before. induction u as [|u IH]; intros Hu; [reflexivity|]. rewrite sumn_S, IH by lia.
  rewrite concat_firstn_S by (rewrite rows_len; lia). unfold rows at 3. rewrite adj_rows by lia. lia.
Qed.
Lemma all_arcs : arcs_before g (gn g) = num_arcs g.
Proof. reflexivity. Qed.
Lemma per_arc (P : Z -> nat * Z -> Prop) :
  (forall u i, (u < gn g)%nat -> (i < length (gadj g u))%nat -> P (arcs_before g u + Z.of_nat i) (nth i (gadj g u) (0%nat, 0))) ->
  forall e, (e < length (concat rows))%nat -> P (Z.of_nat e) (nth e (concat rows) (0%nat, 0)).
Proof.
  intros H.
  assert (G : forall u e, (u <= gn g)%nat -> (e < length (concat (firstn u rows)))%nat -> P (Z.of_nat e) (nth e (concat rows) (0%nat, 0))).
  { induction u as [|u IH]; intros e Hu He; [cbn in He; lia|]. rewrite concat_firstn_S in He by (rewrite rows_len; lia).
    destruct (le_lt_dec (length (concat (firstn u rows))) e) as [Ge|Lt]; [|apply IH; lia].
    set (i := (e - length (concat (firstn u rows)))%nat). assert (Ei : e = (length (concat (firstn u rows)) + i)%nat) by (unfold i; lia).
    assert (Hr : nth u rows [] = gadj g u) by (apply adj_rows; lia). rewrite Hr in He.
    specialize (H u i ltac:(lia) ltac:(lia)). rewrite first_arcs in H by lia. rewrite Ei, concat_row by (rewrite ?rows_len, ?Hr; lia). rewrite Hr.
    rewrite Nat2Z.inj_add. exact H. }
  intros e He. apply (G (gn g) e); [lia|]. rewrite firstn_all2 by (rewrite rows_len; lia). exact He.
Qed.

Variables nw ew : bool.
Definition r_vw : list Z := if nw then map (gvw g) (seq 0 (gn g)) else [].
Definition r_ew : list Z := if ew then map snd (concat rows) else [].
Hypothesis Hcl : closed_graph g.
Hypothesis Hw : weights_ok g nw ew.

Lemma rows_wf : wf_csr (offsets 0 rows) (map fst (concat rows)) r_vw r_ew.
Proof.
  unfold wf_csr. rewrite offsets_length, rows_len, map_length. split; [lia|]. split; [now rewrite offsets_nth by (rewrite ?rows_len; lia)|].
  split; [|split; [|split; [|split]]].
  - intros i Hi. rewrite !offsets_nth by (rewrite rows_len; lia). rewrite concat_firstn_S by (rewrite rows_len; lia). lia.
  - rewrite last_nth, offsets_length, rows_len. replace (S (gn g) - 1)%nat with (gn g) by lia. rewrite offsets_nth by (rewrite rows_len; lia).
    rewrite firstn_all2 by (rewrite rows_len; lia). lia.
  - intros v Hv. apply in_map_iff in Hv. destruct Hv as ([a w] & <- & Hv). apply in_concat in Hv. destruct Hv as (r & Hr & Hv).
    apply in_map_iff in Hr. destruct Hr as ([w0 r'] & <- & Hr). apply in_adj_list in Hr. destruct Hr as (u & Hu & _ & ->). cbn [snd] in Hv.
    pose proof (Hcl u a w Hu Hv). cbn [fst]. lia.
  - unfold r_vw. destruct nw; [right; rewrite map_length, seq_length; lia|left; reflexivity].
  - unfold r_ew. destruct ew; [right; now rewrite map_length|left; reflexivity].
Qed.
Lemma r_vw_pos x : In x r_vw -> 1 <= x.
Proof. unfold r_vw. destruct nw; [|intros []]. intros H. apply in_map_iff in H. destruct H as (u & <- & H). apply in_seq in H. apply Hw; lia. Qed.
Lemma r_ew_pos x : In x r_ew -> 1 <= x.
Proof.
  unfold r_ew. destruct ew; [|intros []]. intros H. apply in_map_iff in H. destruct H as ([a w] & <- & H). apply in_concat in H. destruct H as (r & Hr & H).
  apply in_map_iff in Hr. destruct Hr as ([w0 r'] & <- & Hr). apply in_adj_list in Hr. destruct Hr as (u & Hu & _ & ->). cbn [snd] in *.
  apply (proj2 Hw u a w Hu H).
Qed.
Lemma rows_user : same_graph (user_graph (offsets 0 rows) (map fst (concat rows)) r_vw r_ew) g.
Proof.
  split; [cbn; rewrite offsets_length, rows_len; lia|]. cbn [user_graph gn gadj gvw]. rewrite offsets_length, rows_len. intros u Hu.
  replace (S (gn g) - 1)%nat with (gn g) in Hu by lia. split.
  - assert (Hr : nth u rows [] = gadj g u) by (apply adj_rows; lia). etransitivity; [|exact Hr]. apply rows_adj; [rewrite rows_len; lia|].
    intros i Hi. rewrite Hr in *. unfold r_ew. destruct ew eqn:Ee.
    + assert (E : nth (length (concat (firstn u rows)) + i) (map snd (concat rows)) 0 = snd (nth i (gadj g u) (0%nat, 0))).
      { etransitivity; [exact (map_nth snd (concat rows) (0%nat, 0) _)|]. rewrite concat_row; rewrite ?Hr, ?rows_len; auto; lia. }
      destruct (map snd (concat rows)) eqn:Em; [|exact E].
      assert (Hc : (length (concat (firstn u rows)) + length (gadj g u) <= length (concat rows))%nat).
      { rewrite <- Hr, <- concat_firstn_S by (rewrite rows_len; lia). rewrite <- (firstn_skipn (S u) rows) at 2. rewrite concat_app, app_length. lia. }
      apply (f_equal (@length Z)) in Em. rewrite map_length in Em. cbn in Em. lia.
    + destruct (nth i (gadj g u) (0%nat, 0)) as [v w] eqn:En. cbn [snd]. symmetry. apply (proj2 Hw u v w); auto. rewrite <- En. apply nth_In. exact Hi.
  - unfold r_vw. destruct nw eqn:Ee.
    + destruct (map (gvw g) (seq 0 (gn g))) eqn:Em; [apply (f_equal (@length Z)) in Em; rewrite map_length, seq_length in Em; cbn in Em; lia|].
      rewrite <- Em. now apply nth_map_seq.
    + symmetry. apply (proj1 Hw u Hu); reflexivity.
Qed.
End Rows.

(** The layout with arbitrary values in the node array. *)
Definition layout (bn bi bnw bew : nat) (nw ew : bool) (g : graph) (nv : nat -> Z) (t : list Z) : Prop :=
  let inv (b : bool) := if b then 0 else 1 in
  let n := Z.of_nat (gn g) in
  let base := 24 + Z.of_nat bi * (n + 1) in
  let nws := base + Z.of_nat bn * num_arcs g in
  let ews := nws + (if nw then Z.of_nat bnw * n else 0) in
  field t 0 8 (inv ew + 2 * inv nw + 4 * inv (Nat.eqb bi 8) + 8 * inv (Nat.eqb bn 8) +
               16 * inv (Nat.eqb bnw 8) + 32 * inv (Nat.eqb bew 8)) /\
  field t 8 8 n /\ field t 16 8 (num_arcs g) /\
  (forall u, (u <= gn g)%nat -> field t (24 + Z.of_nat bi * Z.of_nat u) bi (nv u)) /\
  (forall u i, (u < gn g)%nat -> (i < length (gadj g u))%nat ->
     field t (base + Z.of_nat bn * (arcs_before g u + Z.of_nat i)) bn (Z.of_nat (fst (nth i (gadj g u) (0%nat, 0))))) /\
  (nw = true -> forall u, (u < gn g)%nat -> field t (nws + Z.of_nat bnw * Z.of_nat u) bnw (gvw g u)) /\
  (ew = true -> forall u i, (u < gn g)%nat -> (i < length (gadj g u))%nat ->
     field t (ews + Z.of_nat bew * (arcs_before g u + Z.of_nat i)) bew (snd (nth i (gadj g u) (0%nat, 0)))).

Lemma r_width w b : w8 b -> (w = 32 \/ w = 64) -> (b = 8%nat -> w = 64) -> ph_width w (Nat.eqb b 8) = b.
Proof. intros [-> | ->] [-> | ->] H; cbn; auto. specialize (H eq_refl). discriminate. Qed.
Section Read.
Variable c : ioconf.
Variables (bn bi bnw bew : nat) (nw ew : bool) (g : graph) (nv : nat -> Z) (t : list Z).
Hypothesis Hc : can_read c bn bi bnw bew nw ew.
Hypothesis Ht : layout bn bi bnw bew nw ew g nv t.
Hypothesis Hlen : Z.of_nat (length t) < 2 ^ 64.
Hypothesis Hww : forall u, (u < gn g)%nat -> 0 <= gvw g u < 2 ^ (io_ww c - 1) /\ Forall (fun e => 0 <= snd e < 2 ^ (io_ww c - 1)) (gadj g u).
Let rows := map snd (adj_list g).

Let hdr : parhip_header :=
  {| ph_ew := ew; ph_nw := nw; ph_e64 := Nat.eqb bi 8; ph_n64 := Nat.eqb bn 8; ph_nw64 := Nat.eqb bnw 8; ph_ew64 := Nat.eqb bew 8;
     ph_n := Z.of_nat (gn g); ph_m := num_arcs g |}.
Lemma r_parse : map_file t = Ok t /\ ph_parse t = Ok hdr.
Proof using All.
  pose proof Ht as (F0 & F1 & F2 & _). split.
  - destruct t; [|reflexivity]. apply field_len in F0; cbn in *; lia.
  - unfold ph_parse. rewrite (field_rd _ _ _ _ F0). cbn [bind]. rewrite (field_rd _ _ _ _ F1). cbn [bind]. rewrite (field_rd _ _ _ _ F2). cbn [bind].
    unfold ph_make, hdr. f_equal. destruct ew, nw, (Nat.eqb bi 8), (Nat.eqb bn 8), (Nat.eqb bnw 8), (Nat.eqb bew 8); reflexivity.
Qed.
Lemma r_validate : ph_validate c hdr = Ok tt.
Proof using All.
  pose proof Hc as (C1 & C2 & C3 & B1 & B2 & B3 & B4 & D1 & D2 & D3 & D4). unfold ph_validate, hdr. cbn [ph_n64 ph_e64 ph_nw ph_nw64 ph_ew ph_ew64].
  destruct (Nat.eqb_spec bn 8) as [E1|]; destruct (Nat.eqb_spec bi 8) as [E2|]; destruct (Nat.eqb_spec bnw 8) as [E3|]; destruct (Nat.eqb_spec bew 8) as [E4|];
    try rewrite (D1 E1); try rewrite (D2 E2); destruct nw, ew; try rewrite (D3 eq_refl E3); try rewrite (D4 eq_refl E4); cbn [andb Z.eqb]; reflexivity.
Qed.
Lemma r_base : ph_edges_offset hdr = 24 + Z.of_nat bi * (Z.of_nat (gn g) + 1) /\ 24 + Z.of_nat bi * (Z.of_nat (gn g) + 1) <= Z.of_nat (length t).
Proof using All.
  pose proof Ht as (_ & _ & _ & F3 & _). pose proof Hc as (_ & _ & _ & _ & B2 & _). specialize (F3 (gn g) ltac:(lia)). apply field_len in F3; [|destruct B2; lia|lia].
  assert (L : 24 + Z.of_nat bi * (Z.of_nat (gn g) + 1) <= Z.of_nat (length t)) by lia. split; [|exact L].
  unfold ph_edges_offset, ph_kSize, hdr, ph_edge_id_width. cbn [ph_n ph_e64].
  assert (E : (if Nat.eqb bi 8 then 8 else 4) = Z.of_nat bi) by (destruct B2 as [-> | ->]; reflexivity). rewrite E, wrap_u_small by lia. lia.
Qed.
Lemma r_nodes : ph_read_nodes c hdr t = Ok (map (fun u => ph_map_edge_offset c hdr (nv u)) (seq 0 (S (gn g)))).
Proof using All.
  pose proof Ht as (_ & _ & _ & F3 & _). pose proof Hc as (_ & C2 & _ & _ & B2 & _ & _ & _ & D2 & _). unfold ph_read_nodes. cbn [hdr ph_e64 ph_n].
  rewrite r_width by auto. replace (Z.to_nat (Z.of_nat (gn g) + 1)) with (S (gn g)) by lia. unfold ph_kSize.
  rewrite (rd_array_ok bi t nv (S (gn g)) 24) by (intros; apply F3; lia). cbn [bind]. now rewrite map_map.
Qed.
Lemma r_list {B} (f : nat * Z -> B) d : map (fun e => f (nth e (concat rows) d)) (seq 0 (length (concat rows))) = map f (concat rows).
Proof using All.
  apply (list_ext (f d)); [now rewrite !map_length, seq_length|]. intros i Hi. rewrite map_length, seq_length in Hi.
  rewrite (nth_indep _ (f d) ((fun e => f (nth e (concat rows) d)) 0%nat)) by (rewrite map_length, seq_length; lia).
  rewrite (map_nth (fun e => f (nth e (concat rows) d))), seq_nth by lia. symmetry. exact (map_nth f (concat rows) d i).
Qed.
Lemma r_m : num_arcs g = Z.of_nat (length (concat rows)).
Proof using All. apply arcs_len. Qed.
Lemma r_edges : ph_read_edges c hdr t = Ok (map (fun e => Z.of_nat (fst e)) (concat rows)).
Proof using All.
  pose proof r_base as [Eb Lb]. pose proof Ht as (_ & _ & _ & _ & F4 & _). pose proof Hc as (C1 & _ & _ & B1 & _ & _ & _ & D1 & _). unfold ph_read_edges. rewrite Eb. cbn [hdr ph_n64 ph_m].
  rewrite r_width by auto. rewrite r_m, Nat2Z.id.
  rewrite (rd_array_ok bn t (fun e => Z.of_nat (fst (nth e (concat rows) (0%nat, 0))))).
  - f_equal. exact (r_list (fun e => Z.of_nat (fst e)) (0%nat, 0)).
  - intros e He. exact (per_arc g (fun z x => field t (24 + Z.of_nat bi * (Z.of_nat (gn g) + 1) + Z.of_nat bn * z) bn (Z.of_nat (fst x))) F4 e He).
Qed.
(** The end of the edges in the file. *)
Lemma r_end : 24 + Z.of_nat bi * (Z.of_nat (gn g) + 1) + Z.of_nat bn * num_arcs g <= Z.of_nat (length t).
Proof using All.
  pose proof r_base as [_ Lb]. pose proof Ht as (_ & _ & _ & _ & F4 & _). pose proof Hc as (_ & _ & _ & B1 & _). rewrite r_m.
  destruct (length (concat rows)) as [|e] eqn:E; [lia|].
  pose proof (per_arc g (fun z x => field t (24 + Z.of_nat bi * (Z.of_nat (gn g) + 1) + Z.of_nat bn * z) bn (Z.of_nat (fst x))) F4 e) as F.
  fold rows in F. specialize (F ltac:(lia)). cbn beta in F. apply field_len in F; [lia|destruct B1; lia|lia].
Qed.
Lemma r_nwo : ph_node_weights_offset hdr = 24 + Z.of_nat bi * (Z.of_nat (gn g) + 1) + Z.of_nat bn * num_arcs g.
Proof using All.
  pose proof r_end as L. pose proof Hc as (_ & _ & _ & B1 & B2 & _). assert (0 <= num_arcs g) by (rewrite r_m; lia).
  unfold ph_node_weights_offset, ph_kSize, hdr, ph_edge_id_width, ph_node_id_width. cbn [ph_n ph_m ph_e64 ph_n64].
  assert (E : (if Nat.eqb bi 8 then 8 else 4) = Z.of_nat bi) by (destruct B2 as [-> | ->]; reflexivity).
  assert (E' : (if Nat.eqb bn 8 then 8 else 4) = Z.of_nat bn) by (destruct B1 as [-> | ->]; reflexivity). rewrite E, E', wrap_u_small by lia. lia.
Qed.
Lemma r_vw_read : ph_read_node_weights c hdr t = Ok (r_vw g nw).
Proof using All.
  pose proof r_nwo as E. unfold ph_read_node_weights. rewrite E. pose proof Ht as (_ & _ & _ & _ & _ & F5 & _). pose proof Hc as (_ & _ & C3 & _ & _ & B3 & _ & _ & _ & D3 & _).
  unfold r_vw. cbn [hdr ph_nw ph_nw64 ph_n]. destruct nw; [|reflexivity]. rewrite r_width by auto. rewrite Nat2Z.id.
  rewrite (rd_array_ok bnw t (gvw g)) by (intros; apply F5; auto). cbn [bind]. rewrite map_map. f_equal. apply map_ext_in. intros u Hu. apply in_seq in Hu.
  destruct (Hww u ltac:(lia)) as [Bu _]. apply wrap_s_small; [destruct C3; lia|]. pose proof (Z.pow_nonneg 2 (io_ww c - 1)). lia.
Qed.
Lemma r_ew_read : ph_read_edge_weights c hdr t = Ok (r_ew g ew).
Proof using All.
  pose proof r_end as L. pose proof r_m as Rm. pose proof (@r_list Z) as Rl. pose proof Ht as (_ & _ & _ & _ & _ & F5 & F6). pose proof Hc as (_ & _ & C3 & B1 & B2 & B3 & B4 & _ & _ & D3 & D4).
  assert (M0 : 0 <= num_arcs g) by (rewrite Rm; lia).
  unfold ph_read_edge_weights, r_ew. fold rows. cbn [hdr ph_ew ph_ew64 ph_m]. destruct ew; [|reflexivity]. rewrite r_width by auto. rewrite Rm, Nat2Z.id.
  destruct (Nat.eq_dec (length (concat rows)) 0) as [El|El].
  - rewrite El. cbn [rd_array bind map]. destruct (concat rows); [reflexivity|discriminate].
  - assert (Eo : ph_edge_weights_offset hdr = 24 + Z.of_nat bi * (Z.of_nat (gn g) + 1) + Z.of_nat bn * num_arcs g + (if nw then Z.of_nat bnw * Z.of_nat (gn g) else 0)).
    { unfold ph_edge_weights_offset, ph_kSize, hdr, ph_edge_id_width, ph_node_id_width, ph_node_weight_width. cbn [ph_n ph_m ph_e64 ph_n64 ph_nw ph_nw64].
      assert (E : (if Nat.eqb bi 8 then 8 else 4) = Z.of_nat bi) by (destruct B2 as [-> | ->]; reflexivity).
      assert (E' : (if Nat.eqb bn 8 then 8 else 4) = Z.of_nat bn) by (destruct B1 as [-> | ->]; reflexivity).
      assert (E'' : (if Nat.eqb bnw 8 then 8 else 4) = Z.of_nat bnw) by (destruct B3 as [-> | ->]; reflexivity). rewrite E, E', E''.
      assert (Q : 24 + Z.of_nat bi * (Z.of_nat (gn g) + 1) + Z.of_nat bn * num_arcs g + (if nw then Z.of_nat bnw * Z.of_nat (gn g) else 0) < 2 ^ 64).
      { destruct nw; [|lia]. destruct (gn g) as [|n] eqn:En; [lia|]. pose proof (F5 eq_refl n ltac:(lia)) as F. apply field_len in F; [lia|destruct B3; lia|lia]. }
      destruct nw; rewrite wrap_u_small; lia. }
    rewrite Eo.
    rewrite (rd_array_ok bew t (fun e => snd (nth e (concat rows) (0%nat, 0)))).
    + cbn [bind]. rewrite map_map. f_equal. rewrite (Rl (fun e => wrap_s (io_ww c) (snd e)) (0%nat, 0)).
      apply map_ext_in. intros [v w] Hi. apply in_concat in Hi. destruct Hi as (r & Hr & Hi).
      apply in_map_iff in Hr. destruct Hr as ([w0 r'] & <- & Hr). apply in_adj_list in Hr. destruct Hr as (u & Hu & _ & ->). cbn [snd] in *.
      destruct (Hww u Hu) as [_ Fw]. rewrite Forall_forall in Fw. apply wrap_s_small; [destruct C3; lia|]. specialize (Fw (v, w) Hi). pose proof (Z.pow_nonneg 2 (io_ww c - 1)). cbn [snd] in Fw. lia.
    + intros e He. 
      exact (per_arc g (fun z x => field t (24 + Z.of_nat bi * (Z.of_nat (gn g) + 1) + Z.of_nat bn * num_arcs g + (if nw then Z.of_nat bnw * Z.of_nat (gn g) else 0) + Z.of_nat bew * z) bew (snd x)) (F6 eq_refl) e He).
Qed.
Lemma r_csr sorted : parhip_csr_read c t sorted =
  Ok (cg_make (sa_make (map (fun u => Z.to_nat (ph_map_edge_offset c hdr (nv u))) (seq 0 (S (gn g))))) (map fst (concat rows)) (sa_make (r_vw g nw)) (r_ew g ew) sorted).
Proof using All.
  unfold parhip_csr_read. destruct r_parse as [E1 E2]. rewrite E1. cbn [bind]. rewrite E2. cbn [bind]. rewrite r_validate. cbn [bind].
  rewrite r_nodes. cbn [bind]. rewrite r_edges. cbn [bind]. rewrite r_vw_read. cbn [bind]. rewrite r_ew_read. cbn [bind]. rewrite !map_map. f_equal. f_equal.
  apply map_ext. intros; apply Nat2Z.id.
Qed.
Lemma r_offset x u : nv u = 24 + Z.of_nat bi * (Z.of_nat (gn g) + 1) + Z.of_nat bn * x -> (u <= gn g)%nat -> 0 <= x < 2 ^ io_wi c ->
  ph_map_edge_offset c hdr (nv u) = x.
Proof using All.
  intros E Hu Hx. unfold ph_map_edge_offset. destruct r_base as [-> Lb]. pose proof Ht as (_ & _ & _ & F3 & _). pose proof Hc as (_ & _ & _ & B1 & B2 & _).
  pose proof (field_bound _ _ _ _ (F3 u Hu)) as Bd. assert (B64 : 256 ^ Z.of_nat bi <= 2 ^ 64) by (destruct B2 as [-> | ->]; vm_compute; discriminate).
  assert (E' : ph_node_id_width hdr = Z.of_nat bn) by (unfold ph_node_id_width; cbn [hdr ph_n64]; destruct B1 as [-> | ->]; reflexivity).
  rewrite E'. rewrite E in Bd |- *. replace (_ - _) with (x * Z.of_nat bn) by lia. rewrite (wrap_u_small 64) by (destruct B1 as [-> | ->]; lia). rewrite Z.div_mul by (destruct B1; lia).
  apply wrap_u_small; lia.
Qed.
End Read.

Section ReadFile.
Variable c : ioconf.
Variables (bn bi bnw bew : nat) (nw ew : bool) (g : graph) (t : list Z).
Hypothesis Hc : can_read c bn bi bnw bew nw ew.
Hypothesis Ht : parhip_file bn bi bnw bew nw ew g t.
Hypothesis Hlen : Z.of_nat (length t) < 2 ^ 64.
Hypothesis Hcl : closed_graph g.
Hypothesis Hw : weights_ok g nw ew.
Hypothesis Hfit : num_arcs g < 2 ^ io_wi c.
Hypothesis Hww : forall u, (u < gn g)%nat -> gvw g u < 2 ^ (io_ww c - 1) /\ Forall (fun e => snd e < 2 ^ (io_ww c - 1)) (gadj g u).
Let rows := map snd (adj_list g).
Let nv u := 24 + Z.of_nat bi * (Z.of_nat (gn g) + 1) + Z.of_nat bn * arcs_before g u.

Lemma rf_layout : layout bn bi bnw bew nw ew g nv t.
Proof using All. exact Ht. Qed.
Lemma rf_ww u : (u < gn g)%nat -> 0 <= gvw g u < 2 ^ (io_ww c - 1) /\ Forall (fun e => 0 <= snd e < 2 ^ (io_ww c - 1)) (gadj g u).
Proof using All.
  intros Hu. destruct (Hww u Hu) as [A B]. pose proof Hw as [W1 W2]. pose proof (W1 u Hu). split; [lia|]. rewrite Forall_forall in *. intros [v w] Hi.
  specialize (B (v, w) Hi). pose proof (W2 u v w Hu Hi). cbn in *. lia.
Qed.
Lemma rf_offsets h : h = {| ph_ew := ew; ph_nw := nw; ph_e64 := Nat.eqb bi 8; ph_n64 := Nat.eqb bn 8; ph_nw64 := Nat.eqb bnw 8; ph_ew64 := Nat.eqb bew 8;
     ph_n := Z.of_nat (gn g); ph_m := num_arcs g |} -> forall u, (u <= gn g)%nat -> ph_map_edge_offset c h (nv u) = Z.of_nat (nth u (offsets 0 rows) 0%nat).
Proof using All.
  intros -> u Hu. rewrite (r_offset c bn bi bnw bew nw ew g nv t Hc rf_layout Hlen rf_ww (arcs_before g u) u eq_refl Hu).
  - rewrite first_arcs by exact Hu. rewrite offsets_nth by (unfold rows; rewrite rows_len; lia). reflexivity.
  - pose proof (first_arcs g u Hu). pose proof (first_arcs g (gn g) ltac:(lia)) as F. rewrite all_arcs in F.
    assert (Q : (length (concat (firstn u (map snd (adj_list g)))) <= length (concat (map snd (adj_list g))))%nat).
    { rewrite <- (firstn_skipn u (map snd (adj_list g))) at 2. rewrite concat_app, app_length. lia. }
    rewrite firstn_all2 in F by (rewrite rows_len; lia). lia.
Qed.
Lemma rf_nodes h : h = {| ph_ew := ew; ph_nw := nw; ph_e64 := Nat.eqb bi 8; ph_n64 := Nat.eqb bn 8; ph_nw64 := Nat.eqb bnw 8; ph_ew64 := Nat.eqb bew 8;
     ph_n := Z.of_nat (gn g); ph_m := num_arcs g |} -> map (fun u => ph_map_edge_offset c h (nv u)) (seq 0 (S (gn g))) = map Z.of_nat (offsets 0 rows).
Proof using All.
  intros Eh. assert (Ll : length rows = gn g) by (unfold rows; apply rows_len).
  rewrite <- (map_nth_seq 0%nat (offsets 0 rows)), map_map, offsets_length, Ll. apply map_ext_in. intros u Hu. apply in_seq in Hu. apply rf_offsets; auto; lia.
Qed.
Lemma parhip_read_ok sorted : exists h, parhip_csr_read c t sorted = Ok h /\ same_graph (cg_graph h) g /\ Z.of_nat (cg_m h) = num_arcs g /\ cg_sorted h = sorted.
Proof using All.
  rewrite (r_csr c bn bi bnw bew nw ew g nv t Hc rf_layout Hlen rf_ww sorted). eexists. split; [reflexivity|].
  rewrite <- (map_map (fun u => ph_map_edge_offset c _ (nv u)) Z.to_nat). rewrite rf_nodes by reflexivity. rewrite map_map.
  assert (Ei : map (fun x => Z.to_nat (Z.of_nat x)) (offsets 0 rows) = offsets 0 rows).
  { rewrite <- (map_id (offsets 0 rows)) at 2. apply map_ext. intros; apply Nat2Z.id. }
  rewrite Ei. split; [|split].
  - eapply same_trans; [apply (cg_make_faithful _ _ _ _ _ (offsets 0 rows) (r_vw g nw))|apply rows_user]; auto.
    + split; reflexivity.
    + split; reflexivity.
    + apply rows_wf; auto.
    + eapply r_vw_pos; eauto.
    + eapply r_ew_pos; eauto.
  - unfold cg_m, cg_make. cbn [cg_edges]. rewrite map_length. symmetry. apply arcs_len.
  - reflexivity.
Qed.
Lemma parhip_compressed_ok cc sort : (forall u, (u < gn g)%nat -> Z.of_nat (length (gadj g u)) < 2 ^ io_wn c) ->
  parhip_compressed_read c cc sort t =
  Ok (cgr_build (cc ew) sort (num_arcs g) (map (fun u => map (fun e => (Z.of_nat (fst e), snd e)) (gadj g u)) (seq 0 (gn g)))
        (if nw then Some (map (gvw g) (seq 0 (gn g))) else None)).
Proof using All.
  intros Hdeg. unfold parhip_compressed_read.
  destruct (r_parse c bn bi bnw bew nw ew g nv t Hc rf_layout Hlen rf_ww) as [E1 E2]. rewrite E1. cbn [bind]. rewrite E2. cbn [bind].
  rewrite (r_validate c bn bi bnw bew nw ew g nv t Hc rf_layout Hlen rf_ww). cbn [bind].
  rewrite (r_nodes c bn bi bnw bew nw ew g nv t Hc rf_layout Hlen rf_ww). cbn [bind].
  rewrite (r_edges c bn bi bnw bew nw ew g nv t Hc rf_layout Hlen rf_ww). cbn [bind].
  rewrite (r_vw_read c bn bi bnw bew nw ew g nv t Hc rf_layout Hlen rf_ww). cbn [bind].
  rewrite (r_ew_read c bn bi bnw bew nw ew g nv t Hc rf_layout Hlen rf_ww). cbn [bind]. cbn [ph_ew ph_nw ph_n ph_m]. rewrite Nat2Z.id.
  rewrite rf_nodes by reflexivity. fold rows. f_equal. f_equal; [|unfold r_vw; destruct nw; reflexivity].
  assert (Ll : length rows = gn g) by (unfold rows; apply rows_len).
  apply map_ext_in. intros u Hu. apply in_seq in Hu.
  assert (Hr : nth u rows [] = gadj g u) by (apply adj_rows; lia).
  assert (On : forall i, (i <= gn g)%nat -> nth i (map Z.of_nat (offsets 0 rows)) 0 = Z.of_nat (length (concat (firstn i rows)))).
  { intros i Hi. etransitivity; [exact (map_nth Z.of_nat (offsets 0 rows) 0%nat i)|]. rewrite offsets_nth by lia. reflexivity. }
  rewrite !On by lia. rewrite concat_firstn_S by lia. rewrite Hr.
  replace (Z.of_nat (length (concat (firstn u rows)) + length (gadj g u)) - Z.of_nat (length (concat (firstn u rows)))) with (Z.of_nat (length (gadj g u))) by lia.
  rewrite wrap_u_small by (specialize (Hdeg u); lia). rewrite !Nat2Z.id.
  apply (list_ext (0, 0)); [now rewrite !map_length, seq_length|]. intros i Hi. rewrite map_length, seq_length in Hi.
  match goal with |- nth i (map ?f _) _ = _ => rewrite (nth_indep _ (0, 0) (f 0%nat)) by (rewrite map_length, seq_length; lia);
    rewrite (map_nth f), seq_nth by lia end. cbn [Nat.add].
  symmetry. etransitivity; [exact (map_nth (fun e : nat * Z => (Z.of_nat (fst e), snd e)) (gadj g u) (0%nat, 0) i)|].
  assert (Cr : nth (length (concat (firstn u rows)) + i) (concat rows) (0%nat, 0) = nth i (gadj g u) (0%nat, 0)) by (rewrite concat_row; rewrite ?Hr; auto; lia).
  f_equal.
  - symmetry. etransitivity; [exact (map_nth (fun e : nat * Z => Z.of_nat (fst e)) (concat rows) (0%nat, 0) _)|]. now rewrite Cr.
  - destruct ew eqn:Ee.
    + unfold r_ew. fold rows. symmetry. etransitivity; [exact (map_nth snd (concat rows) (0%nat, 0) _)|]. now rewrite Cr.
    + destruct (nth i (gadj g u) (0%nat, 0)) as [v w] eqn:En. apply (proj2 Hw u v w); auto; [lia|]. rewrite <- En. apply nth_In. exact Hi.
Qed.
End ReadFile.
