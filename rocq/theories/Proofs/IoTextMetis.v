(* Reading METIS files into CSR graphs and into compressed graphs. *)
From Verif Require Import Lib.Prelude Lib.Slice Spec.Graph Spec.TextFormat Model.VarintModel Model.CompressModel Model.CompressedGraphModel
  Model.CsrModel Model.IoTextModel Proofs.SubgraphBase Proofs.IoTextBase.
Local Open Scope Z_scope.

Lemma lines_full h l : forall lines rest, length lines = length l ->
  (forall i, (i < length l)%nat -> text_line (node_numbers (mh_nw h) (mh_ew h) (fst (nth i l (0, []))) (snd (nth i l (0, [])))) (nth i lines [])) ->
  node_lines h l (concat (map (fun t => t ++ [newline]) lines) ++ rest) rest.
Proof.
  induction l as [|[w adj] l IH]; intros [|t lines] rest Hl H; cbn in Hl; try lia.
  - constructor.
  - cbn [map concat]. rewrite <- !app_assoc. cbn [app]. constructor.
    + exact (H 0%nat ltac:(cbn; lia)).
    + apply IH; [lia|]. intros i Hi. exact (H (S i) ltac:(cbn; lia)).
Qed.
Lemma lines_last h l : forall lines, length lines = length l -> (0 < length l)%nat ->
  (forall i, (i < length l)%nat -> text_line (node_numbers (mh_nw h) (mh_ew h) (fst (nth i l (0, []))) (snd (nth i l (0, [])))) (nth i lines [])) ->
  exists body, concat (map (fun t => t ++ [newline]) lines) = body ++ [newline] /\ node_lines h l body [].
Proof.
  induction l as [|[w adj] l IH]; intros [|t lines] Hl Hp H; cbn in Hl, Hp; try lia.
  destruct l as [|x l].
  - destruct lines; [|discriminate]. exists t. split; [cbn [map concat]; now rewrite app_nil_r|]. apply nl_last. exact (H 0%nat ltac:(cbn; lia)).
  - destruct (IH lines) as (body & E & Hb); [lia|cbn; lia|intros i Hi; exact (H (S i) ltac:(cbn in *; lia))|].
    exists (t ++ newline :: body). split.
    + cbn [map concat]. cbn [map concat] in E. rewrite E. rewrite <- !app_assoc. reflexivity.
    + constructor; [exact (H 0%nat ltac:(cbn; lia))|exact Hb].
Qed.

Definition adj_list (g : graph) : list (Z * list (nat * Z)) := map (fun u => (gvw g u, gadj g u)) (seq 0 (gn g)).
Lemma adj_list_length g : length (adj_list g) = gn g.
Proof. unfold adj_list. now rewrite map_length, seq_length. Qed.
Lemma adj_list_nth g u : (u < gn g)%nat -> nth u (adj_list g) (0, []) = (gvw g u, gadj g u).
Proof.
  intros H. unfold adj_list. rewrite (nth_indep _ (0, []) ((fun u => (gvw g u, gadj g u)) 0%nat)) by (rewrite map_length, seq_length; lia).
  rewrite (map_nth (fun u => (gvw g u, gadj g u))), seq_nth; auto.
Qed.

(** The header and the lines of a text, as the parser sees them. *)
Lemma metis_text_parts g nw ew text : metis_text g nw ew text ->
  exists vs header body rest,
    header_numbers g nw ew vs /\ text_line vs header /\ text = header ++ newline :: body /\
    forall h, mh_nw h = nw -> mh_ew h = ew -> node_lines h (adj_list g) body rest.
Proof.
  intros (vs & header & lines & H1 & H2 & H3 & H4 & H5). exists vs, header.
  assert (H4' : forall i, (i < length (adj_list g))%nat -> text_line (node_numbers nw ew (fst (nth i (adj_list g) (0, []))) (snd (nth i (adj_list g) (0, [])))) (nth i lines [])).
  { intros i Hi. rewrite adj_list_length in Hi. rewrite adj_list_nth by exact Hi. apply H4; exact Hi. }
  cbv zeta in H5. destruct H5 as [[rest ->]|[Hp E]].
  - eexists _, rest. split; [exact H1|]. split; [exact H2|]. split; [rewrite <- !app_assoc; reflexivity|].
    intros h <- <-. apply lines_full; [rewrite adj_list_length; exact H3|exact H4'].
  - destruct (lines_last {| mh_n := 0; mh_m := 0; mh_nw := nw; mh_ew := ew |} (adj_list g) lines) as (body & Eb & _); cbn [mh_nw mh_ew];
      rewrite ?adj_list_length in *; auto.
    exists body, []. split; [exact H1|]. split; [exact H2|]. split.
    + rewrite Eb in E. rewrite !app_assoc in E. apply app_inj_tail in E. destruct E as [<- _]. rewrite <- !app_assoc. reflexivity.
    + intros h E1 E2. destruct (lines_last h (adj_list g) lines) as (body' & Eb' & Hn); rewrite ?adj_list_length in *; auto.
      { intros i Hi. rewrite E1, E2. apply H4'; auto. }
      rewrite Eb in Eb'. apply app_inj_tail in Eb'. destruct Eb' as [-> _]. exact Hn.
Qed.

Lemma wrap_u_small w x : 0 <= x < 2 ^ w -> wrap_u w x = x.
Proof. intros. unfold wrap_u. now rewrite Z.mod_small. Qed.
Lemma wrap_s_small w x : 1 <= w -> - 2 ^ (w - 1) <= x < 2 ^ (w - 1) -> wrap_s w x = x.
Proof.
  intros Hw H. unfold wrap_s. assert (2 ^ w = 2 * 2 ^ (w - 1)) by (rewrite <- Z.pow_succ_r by lia; f_equal; lia).
  rewrite Z.mod_small; lia.
Qed.

Section Csr.
Variable c : ioconf.
Variable h : metis_header.
Hypothesis Hww : io_ww c <= 64.
Hypothesis Hww1 : 1 <= io_ww c.
Hypothesis Hn : 0 <= mh_n h < 2 ^ io_wn c.
Hypothesis Hm : mh_m h * 2 < 2 ^ io_wi c.

Lemma pow63 : 2 ^ (io_ww c - 1) <= 2 ^ (64 - 1).
Proof. apply Z.pow_le_mono_r; lia. Qed.

Lemma csr_edges : forall adj s (e : nat),
  cs_e s = Z.of_nat e -> Z.of_nat e + Z.of_nat (length adj) <= mh_m h * 2 ->
  (forall v w, In (v, w) adj -> Z.of_nat v < mh_n h /\ 0 <= w < 2 ^ (io_ww c - 1)) ->
  0 <= cs_tew s -> cs_tew s + zsum (map snd adj) < 2 ^ 63 ->
  do_edges csr_st (csr_next_edge c h) s adj =
  Ok {| cs_u := cs_u s; cs_e := Z.of_nat (e + length adj); cs_nodes := cs_nodes s;
        cs_edges := rev (map (fun x => Z.of_nat (fst x)) adj) ++ cs_edges s; cs_nw := cs_nw s;
        cs_ew := (if mh_ew h then rev (map snd adj) else []) ++ cs_ew s;
        cs_tnw := cs_tnw s; cs_tew := cs_tew s + (if mh_ew h then zsum (map snd adj) else 0) |}.
Proof.
  pose proof pow63 as P63.
  induction adj as [|[v w] adj IH]; intros s e Es Hb Hin Ht Ht2.
  - cbn [do_edges length map rev zsum app] in *. rewrite Nat.add_0_r, <- Es. destruct s; cbn.
    destruct (mh_ew h); cbn; rewrite ?Z.add_0_r; reflexivity.
  - cbn [do_edges]. unfold csr_next_edge at 1. cbn [length] in Hb. rewrite Es. replace (Z.of_nat e <? mh_m h * 2) with true by lia.
    cbn [bind]. destruct (Hin v w (or_introl eq_refl)) as [Hv Hw]. cbn [map snd] in Ht2. change (zsum (w :: map snd adj)) with (w + zsum (map snd adj)) in *.
    assert (0 <= zsum (map snd adj)).
    { apply zsum_nonneg. intros x Hx. apply in_map_iff in Hx. destruct Hx as ([v' w'] & <- & Hx). apply (Hin v' w'). right; auto. }
    rewrite (wrap_u_small (io_wn c)) by lia. rewrite (wrap_u_small (io_wi c)) by lia. rewrite (wrap_s_small (io_ww c)) by lia.
    rewrite (wrap_s_small 64) by (change (64 - 1) with 63; lia).
    etransitivity.
    + apply (IH _ (S e)).
      * cbn [cs_e]. lia.
      * lia.
      * intros v' w' Hi. apply Hin. right; auto.
      * cbn [cs_tew]. destruct (mh_ew h); lia.
      * cbn [cs_tew]. destruct (mh_ew h); lia.
    + cbn [cs_u cs_nodes cs_edges cs_nw cs_ew cs_tnw cs_tew length map rev fst snd]. f_equal. f_equal.
      * f_equal; lia.
      * now rewrite <- app_assoc.
      * destruct (mh_ew h); [now rewrite <- app_assoc|reflexivity].
      * change (zsum (w :: map snd adj)) with (w + zsum (map snd adj)). destruct (mh_ew h); lia.
Qed.

Lemma zsum_pos_in l : (forall x, In x l -> 0 <= x) -> 0 <= zsum l.
Proof. apply zsum_nonneg. Qed.

Definition L_ok (l : list (Z * list (nat * Z))) : Prop :=
  forall w adj, In (w, adj) l -> 0 <= w < 2 ^ (io_ww c - 1) /\ forall v x, In (v, x) adj -> Z.of_nat v < mh_n h /\ 0 <= x < 2 ^ (io_ww c - 1).
Lemma csr_nodes : forall l s (u e : nat),
  cs_u s = Z.of_nat u -> cs_e s = Z.of_nat e -> Z.of_nat u + Z.of_nat (length l) <= mh_n h ->
  Z.of_nat e + Z.of_nat (length (concat (map snd l))) <= mh_m h * 2 -> L_ok l ->
  0 <= cs_tew s -> cs_tew s + zsum (map snd (concat (map snd l))) < 2 ^ 63 ->
  0 <= cs_tnw s -> cs_tnw s + zsum (map fst l) < 2 ^ 63 ->
  do_nodes csr_st (csr_next_node c h) (csr_next_edge c h) s l =
  Ok {| cs_u := Z.of_nat (u + length l); cs_e := Z.of_nat (e + length (concat (map snd l)));
        cs_nodes := rev (map Z.of_nat (offs0 e (map snd l))) ++ cs_nodes s;
        cs_edges := rev (map (fun x => Z.of_nat (fst x)) (concat (map snd l))) ++ cs_edges s;
        cs_nw := (if mh_nw h then rev (map fst l) else []) ++ cs_nw s;
        cs_ew := (if mh_ew h then rev (map snd (concat (map snd l))) else []) ++ cs_ew s;
        cs_tnw := cs_tnw s + (if mh_nw h then zsum (map fst l) else 0);
        cs_tew := cs_tew s + (if mh_ew h then zsum (map snd (concat (map snd l))) else 0) |}.
Proof.
  pose proof pow63 as P63.
  induction l as [|[w adj] l IH]; intros s u e Eu Ee Hu He Hok Ht1 Ht2 Ht3 Ht4.
  - cbn [do_nodes length map rev zsum app concat offs0] in *. rewrite !Nat.add_0_r, <- Eu, <- Ee. destruct s; cbn.
    destruct (mh_ew h), (mh_nw h); cbn; rewrite ?Z.add_0_r; reflexivity.
  - destruct (Hok w adj (or_introl eq_refl)) as [Hw Hadj].
    assert (Hok' : L_ok l) by (intros w' adj' Hi; apply Hok; right; exact Hi).
    cbn [map concat fst snd] in *. rewrite map_app, zsum_app in Ht2. rewrite app_length in He. cbn [length] in Hu.
    change (zsum (w :: map fst l)) with (w + zsum (map fst l)) in *.
    assert (N1 : 0 <= zsum (map snd adj)).
    { apply zsum_nonneg. intros x Hx. apply in_map_iff in Hx. destruct Hx as ([v' w'] & <- & Hx). apply (Hadj v' w'). auto. }
    assert (N2 : 0 <= zsum (map snd (concat (map snd l)))).
    { apply zsum_nonneg. intros x Hx. apply in_map_iff in Hx. destruct Hx as ([v' w'] & <- & Hx). apply in_concat in Hx.
      destruct Hx as (a & Ha & Hx). apply in_map_iff in Ha. destruct Ha as ([w0 a'] & <- & Ha). exact (proj1 (proj2 (proj2 (Hok' _ _ Ha) _ _ Hx))). }
    assert (N3 : 0 <= zsum (map fst l)).
    { apply zsum_nonneg. intros x Hx. apply in_map_iff in Hx. destruct Hx as ([w' a'] & <- & Hx). apply (Hok' _ _ Hx). }
    cbn [do_nodes]. unfold csr_next_node at 1. rewrite Eu. replace (Z.of_nat u <? mh_n h + 1) with true by lia.
    replace (Z.of_nat u <? mh_n h) with true by lia. rewrite orb_true_r. cbn [bind].
    rewrite (wrap_u_small (io_wn c)) by lia. rewrite (wrap_s_small (io_ww c)) by lia.
    rewrite (wrap_s_small 64) by (change (64 - 1) with 63; lia).
    rewrite (csr_edges adj _ e); cbn [cs_e cs_tew cs_tnw cs_u cs_nodes cs_edges cs_nw cs_ew]; auto; try lia.
    cbn [bind]. rewrite (IH _ (S u) (e + length adj)%nat); cbn [cs_e cs_tew cs_tnw cs_u cs_nodes cs_edges cs_nw cs_ew]; auto; try lia;
      try (destruct (mh_ew h), (mh_nw h); lia).
    cbn [offs0 map rev length]. f_equal. f_equal.
    + f_equal; lia.
    + rewrite app_length. f_equal; lia.
    + rewrite Ee, <- app_assoc. reflexivity.
    + rewrite map_app, rev_app_distr, <- app_assoc. reflexivity.
    + destruct (mh_nw h); [now rewrite <- app_assoc|reflexivity].
    + destruct (mh_ew h); [now rewrite map_app, rev_app_distr, <- app_assoc|reflexivity].
    + destruct (mh_nw h); lia.
    + destruct (mh_ew h); [rewrite map_app, zsum_app; lia|lia].
Qed.
End Csr.

(** CSR arrays made of rows. *)
Lemma offs0_nth rows : forall e u, (u < length rows)%nat -> nth u (offs0 e rows) 0%nat = (e + length (concat (firstn u rows)))%nat.
Proof.
  induction rows as [|r t IH]; intros e u H; cbn in H; [lia|]. destruct u as [|u]; cbn [offs0 nth firstn concat]; [cbn; lia|].
  rewrite IH by lia. rewrite app_length. lia.
Qed.
Lemma offsets_nth rows e u : (u <= length rows)%nat -> nth u (offsets e rows) 0%nat = (e + length (concat (firstn u rows)))%nat.
Proof.
  intros H. unfold offsets. destruct (Nat.eq_dec u (length rows)) as [->|].
  - rewrite app_nth2; rewrite offs0_length; [|lia]. rewrite Nat.sub_diag, firstn_all. reflexivity.
  - rewrite app_nth1 by (rewrite offs0_length; lia). apply offs0_nth; lia.
Qed.
Lemma concat_row {A} (rows : list (list A)) u d i : (u < length rows)%nat -> (i < length (nth u rows []))%nat ->
  nth (length (concat (firstn u rows)) + i) (concat rows) d = nth i (nth u rows []) d.
Proof.
  revert u. induction rows as [|r t IH]; intros u H Hi; cbn in H; [lia|]. destruct u as [|u]; cbn [firstn concat nth length] in *.
  - cbn. rewrite app_nth1 by lia. reflexivity.
  - rewrite app_length. rewrite app_nth2 by lia. replace (length r + length (concat (firstn u t)) + i - length r)%nat with (length (concat (firstn u t)) + i)%nat by lia.
    apply IH; auto; lia.
Qed.
Lemma concat_firstn_S {A} (rows : list (list A)) : forall u, (u < length rows)%nat ->
  length (concat (firstn (S u) rows)) = (length (concat (firstn u rows)) + length (nth u rows []))%nat.
Proof.
  induction rows as [|r t IH]; intros u H; cbn in H; [lia|]. destruct u as [|u].
  - cbn. rewrite app_nil_r. lia.
  - cbn [nth]. change (firstn (S (S u)) (r :: t)) with (r :: firstn (S u) t). change (firstn (S u) (r :: t)) with (r :: firstn u t).
    cbn [concat]. rewrite !app_length, IH by lia. lia.
Qed.
Lemma rows_adj rows u : (u < length rows)%nat -> forall (f : nat -> Z),
  (forall i, (i < length (nth u rows []))%nat -> f (length (concat (firstn u rows)) + i)%nat = snd (nth i (nth u rows []) (0%nat, 0))) ->
  map (fun e => (nth e (map fst (concat rows)) 0%nat, f e)) (seq (nth u (offsets 0 rows) 0%nat) (nth (S u) (offsets 0 rows) 0%nat - nth u (offsets 0 rows) 0%nat)) = nth u rows [].
Proof.
  intros H f Hf. rewrite !offsets_nth by lia. rewrite concat_firstn_S by lia. cbn [Nat.add].
  replace (length (concat (firstn u rows)) + length (nth u rows []) - length (concat (firstn u rows)))%nat with (length (nth u rows [])) by lia.
  apply (list_ext (0%nat, 0)); [rewrite map_length, seq_length; reflexivity|].
  intros i Hi. rewrite map_length, seq_length in Hi.
  rewrite (nth_indep _ (0%nat, 0) ((fun e => (nth e (map fst (concat rows)) 0%nat, f e)) 0%nat)) by (rewrite map_length, seq_length; lia).
  rewrite (map_nth (fun e => (nth e (map fst (concat rows)) 0%nat, f e))), seq_nth by lia. rewrite Hf by lia.
  assert (E : nth (length (concat (firstn u rows)) + i) (map fst (concat rows)) 0%nat = fst (nth i (nth u rows []) (0%nat, 0))).
  { etransitivity; [exact (map_nth fst (concat rows) (0%nat, 0) _)|]. now rewrite concat_row. }
  rewrite E. now destruct (nth i (nth u rows []) (0%nat, 0)).
Qed.
