(* METIS: the reader returns the described graph; the writer's output describes the graph. *)
From Verif Require Import Lib.Prelude Lib.Slice Spec.Graph Spec.TextFormat Spec.IoBuild Model.VarintModel Model.CompressModel Model.CompressedGraphModel
  Model.CsrModel Model.IoTextModel Proofs.SubgraphBase Proofs.IoTextBase Proofs.IoTextMetis.
Local Open Scope Z_scope.

Section Facts.
Variable g : graph.
Lemma arcs_len : num_arcs g = Z.of_nat (length (concat (map snd (adj_list g)))).
Proof.
  unfold num_arcs, adj_list. rewrite map_map. cbn [snd]. unfold sumn. generalize (seq 0 (gn g)) as l.
  induction l as [|u l IH]; [reflexivity|]. cbn [map concat]. rewrite app_length, Nat2Z.inj_add, <- IH. reflexivity.
Qed.
Lemma arcs_w : arc_weight g = zsum (map snd (concat (map snd (adj_list g)))).
Proof.
  unfold arc_weight, adj_list. rewrite map_map. cbn [snd]. unfold sumn. generalize (seq 0 (gn g)) as l.
  induction l as [|u l IH]; [reflexivity|]. cbn [map concat]. rewrite map_app, zsum_app, <- IH. reflexivity.
Qed.
Lemma nodes_w : total_weight g = zsum (map fst (adj_list g)).
Proof. unfold total_weight, adj_list, sumn. now rewrite map_map. Qed.
Lemma adj_rows u : (u < gn g)%nat -> nth u (map snd (adj_list g)) [] = gadj g u.
Proof.
  intros H. etransitivity; [exact (map_nth snd (adj_list g) (0, []) u)|]. now rewrite adj_list_nth.
Qed.
Lemma vw_nth u : (u < gn g)%nat -> nth u (map fst (adj_list g)) 0 = gvw g u.
Proof.
  intros H. etransitivity; [exact (map_nth fst (adj_list g) (0, []) u)|]. now rewrite adj_list_nth.
Qed.
Lemma in_adj_list w adj : In (w, adj) (adj_list g) -> exists u, (u < gn g)%nat /\ w = gvw g u /\ adj = gadj g u.
Proof.
  unfold adj_list. intros H. apply in_map_iff in H. destruct H as (u & E & H). apply in_seq in H. inversion E. exists u. split; [lia|split; reflexivity].
Qed.
End Facts.

Lemma zsum_in_le l x : (forall y, In y l -> 0 <= y) -> In x l -> x <= zsum l.
Proof.
  induction l as [|a l IH]; intros H Hi; [destruct Hi|]. change (zsum (a :: l)) with (a + zsum l).
  assert (0 <= a) by (apply H; left; auto). assert (0 <= zsum l) by (apply zsum_nonneg; intros; apply H; right; auto).
  destruct Hi as [->|Hi]; [lia|]. assert (x <= zsum l) by (apply IH; auto; intros; apply H; right; auto). lia.
Qed.

Section Read.
Variable c : ioconf.
Variables (g : graph) (nw ew : bool) (text : list Z).
Hypothesis Hc : build_ok c.
Hypothesis He : expressible g nw ew.
Hypothesis Hf : fits_build c g.
Hypothesis Ht : metis_text g nw ew text.
Hypothesis Hp : Z.of_nat (length text) mod io_page c <> 0.

Let hdr : metis_header := {| mh_n := Z.of_nat (gn g); mh_m := num_arcs g / 2; mh_nw := nw; mh_ew := ew |}.
Let l := adj_list g.
Let rows := map snd l.

Lemma arcs_even : num_arcs g / 2 * 2 = num_arcs g.
Proof. destruct He as (_ & _ & E & _). apply Z.even_spec in E. destruct E as [k ->]. rewrite (Z.mul_comm 2 k), Z.div_mul by lia. reflexivity. Qed.

Lemma w_facts : (forall u, (u < gn g)%nat -> 1 <= gvw g u < 2 ^ (io_ww c - 1)) /\
  (forall u v w, (u < gn g)%nat -> In (v, w) (gadj g u) -> 1 <= w < 2 ^ (io_ww c - 1)).
Proof.
  destruct He as (E1 & E2 & E3 & E4), Hf as (F1 & F2 & F3 & F4 & F5). rewrite nodes_w in F4. rewrite arcs_w in F5. split.
  - intros u Hu. split; [apply E2; auto|]. eapply Z.le_lt_trans; [|exact F4]. apply zsum_in_le.
    + intros y Hy. apply in_map_iff in Hy. destruct Hy as ([w a] & <- & Hy). apply in_adj_list in Hy. destruct Hy as (u' & Hu' & -> & _).
      cbn. pose proof (proj1 (E2 u' Hu')). lia.
    + rewrite <- (vw_nth g u Hu). apply nth_In. rewrite map_length, adj_list_length. exact Hu.
  - intros u v w Hu Hi. split; [apply (E1 u v w Hu Hi)|]. eapply Z.le_lt_trans; [|exact F5]. apply zsum_in_le.
    + intros y Hy. apply in_map_iff in Hy. destruct Hy as ([v' w'] & <- & Hy). apply in_concat in Hy. destruct Hy as (a & Ha & Hy).
      apply in_map_iff in Ha. destruct Ha as ([w0 a'] & <- & Ha). apply in_adj_list in Ha. destruct Ha as (u' & Hu' & _ & ->).
      cbn in *. pose proof (E1 u' v' w' Hu' Hy). lia.
    + apply in_map_iff. exists (v, w). split; [reflexivity|]. apply in_concat. exists (gadj g u). split; [|exact Hi].
      rewrite <- (adj_rows g u Hu). apply nth_In. rewrite map_length, adj_list_length. exact Hu.
Qed.

Lemma read_common : exists r0, parse_header c (Z.of_nat (length text)) text = Ok (hdr, r0) /\
  forall (St : Type) next_node next_edge s,
    parse_graph c (Z.of_nat (length text)) St hdr next_node next_edge r0 s = do_nodes St next_node next_edge s l.
Proof.
  pose proof arcs_even as Ev. pose proof w_facts as [W1 W2].
  destruct He as (E1 & E2 & E3 & E4), Hf as (F1 & F2 & F3 & F4 & F5), Hc as (C1 & C2 & C3 & C4 & C5 & C6).
  destruct (metis_text_parts g nw ew text Ht) as (vs & header & body & rest & H1 & H2 & H3 & H4).
  assert (N0 : 0 <= num_arcs g) by (rewrite arcs_len; lia).
  exists body. split.
  - rewrite H3 at 2. rewrite (parse_header_ok c (Z.of_nat (length text)) Hp (Z.of_nat (gn g)) (num_arcs g / 2) ((if nw then 10 else 0) + (if ew then 1 else 0)) vs header body).
    + unfold hdr. f_equal. f_equal. f_equal; destruct nw, ew; reflexivity.
    + destruct H1 as [->|(-> & -> & ->)]; [left; reflexivity|right; split; reflexivity].
    + exact H2.
    + lia.
    + exact F2.
    + lia.
    + lia.
    + lia.
    + apply Z.div_le_mono; lia.
    + destruct nw, ew; lia.
  - intros St next_node next_edge s. eapply (parse_graph_ok c (Z.of_nat (length text)) Hp St hdr next_node next_edge l body rest s).
    + cbn [mh_n hdr]. lia.
    + lia.
    + cbn [mh_n hdr]. unfold l. now rewrite adj_list_length.
    + apply H4; reflexivity.
    + intros i Hi. unfold l in *. rewrite adj_list_length in Hi. rewrite adj_list_nth by exact Hi. unfold node_ok. cbn [fst snd].
      split; [apply W1; exact Hi|]. split; [intros E; exact (proj2 (E2 i Hi) E)|].
      apply Forall_forall. intros [v w] Hi2. unfold edge_ok. cbn [fst snd mh_n mh_ew hdr].
      destruct (E1 i v w Hi Hi2) as (Q1 & Q2 & Q3 & Q4). pose proof (W2 i v w Hi Hi2) as Q5. split; [lia|]. split; [lia|]. split; [lia|exact Q4].
Qed.

Lemma csr_read_ok sorted : exists h, metis_csr_read c text sorted = Ok h /\ same_graph (cg_graph h) g /\
  Z.of_nat (cg_m h) = num_arcs g /\ cg_sorted h = sorted.
Proof.
  destruct read_common as (r0 & Eh & Ep). pose proof arcs_even as Ev. pose proof w_facts as [W1 W2].
  destruct He as (E1 & E2 & E3 & E4), Hf as (F1 & F2 & F3 & F4 & F5), Hc as (C1 & C2 & C3 & C4 & C5 & C6).
  assert (N0 : 0 <= num_arcs g) by (rewrite arcs_len; lia).
  assert (Hne : text <> []). { intros E. rewrite E in Hp. cbn in Hp. apply Hp. reflexivity. }
  assert (P63 : 2 ^ (io_ww c - 1) <= 2 ^ 63) by (apply Z.pow_le_mono_r; lia).
  unfold metis_csr_read. assert (Em : map_file text = Ok text) by (destruct text; [congruence|reflexivity]). rewrite Em. cbn [bind].
  rewrite Eh. cbn [bind]. rewrite Ep. clear Eh Ep.
  assert (Hok : L_ok c hdr l).
  { intros w adj Hi. apply in_adj_list in Hi. destruct Hi as (u & Hu & -> & ->). split; [pose proof (W1 u Hu); lia|].
    intros v x Hi. pose proof (W2 u v x Hu Hi). destruct (E1 u v x Hu Hi) as (Q & _). cbn [mh_n hdr]. lia. }
  assert (Tn : total_weight g = zsum (map fst l)) by apply nodes_w.
  assert (Te : arc_weight g = zsum (map snd (concat rows))) by apply arcs_w.
  assert (La : num_arcs g = Z.of_nat (length (concat rows))) by apply arcs_len.
  assert (Ln : length l = gn g) by apply adj_list_length.
  rewrite (csr_nodes c hdr) with (u := 0%nat) (e := 0%nat); cbn [csr_init cs_u cs_e cs_nodes cs_edges cs_nw cs_ew cs_tnw cs_tew mh_n mh_m mh_nw mh_ew hdr];
    fold rows; auto; try lia.
  cbn [bind Nat.add cs_u cs_e cs_nodes cs_edges cs_nw cs_ew cs_tnw cs_tew mh_n mh_m mh_nw mh_ew hdr]. rewrite Ln, <- La, Ev.
  unfold kassert. rewrite !Z.eqb_refl. rewrite !app_nil_r, !Z.add_0_l. rewrite <- Tn, <- Te.
  assert (T0 : Z.of_nat (gn g) <= total_weight g).
  { rewrite Tn, <- Ln. rewrite <- (map_length fst l). apply zsum_ge_len. intros x Hx. apply in_map_iff in Hx. destruct Hx as ([w a] & <- & Hx).
    apply in_adj_list in Hx. destruct Hx as (u & Hu & -> & _). apply W1; auto. }
  assert (S1 : forall x, In x (map snd (concat rows)) -> 1 <= x).
  { intros x Hx. apply in_map_iff in Hx. destruct Hx as ([v w] & <- & Hx). apply in_concat in Hx. destruct Hx as (a & Ha & Hx).
    apply in_map_iff in Ha. destruct Ha as ([w0 a'] & <- & Ha). apply in_adj_list in Ha. destruct Ha as (u & Hu & _ & ->). apply (W2 u v w Hu Hx). }
  assert (T1 : num_arcs g <= arc_weight g).
  { rewrite La, Te. rewrite <- (map_length snd (concat rows)). apply zsum_ge_len. exact S1. }
  replace ((if nw then total_weight g else 0) <=? 2 ^ (io_ww c - 1) - 1) with true by (destruct nw; lia).
  replace ((if ew then arc_weight g else 0) <=? 2 ^ (io_ww c - 1) - 1) with true by (destruct ew; lia).
  eexists. split; [reflexivity|].
  assert (Pn : 2 ^ (io_ww c - 1) <= 2 ^ (io_wn c - 1)) by (apply Z.pow_le_mono_r; lia).
  assert (Pi : 2 ^ (io_ww c - 1) <= 2 ^ (io_wi c - 1)) by (apply Z.pow_le_mono_r; lia).
  assert (Pn2 : 2 ^ io_wn c = 2 * 2 ^ (io_wn c - 1)) by (rewrite <- Z.pow_succ_r by lia; f_equal; lia).
  assert (Pi2 : 2 ^ io_wi c = 2 * 2 ^ (io_wi c - 1)) by (rewrite <- Z.pow_succ_r by lia; f_equal; lia).
  assert (Pn0 : 1 <= 2 ^ (io_wn c - 1)) by (pose proof (Z.pow_pos_nonneg 2 (io_wn c - 1)); lia).
  set (vwl := if nw && _ then [] else rev (if nw then rev (map fst l) else [])).
  set (ewl := if ew && _ then [] else rev (if ew then rev (map snd (concat rows)) else [])).
  assert (Env : map Z.to_nat (rev (num_arcs g :: rev (map Z.of_nat (offs0 0 rows)))) = offsets 0 rows).
  { cbn [rev]. rewrite rev_involutive, map_app, map_map. cbn [map]. rewrite La, Nat2Z.id. unfold offsets. f_equal.
    rewrite <- (map_id (offs0 0 rows)) at 2. apply map_ext. intros; apply Nat2Z.id. }
  assert (Eed : map Z.to_nat (rev (rev (map (fun x : nat * Z => Z.of_nat (fst x)) (concat rows)))) = map fst (concat rows)).
  { rewrite rev_involutive, map_map. apply map_ext. intros; apply Nat2Z.id. }
  rewrite Env, Eed.
  (* node weights *)
  assert (Lr : length rows = gn g) by (unfold rows; now rewrite map_length).
  set (G := cg_make _ _ _ _ _).
  assert (En : cg_n G = gn g). { unfold G, cg_n, cg_make. cbn [cg_nodes sa_make sa_size]. rewrite offsets_length, Lr. lia. }
  assert (Emm : cg_m G = length (concat rows)). { unfold G, cg_m, cg_make. cbn [cg_edges]. now rewrite map_length. }
  split; [|split; [rewrite Emm; lia|reflexivity]].
  assert (Vw : forall u, (u < gn g)%nat -> cg_node_weight G u = gvw g u).
  { intros u Hu. unfold cg_node_weight, cg_is_node_weighted. rewrite En.
    assert (Et : cg_total_node_weight G = if (length vwl =? 0)%nat then Z.of_nat (gn g) else zsum vwl).
    { unfold G, cg_make, sa_list. cbn [cg_total_node_weight sa_make sa_size sa_data]. rewrite firstn_all, offsets_length, Lr.
      replace (S (gn g) - 1)%nat with (gn g) by lia. reflexivity. }
    rewrite Et. unfold vwl. destruct nw.
    - cbn [andb]. rewrite wrap_u_small by lia. rewrite rev_involutive.
      destruct (Z.eqb_spec (total_weight g + 1) (Z.of_nat (gn g) + 1)) as [Eq|Ne].
      + cbn [length Nat.eqb]. rewrite Z.eqb_refl. cbn [negb].
        assert (R : map fst l = repeat 1 (length (map fst l))).
        { apply zsum_eq_len; [|rewrite <- Tn, map_length, Ln; lia]. intros x Hx. apply in_map_iff in Hx. destruct Hx as ([w a] & <- & Hx).
          apply in_adj_list in Hx. destruct Hx as (u' & Hu' & -> & _). apply W1; auto. }
        rewrite <- (vw_nth g u Hu). fold l. rewrite R, map_length, Ln. symmetry.
        rewrite (nth_indep _ 0 1) by (rewrite repeat_length; lia). apply nth_repeat.
      + rewrite map_length, Ln. destruct (Nat.eqb_spec (gn g) 0) as [Z0|_]; [lia|]. rewrite <- Tn.
        replace (Z.of_nat (gn g) =? total_weight g) with false by (symmetry; apply Z.eqb_neq; lia). cbn [negb].
        unfold sa_get, G, cg_make. cbn [cg_node_weights sa_make sa_data]. unfold vwl. cbn [andb].
        rewrite wrap_u_small by lia. replace (total_weight g + 1 =? Z.of_nat (gn g) + 1) with false by (symmetry; apply Z.eqb_neq; lia).
        rewrite rev_involutive. apply vw_nth; exact Hu.
    - cbn [andb rev length Nat.eqb]. rewrite Z.eqb_refl. cbn [negb]. symmetry. apply E2; auto. }
  split; [exact En|]. cbn [cg_graph gn gadj gvw]. rewrite En. intros u Hu. split; [|apply Vw; exact Hu].
  unfold cg_adjacent_nodes. change (cg_nodes G) with (sa_make (offsets 0 rows)). unfold sa_get. cbn [sa_make sa_data].
  change (cg_edges G) with (map fst (concat rows)).
  assert (Rw : nth u rows [] = gadj g u) by (apply adj_rows; exact Hu).
  etransitivity; [|exact Rw]. apply rows_adj; [lia|].
  intros i Hi. rewrite Rw in *.
  assert (Hin : In (nth i (gadj g u) (0%nat, 0)) (gadj g u)) by (apply nth_In; exact Hi).
  unfold cg_edge_weight, cg_is_edge_weighted. rewrite Emm, <- La.
  assert (Et : cg_total_edge_weight G = match ewl with [] => num_arcs g | _ => zsum ewl end).
  { unfold G, cg_make. cbn [cg_total_edge_weight]. rewrite map_length, <- La. reflexivity. }
  assert (Hpos : (0 < length (concat rows))%nat).
  { assert (Q : (length (gadj g u) <= length (concat rows))%nat); [|lia].
    rewrite <- Rw. clear - Hu Lr. revert u Hu. rewrite <- Lr. generalize rows as rs. induction rs as [|r t IH]; intros u Hu; cbn in Hu; [lia|].
    destruct u as [|u]; cbn [nth concat]; rewrite app_length; [lia|]. specialize (IH u ltac:(lia)). lia. }
  assert (Wc : nth (length (concat (firstn u rows)) + i) (map snd (concat rows)) 0 = snd (nth i (gadj g u) (0%nat, 0))).
  { etransitivity; [exact (map_nth snd (concat rows) (0%nat, 0) _)|]. rewrite concat_row; rewrite ?Rw; auto; lia. }
  rewrite Et. unfold ewl. destruct ew.
  - cbn [andb]. rewrite wrap_u_small by lia. rewrite rev_involutive.
    destruct (Z.eqb_spec (arc_weight g) (num_arcs g)) as [Eq|Ne].
    + rewrite Z.eqb_refl. cbn [negb].
      assert (R : map snd (concat rows) = repeat 1 (length (map snd (concat rows)))).
      { apply zsum_eq_len; [exact S1|]. rewrite <- Te, map_length; lia. }
      rewrite <- Wc, R, map_length.
      assert (B : (length (concat (firstn u rows)) + i < length (concat rows))%nat).
      { pose proof (concat_firstn_S rows u ltac:(lia)) as Q. rewrite Rw in Q.
        assert (Q2 : (length (concat (firstn (S u) rows)) <= length (concat rows))%nat).
        { rewrite <- (firstn_skipn (S u) rows) at 2. rewrite concat_app, app_length. lia. }
        lia. }
      rewrite (nth_indep _ 0 1) by (rewrite repeat_length; lia). symmetry. apply nth_repeat.
    + destruct (map snd (concat rows)) as [|x t] eqn:Es; [apply (f_equal (@length Z)) in Es; rewrite map_length in Es; cbn in Es; lia|].
      rewrite <- Te. replace (num_arcs g =? arc_weight g) with false by (symmetry; apply Z.eqb_neq; lia). cbn [negb].
      change (cg_edge_weights G) with ewl. unfold ewl. cbn [andb]. rewrite wrap_u_small by lia.
      replace (arc_weight g =? num_arcs g) with false by (symmetry; apply Z.eqb_neq; lia). rewrite rev_involutive. exact Wc.
  - cbn [andb rev]. rewrite Z.eqb_refl. cbn [negb]. destruct (nth i (gadj g u) (0%nat, 0)) as [v w] eqn:En2. cbn [snd].
    symmetry. destruct (E1 u v w Hu Hin) as (_ & _ & _ & Q). apply Q; reflexivity.
Qed.

(** compress_read. *)
Lemma comp_edges : forall adj s, do_edges comp_st comp_next_edge s adj =
  Ok {| co_node := co_node s; co_cur := rev (map (fun e => (Z.of_nat (fst e), snd e)) adj) ++ co_cur s; co_nbs := co_nbs s; co_nw := co_nw s |}.
Proof.
  induction adj as [|[v w] adj IH]; intros s; [destruct s; reflexivity|]. cbn [do_edges comp_next_edge bind]. rewrite IH.
  cbn [co_node co_cur co_nbs co_nw map rev fst snd]. now rewrite <- app_assoc.
Qed.
Definition znb (adj : list (nat * Z)) : list nbr := map (fun e => (Z.of_nat (fst e), snd e)) adj.
Lemma comp_nodes h : forall ls s a, co_node s = a -> 1 <= a ->
  do_nodes comp_st (comp_next_node h) comp_next_edge s ls =
  Ok {| co_node := a + Z.of_nat (length ls);
        co_cur := match rev ls with [] => co_cur s | x :: _ => rev (znb (snd x)) end;
        co_nbs := match rev ls with [] => co_nbs s | _ :: t => map (fun x => znb (snd x)) t ++ rev (co_cur s) :: co_nbs s end;
        co_nw := (if mh_nw h then rev (map fst ls) else []) ++ co_nw s |}.
Proof.
  induction ls as [|[w adj] ls IH]; intros s a Ea Ha.
  - cbn [do_nodes rev length map app]. rewrite Z.add_0_r, <- Ea. destruct s; cbn. destruct (mh_nw h); reflexivity.
  - cbn [do_nodes]. unfold comp_next_node at 1. rewrite Ea. replace (0 <? a) with true by lia. cbn [bind].
    rewrite comp_edges. cbn [bind co_node co_cur co_nbs co_nw]. rewrite (IH _ (a + 1)) by (cbn; lia). cbn [co_node co_cur co_nbs co_nw].
    rewrite app_nil_r. cbn [rev length map fst snd]. destruct (rev ls) as [|x t] eqn:Er.
    + cbn [app]. assert (ls = []) as -> by (rewrite <- (rev_involutive ls), Er; reflexivity). cbn. f_equal. f_equal; [lia|]. destruct (mh_nw h); reflexivity.
    + cbn [app]. f_equal. f_equal; [lia| |].
      * rewrite map_app. cbn [map]. rewrite <- app_assoc. cbn [app]. f_equal. unfold znb. cbn [snd]. now rewrite rev_involutive.
      * destruct (mh_nw h); [now rewrite <- app_assoc|reflexivity].
Qed.
Lemma compress_read_ok cc sort : (0 < gn g)%nat -> metis_compress_read c cc sort text =
  Ok (cgr_build (cc ew) sort (num_arcs g) (map (fun u => znb (gadj g u)) (seq 0 (gn g)))
        (if nw then Some (map (gvw g) (seq 0 (gn g))) else None)).
Proof.
  intros Hpos. destruct read_common as (r0 & Eh & Ep). pose proof arcs_even as Ev.
  assert (Hne : text <> []). { intros E. rewrite E in Hp. cbn in Hp. apply Hp. reflexivity. }
  unfold metis_compress_read. assert (Em : map_file text = Ok text) by (destruct text; [congruence|reflexivity]). rewrite Em. cbn [bind].
  rewrite Eh. cbn [bind]. rewrite Ep. clear Eh Ep.
  assert (Rows : map (fun u => znb (gadj g u)) (seq 0 (gn g)) = map (fun x => znb (snd x)) l) by (unfold l, adj_list; now rewrite map_map).
  assert (Wts : map (gvw g) (seq 0 (gn g)) = map fst l) by (unfold l, adj_list; now rewrite map_map).
  rewrite Rows, Wts. assert (Ln : length l = gn g) by apply adj_list_length.
  destruct l as [|[w adj] ls] eqn:El; [cbn in Ln; lia|].
  cbn [do_nodes]. unfold comp_next_node at 1. cbn [co_node co_cur co_nbs co_nw]. change (0 <? 0) with false. cbn [bind].
  rewrite comp_edges. cbn [bind co_node co_cur co_nbs co_nw]. rewrite (comp_nodes hdr ls _ 1) by (cbn; lia). cbn [bind co_node co_cur co_nbs co_nw mh_ew mh_nw mh_m hdr].
  replace (1 + Z.of_nat (length ls) =? 0) with false by lia. rewrite Ev. f_equal. f_equal.
  - cbn [map snd]. destruct (rev ls) as [|x t] eqn:Er.
    + assert (ls = []) as -> by (rewrite <- (rev_involutive ls), Er; reflexivity). cbn. rewrite app_nil_r, rev_involutive. reflexivity.
    + rewrite app_nil_r. cbn [rev]. rewrite !rev_app_distr, !rev_involutive. cbn [rev app]. unfold znb at 1. rewrite <- map_rev.
      assert (E : ls = rev t ++ [x]) by (rewrite <- (rev_involutive ls), Er; reflexivity). rewrite E, map_app. reflexivity.
  - destruct nw; [|reflexivity]. cbn [map fst rev]. rewrite ?app_nil_r. rewrite ?rev_app_distr, ?rev_involutive. reflexivity.
Qed.
End Read.

(** The writer. *)
Lemma dec_loop_ok : forall fuel v acc, 0 <= v -> v < 2 ^ Z.of_nat fuel -> (0 < fuel)%nat ->
  exists d, dec_loop fuel v acc = d ++ acc /\ decimal v d.
Proof.
  induction fuel as [|f IH]; intros v acc H0 H1 H2; [lia|]. cbn [dec_loop].
  pose proof (Z.mod_pos_bound v 10 ltac:(lia)) as Mb.
  destruct (Z.eqb_spec (v / 10) 0) as [E|E].
  - exists [ch_0 + v mod 10]. split; [reflexivity|]. pose proof (Z.div_mod v 10 ltac:(lia)) as Dm. split; [discriminate|]. split.
    + constructor; [unfold digit, ch_0; lia|constructor].
    + cbn [fold_left]. unfold ch_0. lia.
  - assert (0 <= v / 10) by (apply Z.div_pos; lia).
    assert (Hf : v / 10 < 2 ^ Z.of_nat f).
    { apply Z.div_lt_upper_bound; [lia|]. rewrite Nat2Z.inj_succ, Z.pow_succ_r in H1 by lia. lia. }
    assert (F0 : (0 < f)%nat). { destruct f; [|lia]. cbn in Hf. lia. }
    destruct (IH (v / 10) ((ch_0 + v mod 10) :: acc) ltac:(lia) Hf F0) as (d & -> & Hd & Hdig & Hv).
    exists (d ++ [ch_0 + v mod 10]). split; [now rewrite <- app_assoc|]. split; [destruct d; discriminate|]. split.
    + apply Forall_app. split; [exact Hdig|]. constructor; [unfold digit, ch_0; lia|constructor].
    + rewrite fold_left_app, Hv. cbn [fold_left]. unfold ch_0. pose proof (Z.div_mod v 10 ltac:(lia)). lia.
Qed.
Lemma dec_ok v : 0 <= v -> decimal v (dec v).
Proof.
  intros H. unfold dec. replace (v <? 0) with false by lia.
  destruct (dec_loop_ok (Z.to_nat (Z.log2 v) + 1) v [] H) as (d & -> & Hd).
  - rewrite Nat2Z.inj_add, Z2Nat.id by apply Z.log2_nonneg. change (Z.of_nat 1) with 1. destruct (Z.eq_dec v 0) as [->|]; [reflexivity|].
    apply Z.log2_spec. lia.
  - lia.
  - now rewrite app_nil_r.
Qed.

Lemma numbers_trail vs : Forall (fun v => 0 <= v) vs -> numbers vs (concat (map (fun v => dec v ++ [ch_sp]) vs)).
Proof.
  induction vs as [|v vs IH]; intros H; [constructor|]. inversion_clear H as [|? ? Hv Hvs]. specialize (IH Hvs). destruct vs as [|v' vs].
  - cbn [map concat]. rewrite app_nil_r. exact (numbers_one v (dec v) 1 (dec_ok v Hv)).
  - cbn [map concat] in *. rewrite <- app_assoc. exact (numbers_cons v (dec v) 0 v' vs _ (dec_ok v Hv) IH).
Qed.
Lemma text_line_plain vs t : numbers vs t -> text_line vs t.
Proof. intros H. exists [], 0%nat, t. split; [constructor|]. split; [exact H|reflexivity]. Qed.

Lemma write_ok c g : let gr := cg_graph g in let nw := cg_is_node_weighted g in let ew := cg_is_edge_weighted g in
  (forall u v w, (u < gn gr)%nat -> In (v, w) (gadj gr u) -> (v < gn gr)%nat /\ 1 <= w) ->
  (forall u, (u < gn gr)%nat -> 1 <= gvw gr u) -> Z.of_nat (gn gr) < 2 ^ io_wn c -> Z.of_nat (cg_m g) = num_arcs gr ->
  metis_text gr nw ew (metis_write c g).
Proof.
  intros gr nw ew H1 H2 H3 H4. unfold metis_text.
  exists (if nw || ew then [Z.of_nat (gn gr); num_arcs gr / 2; (if nw then 10 else 0) + (if ew then 1 else 0)] else [Z.of_nat (gn gr); num_arcs gr / 2]).
  exists (dec (Z.of_nat (cg_n g)) ++ [ch_sp] ++ dec (Z.of_nat (cg_m g) / 2) ++
     (if nw || ew then [ch_sp] ++ (if nw then [ch_1] else []) ++ [if ew then ch_1 else ch_0] else [])).
  exists (map (fun u => removelast (write_node c g u)) (seq 0 (cg_n g))).
  assert (Hm : 0 <= num_arcs gr / 2) by (apply Z.div_pos; lia).
  split; [|split; [|split; [|split]]].
  - unfold header_numbers. destruct nw, ew; cbn [orb]; auto.
  - apply text_line_plain. rewrite H4. change (cg_n g) with (gn gr).
    assert (D : forall x t, decimal x t -> numbers [x] t) by (intros x t Hx; rewrite <- (app_nil_r t); exact (numbers_one x t 0 Hx)).
    destruct nw, ew; cbn [orb app];
      try (apply (numbers_cons _ _ 0); [apply dec_ok; lia|]; apply (numbers_cons _ _ 0); [apply dec_ok; lia|]; apply D);
      try (apply (numbers_cons _ _ 0); [apply dec_ok; lia|]; rewrite ?app_nil_r; apply D; apply dec_ok; lia).
    all: split; [discriminate|split; [repeat constructor; cbv; discriminate|reflexivity]].
  - now rewrite map_length, seq_length.
  - intros u Hu.
    assert (E : nth u (map (fun u => removelast (write_node c g u)) (seq 0 (cg_n g))) [] = removelast (write_node c g u)).
    { change (cg_n g) with (gn gr). rewrite (nth_indep _ [] ((fun u => removelast (write_node c g u)) 0%nat)) by (rewrite map_length, seq_length; lia).
      rewrite (map_nth (fun u => removelast (write_node c g u))), seq_nth; auto. }
    rewrite E. apply text_line_plain. unfold write_node. rewrite app_assoc, removelast_last.
    fold nw ew.
    assert (EQ : (if nw then dec (cg_node_weight g u) ++ [ch_sp] else []) ++
       concat (map (fun vw : nat * Z => dec (wrap_u (io_wn c) (Z.of_nat (fst vw) + 1)) ++ [ch_sp] ++ (if ew then dec (snd vw) ++ [ch_sp] else [])) (cg_adjacent_nodes g u)) =
       concat (map (fun v => dec v ++ [ch_sp]) (node_numbers nw ew (gvw gr u) (gadj gr u)))).
    { unfold node_numbers. rewrite map_app, concat_app. f_equal.
      - destruct nw; [cbn; now rewrite app_nil_r|reflexivity].
      - change (cg_adjacent_nodes g u) with (gadj gr u).
        assert (Hin : forall e, In e (gadj gr u) -> (fst e < gn gr)%nat) by (intros [v w] Hi; apply (H1 u v w Hu Hi)).
        revert Hin. generalize (gadj gr u) as adj. clear - H3. induction adj as [|[v w] adj IH]; intros Hin; [reflexivity|].
        cbn [map concat fst snd]. rewrite IH by (intros e He; apply Hin; right; exact He).
        rewrite wrap_u_small by (pose proof (Hin (v, w) (or_introl eq_refl)); cbn in *; lia).
        destruct ew; cbn [app map concat]; repeat (rewrite <- !app_assoc; cbn [app]); reflexivity. }
    rewrite EQ. apply numbers_trail. unfold node_numbers. apply Forall_app. split.
    + destruct nw; constructor; [|constructor]. pose proof (H2 u Hu). lia.
    + apply Forall_forall. intros x Hx. apply in_concat in Hx. destruct Hx as (y & Hy & Hx). apply in_map_iff in Hy.
      destruct Hy as ([v w] & <- & Hi). cbn [fst snd] in Hx. pose proof (H1 u v w Hu Hi) as [Q1 Q2]. destruct Hx as [<-|Hx]; [lia|].
      destruct ew; [|destruct Hx]. destruct Hx as [<-|[]]. lia.
  - cbv zeta. left. exists []. rewrite app_nil_r. unfold metis_write. fold nw ew. rewrite <- !app_assoc. do 3 f_equal.
    f_equal. cbn [app]. f_equal.
    rewrite map_map. f_equal. apply map_ext. intros u. unfold write_node. rewrite app_assoc, removelast_last. reflexivity.
Qed.
