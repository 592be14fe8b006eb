(* extend_partition_recursive refines recursive bipartitioning on induced subgraphs. *)
From Verif Require Import Lib.Prelude Lib.Slice Spec.Induced Spec.ExtendSpec Spec.Level Model.MathModel Model.PartUtilsModel Model.CsrModel Model.SubgraphModel Model.ExtendModel
  Proofs.PartUtilsProofs Proofs.SubgraphBase Proofs.SubgraphFill Proofs.FinalK Proofs.SubgraphPar Proofs.SubgraphSeq Proofs.ExtendBase.

Section Rec.
Variables (ub : N) (bip : lgraph -> nat -> nat -> list nat) (k gar : nat) (garz : Z).
Hypothesis Hbip : bipartitioner bip.

Theorem ext_rec_ok : forall fuel num l abs F g mem v part rel npos epos,
  num <= fuel -> 2 <= num -> tree_pos ub l k abs num F -> lg_ok g -> read_view mem v = Some g ->
  fits (lg_is_nw g) (lg_is_ew g) npos (length g + F) epos (lg_m g) mem ->
  cnt rel part = length g -> (forall x, In x part -> x <= rel \/ rel + num <= x) ->
  exists mem', ext_rec fuel ub bip k gar garz mem v part rel abs num (2 ^ l) npos epos =
      Some (mem', relabel part rel (rb_labels fuel bip g abs (2 ^ l) num)) /\
    frame npos (length g + F) epos (lg_m g) mem mem'.
Proof.
  induction fuel as [|f IH]; intros num l abs F g mem v part rel npos epos Hf Hn T Hok Rv Fits Hc Hp; [lia|].
  assert (HF := tree_pos_le _ _ _ _ _ _ T). assert (T0 := T). destruct T0 as (T1 & T2 & T3 & T4 & _).
  cbn [ext_rec]. rewrite Rv. rewrite split_nat_eq. destruct (Hbip g abs (2 ^ l)) as [Lside Hside].
  set (side := bip g abs (2 ^ l)) in *.
  assert (A := half_sum num). assert (B := half_up num). assert (C := half_dn num).
  set (k0 := (num + 1) / 2) in *. set (k1 := num / 2) in *.
  rewrite copy_labels_ok by lia. fold (cut side k0).
  destruct (abs_children_ok l k abs T1 T2 T3) as (a0 & a1 & Ea & Ha). rewrite Ea, T4. rewrite split_nat_eq.
  set (g0 := induced (members side 0) g). set (g1 := induced (members side 1) g).
  set (L0 := rb_labels f bip g0 (2 * abs) (2 ^ S l) k0).
  set (L1 := rb_labels f bip g1 (2 * abs + 1) (2 ^ S l) k1).
  assert (Erb : rb_labels (S f) bip g abs (2 ^ l) num = merge_labels side L0 (map (Nat.add k0) L1)).
  { cbn [rb_labels]. destruct (Nat.leb_spec num 1); [lia|]. reflexivity. }
  assert (LL0 : length L0 = cnt 0 side) by (unfold L0; rewrite rb_length by auto; unfold g0; rewrite induced_length, cnt_members; auto).
  assert (LL1 : length L1 = cnt 1 side) by (unfold L1; rewrite rb_length by auto; unfold g1; rewrite induced_length, cnt_members; auto).
  assert (HL0 : forall x, In x L0 -> x < k0) by (intros x; unfold L0; apply rb_range; auto; lia).
  assert (Em : relabel (relabel (relabel part rel (cut side k0)) rel L0) (rel + k0) L1 = relabel part rel (rb_labels (S f) bip g abs (2 ^ l) num)).
  { rewrite Erb. apply relabel_merge with (k1 := k1); auto; try lia. intros x Hx. apply Hp in Hx. lia. }
  destruct (Nat.ltb_spec 2 num) as [Hn2|Hn2].
  - destruct (tree_pos_children _ _ _ _ _ _ T Hn2) as (Hk2 & Tc0 & Tc1).
    destruct (Ha Hk2) as [-> ->].
    assert (AF := half_sum F). assert (BF := half_up F). assert (CF := half_dn F).
    set (f0 := (F + 1) / 2) in *. set (f1 := F / 2) in *. fold k0 in Tc0. fold k1 in Tc1.
    assert (Fits' : fits (lg_is_nw g) (lg_is_ew g) npos (length g + (f0 + f1)) epos (lg_m g) mem) by (rewrite AF; exact Fits).
    destruct (extract_seq_ok g side f0 f1 npos epos gar garz mem) as (mem1 & Ex & Fr1 & R0 & R1 & Hm); auto; try lia.
    cbn zeta in Ex. fold g0 g1 in Ex, R0, R1, Hm. rewrite Ex. rewrite AF in Fr1.
    assert (Lg0 : length g0 = length (members side 0)) by apply induced_length.
    assert (Lg1 : length g1 = length (members side 1)) by apply induced_length.
    assert (Tn := members_total side Hside). rewrite Lside in Tn.
    assert (Hlt : forall b u, In u (members side b) -> u < length g).
    { intros b u Hu. rewrite <- Lside. eapply members_lt; eauto. }
    assert (Ok0 : lg_ok g0) by (apply induced_ok; auto; apply Hlt).
    assert (Ok1 : lg_ok g1) by (apply induced_ok; auto; apply Hlt).
    assert (Z1 := proj1 Fr1). apply (fits_sizes _ _ _ _ _ _ _ _ Z1) in Fits.
    assert (Fit0 : fits (lg_is_nw g0) (lg_is_ew g0) npos (length g0 + f0) epos (lg_m g0) mem1).
    { eapply fits_sub; [exact Fits| | |lia|lia]; [apply induced_nw|apply induced_ew]; auto; apply Hlt. }
    rewrite next_k_eq. replace (Nat.min (2 ^ l * 2) k) with (2 ^ S l) by (rewrite Nat.pow_succ_r'; lia).
    cbn [v_ns v_es].
    destruct (Nat.leb_spec k0 1) as [Hk0|Hk0]; [lia|].
    destruct (IH k0 (S l) (2 * abs) f0 g0 mem1 (View npos (length g0) epos (lg_m g0) (lg_is_nw g) (lg_is_ew g))
                (relabel part rel (cut side k0)) rel npos epos) as (mem2 & E2 & Fr2); auto; try lia.
    { rewrite cnt_relabel_cut0 by (auto; lia). rewrite cnt_members. lia. }
    { intros x Hx. apply relabel_in in Hx. destruct Hx as [Hx|(y & Hy & ->)]; [apply Hp in Hx; lia|].
      destruct Hy as [Hy| ->]; [|lia]. unfold cut in Hy. apply in_map_iff in Hy. destruct Hy as (s & <- & _). destruct (s =? 0); lia. }
    rewrite E2. fold L0.
    assert (Fr2' : frame npos (length g + F) epos (lg_m g) mem1 mem2) by (eapply frame_weaken; [exact Fr2|lia..]).
    assert (R1' : read_view mem2 (View (npos + length g0 + f0) (length g1) (epos + lg_m g0) (lg_m g1) (lg_is_nw g) (lg_is_ew g)) = Some g1).
    { rewrite (read_view_frame _ _ _ _ _ _ _ Fr2); auto; cbn [v_ns v_n v_es v_m]; lia. }
    destruct (Nat.leb_spec k1 1) as [Hk1|Hk1].
    + exists mem2. split.
      * do 2 f_equal. rewrite <- Em. symmetry. replace L1 with (repeat 0 (length g1)); [apply relabel_zeros|].
        unfold L1. destruct f; cbn [rb_labels]; auto. destruct (Nat.leb_spec k1 1); auto. lia.
      * eapply frame_trans; eauto.
    + destruct (IH k1 (S l) (2 * abs + 1) f1 g1 mem2 (View (npos + length g0 + f0) (length g1) (epos + lg_m g0) (lg_m g1) (lg_is_nw g) (lg_is_ew g))
                (relabel (relabel part rel (cut side k0)) rel L0) (rel + k0) (npos + length g0 + f0) (epos + lg_m g0)) as (mem3 & E3 & Fr3); auto; try lia.
      { apply (fits_sizes _ _ _ _ _ _ _ _ (proj1 Fr2)).
        eapply fits_sub; [exact Fits| | |lia|lia]; [apply induced_nw|apply induced_ew]; auto; apply Hlt. }
      { rewrite (cnt_relabel_cut1 rel k0 k1) by (auto; try lia; intros x Hx; apply Hp in Hx; lia). rewrite cnt_members. lia. }
      { intros x Hx. apply relabel_in in Hx. destruct Hx as [Hx|(y & Hy & ->)].
        - apply relabel_in in Hx. destruct Hx as [Hx|(y & Hy & ->)]; [apply Hp in Hx; lia|].
          destruct Hy as [Hy| ->]; [|lia]. unfold cut in Hy. apply in_map_iff in Hy. destruct Hy as (s & <- & _). destruct (s =? 0); lia.
        - destruct Hy as [Hy| ->]; [|lia]. apply HL0 in Hy. lia. }
      exists mem3. split.
      * rewrite E3. fold L1. now rewrite Em.
      * eapply frame_trans; [exact Fr1|]. eapply frame_trans; [exact Fr2'|]. eapply frame_weaken; [exact Fr3|lia..].
  - exists mem. split; [|apply frame_refl].
    do 2 f_equal. rewrite <- Em. assert (k0 = 1 /\ k1 = 1) as [K0 K1] by lia.
    replace L0 with (repeat 0 (length g0)).
    2:{ unfold L0. destruct f; cbn [rb_labels]; auto. destruct (Nat.leb_spec k0 1); auto. lia. }
    replace L1 with (repeat 0 (length g1)).
    2:{ unfold L1. destruct f; cbn [rb_labels]; auto. destruct (Nat.leb_spec k1 1); auto. lia. }
    now rewrite !relabel_zeros.
Qed.
End Rec.
