(* Reading a ParHIP file with the nodes rearranged by degree buckets. *)
From Verif Require Import Lib.Prelude Lib.Slice Lib.Count Spec.Graph Spec.TextFormat Spec.BinFormat Spec.BinBuild Model.MathModel Model.VarintModel Model.CompressModel
  Model.CompressedGraphModel Model.CsrModel Model.PermModel Model.IoTextModel Model.IoBinModel Proofs.CsrProofs Proofs.SubgraphBase Proofs.PermProofs
  Proofs.IoTextMetis Proofs.IoTextTop Proofs.IoTextRound Proofs.IoBinBase.
Local Open Scope nat_scope.

Lemma degree_perm conc xadj : 0 < conc -> (forall u, u < length xadj - 1 -> (N.of_nat (degree_of xadj u) < 2 ^ 31)%N) ->
  let n := length xadj - 1 in
  exists o2n n2o, permutation_by_degree_buckets conc xadj = (o2n, n2o) /\ length o2n = n /\
    maps_into n n (fun u => nth u o2n 0) /\ injn n (fun u => nth u o2n 0) /\
    (forall u, u < n -> nth (nth u o2n 0) n2o 0 = u) /\ (forall u, u < n -> nth (nth u n2o 0) o2n 0 = u /\ nth u n2o 0 < n) /\
    (forall xadj', length xadj' = S n -> (forall u, u < n -> degree_of xadj' u = degree_of xadj (nth u n2o 0)) ->
       exists n', sorted_by_degree_class xadj' n').
Proof.
  intros Hc Hd31 n. set (fb := fun u => placement_bucket (nth (S u) xadj 0 - nth u xadj 0)).
  assert (forall u, u < n -> fb u < num_degree_buckets) as Hfb by (intros u Hu; apply placement_lt; apply (Hd31 u Hu)).
  destruct (permutation_is_rank conc n num_degree_buckets fb Hc Hfb) as (PL & PN & PI).
  unfold permutation_by_degree_buckets. fold n. fold fb.
  destruct (permutation_by_buckets conc n num_degree_buckets fb) as [o2n n2o]. cbn [fst snd] in PL, PN, PI.
  subst n2o. set (n2o := invert_permutation n o2n). exists o2n, n2o. split; [reflexivity|]. split; [exact PL|].
  assert (maps_into n n (fun u => nth u o2n 0)) as M1.
  { intros u Hu. cbv beta. rewrite PN by auto. apply bucket_rank_lt; auto. }
  assert (injn n (fun u => nth u o2n 0)) as I1.
  { intros u v Hu Hv E. cbv beta in E. rewrite !PN in E by auto. apply (bucket_rank_inj fb n); auto. }
  destruct (invert_spec n o2n PL M1 I1) as [L2 V1]. fold n2o in L2, V1.
  assert (forall u, u < n -> nth (nth u n2o 0) o2n 0 = u /\ nth u n2o 0 < n) as V2.
  { intros y Hy. destruct (inj_surj n _ M1 I1 y Hy) as (x & Hx & <-). cbv beta. rewrite V1; auto. }
  assert (maps_into n n (fun u => nth u n2o 0)) as M2 by (intros u Hu; apply V2; auto).
  split; [exact M1|]. split; [exact I1|]. split; [exact V1|]. split; [exact V2|].
  intros xadj' B4 Hdeg. set (f := fun u => fb (nth u n2o 0)). exists (cnt (fun u => f u <? 32) (seq 0 n)).
  assert (forall u v, u <= v < n -> f u <= f v) as Hmono.
  { intros u v Huv. unfold f. apply (bucket_rank_mono_iff fb n); try (apply M2; lia).
    rewrite <- !PN by (apply M2; lia). rewrite (proj1 (V2 u ltac:(lia))), (proj1 (V2 v ltac:(lia))). lia. }
  assert (cnt (fun u => f u <? 32) (seq 0 n) <= n) as Hcn.
  { etransitivity; [apply cnt_le|]. rewrite seq_length; auto. }
  assert (length xadj' - 1 = n) as Eln by (rewrite B4; lia).
  split; [lia|]. split; [|split].
  - intros u Hu. rewrite Hdeg by lia. destruct (Nat.eq_dec (degree_of xadj (nth u n2o 0)) 0) as [E|]; [|lia]. exfalso.
    assert (32 <= f u) as Hge. { unfold f, fb. change (nth (S (nth u n2o 0)) xadj 0 - nth (nth u n2o 0) xadj 0) with (degree_of xadj (nth u n2o 0)). rewrite E. vm_compute. lia. }
    apply (cnt_lt_sorted f n 32 u Hmono ltac:(lia)) in Hge. lia.
  - intros u Hu. rewrite Eln in Hu. rewrite Hdeg by lia. destruct (Nat.eq_dec (degree_of xadj (nth u n2o 0)) 0) as [E|Hne]; auto. exfalso.
    assert (32 <= f u) as Hge by (apply (cnt_lt_sorted f n 32 u Hmono); lia).
    destruct (placement_pos (degree_of xadj (nth u n2o 0)) ltac:(lia) (Hd31 _ (M2 u ltac:(lia)))) as [_ P].
    unfold num_degree_buckets in P. unfold f, fb in Hge. unfold degree_of in P. lia.
  - intros u v Huv. rewrite !Hdeg by lia.
    assert (forall x, x < cnt (fun u => f u <? 32) (seq 0 n) -> f x < 32) as Hlt32.
    { intros x Hx. destruct (Nat.lt_ge_cases (f x) 32) as [?|Hge]; auto. apply (cnt_lt_sorted f n 32 x Hmono ltac:(lia)) in Hge. lia. }
    assert (forall x, x < cnt (fun u => f u <? 32) (seq 0 n) -> f x = S (Nat.log2 (degree_of xadj (nth x n2o 0)))) as Hlog.
    { intros x Hx. destruct (Nat.eq_dec (degree_of xadj (nth x n2o 0)) 0) as [E|Hne].
      - exfalso. specialize (Hlt32 x Hx). unfold f, fb in Hlt32.
        change (nth (S (nth x n2o 0)) xadj 0 - nth (nth x n2o 0) xadj 0) with (degree_of xadj (nth x n2o 0)) in Hlt32.
        rewrite E in Hlt32. vm_compute in Hlt32. lia.
      - destruct (placement_pos (degree_of xadj (nth x n2o 0)) ltac:(lia) (Hd31 _ (M2 x ltac:(lia)))) as [P _]. exact P. }
    pose proof (Hmono u v ltac:(lia)) as Hm'. rewrite !Hlog in Hm' by lia. lia.
Qed.

(** [g] with the nodes renamed. *)
Definition renamed (g : graph) (o2n n2o : nat -> nat) : graph :=
  {| gn := gn g; gadj u := map (fun e => (o2n (fst e), snd e)) (gadj g (n2o u)); gvw u := gvw g (n2o u) |}.

Section Renamed.
Variables (g : graph) (o2n n2o : nat -> nat).
Hypothesis M1 : maps_into (gn g) (gn g) o2n.
Hypothesis I1 : injn (gn g) o2n.
Hypothesis V1 : forall u, u < gn g -> n2o (o2n u) = u.
Hypothesis V2 : forall u, u < gn g -> o2n (n2o u) = u /\ n2o u < gn g.
Lemma renamed_iso : isomorphic_by o2n g (renamed g o2n n2o).
Proof.
  split; [reflexivity|]. split; [exact M1|]. split; [exact I1|]. split; intros u Hu; cbn [renamed gvw gadj]; rewrite V1 by auto; auto.
Qed.
Lemma renamed_closed : closed_graph g -> closed_graph (renamed g o2n n2o).
Proof.
  intros H u v w Hu Hv. cbn in *. apply in_map_iff in Hv. destruct Hv as ([a x] & E & Hv). injection E as <- <-. apply M1. apply (H _ _ _ (proj2 (V2 u Hu)) Hv).
Qed.
Lemma renamed_weights nw ew : weights_ok g nw ew -> weights_ok (renamed g o2n n2o) nw ew.
Proof.
  intros [A B]. split; cbn [renamed gn gvw gadj].
  - intros u Hu. apply A. apply V2; auto.
  - intros u v w Hu Hv. apply in_map_iff in Hv. destruct Hv as ([a x] & E & Hv). injection E as <- <-. apply (B (n2o u) a); auto. apply V2; auto.
Qed.
End Renamed.

Lemma prefix_offsets (rows : list (list (nat * Z))) : forall a, a :: prefix_sum_from a (map (@length _) rows) = offsets a rows.
Proof.
  induction rows as [|r rows IH]; intros a; [unfold offsets; cbn; f_equal; lia|]. rewrite offsets_cons. f_equal. cbn [map prefix_sum_from]. apply IH.
Qed.
Lemma seg_rows {B} (f : nat * Z -> B) g u d : u < gn g ->
  let rows := map snd (adj_list g) in
  map (fun e => f (nth e (concat rows) d)) (seq (nth u (offsets 0 rows) 0) (nth (S u) (offsets 0 rows) 0 - nth u (offsets 0 rows) 0)) = map f (gadj g u).
Proof.
  intros Hu rows. assert (Ll : length rows = gn g) by (unfold rows; apply rows_len). assert (Hr : nth u rows [] = gadj g u) by (apply adj_rows; lia).
  rewrite !offsets_nth by lia. rewrite concat_firstn_S by lia. rewrite Hr.
  replace (0 + (length (concat (firstn u rows)) + length (gadj g u)) - (0 + length (concat (firstn u rows)))) with (length (gadj g u)) by lia.
  apply (list_ext (f d)); [now rewrite !map_length, seq_length|]. intros i Hi. rewrite map_length, seq_length in Hi.
  match goal with |- nth i (map ?h _) _ = _ => rewrite (nth_indep _ (f d) (h 0)) by (rewrite map_length, seq_length; lia); rewrite (map_nth h), seq_nth by lia end.
  rewrite !Nat.add_0_l. rewrite concat_row by (rewrite ?Hr; lia). rewrite Hr. symmetry. exact (map_nth f (gadj g u) d i).
Qed.
Lemma rows_seq g : map snd (adj_list g) = map (gadj g) (seq 0 (gn g)).
Proof. unfold adj_list. now rewrite map_map. Qed.

Section Deg.
Variable c : ioconf.
Variables (bn bi bnw bew : nat) (nw ew : bool) (g : graph) (t : list Z).
Hypothesis Hc : can_read c bn bi bnw bew nw ew.
Hypothesis Ht : parhip_file bn bi bnw bew nw ew g t.
Hypothesis Hlen : (Z.of_nat (length t) < 2 ^ 64)%Z.
Hypothesis Hcl : closed_graph g.
Hypothesis Hw : weights_ok g nw ew.
Hypothesis Hfit : (num_arcs g < 2 ^ io_wi c)%Z.
Hypothesis Hww : forall u, u < gn g -> (gvw g u < 2 ^ (io_ww c - 1))%Z /\ Forall (fun e => (snd e < 2 ^ (io_ww c - 1))%Z) (gadj g u).
Hypothesis Hdeg : (num_arcs g < 2 ^ 31)%Z.
Let rows := map snd (adj_list g).
Let xadj := offsets 0 rows.
Let nv u := (24 + Z.of_nat bi * (Z.of_nat (gn g) + 1) + Z.of_nat bn * arcs_before g u)%Z.

Lemma d_len : length xadj - 1 = gn g.
Proof. unfold xadj, rows. rewrite offsets_length, rows_len. lia. Qed.
Lemma d_deg u : u < gn g -> degree_of xadj u = length (gadj g u).
Proof.
  intros Hu. unfold degree_of. rewrite <- (map_length (fun e : nat * Z => e) (gadj g u)).
  etransitivity; [|apply (f_equal (@length _)); exact (seg_rows (fun e => e) g u (0, 0%Z) Hu)]. now rewrite map_length, seq_length.
Qed.
Lemma d_deg31 u : u < length xadj - 1 -> (N.of_nat (degree_of xadj u) < 2 ^ 31)%N.
Proof.
  rewrite d_len. intros Hu. rewrite d_deg by exact Hu. rewrite arcs_len in Hdeg. fold rows in Hdeg.
  assert (length (gadj g u) <= length (concat rows)).
  { assert (Hr : nth u rows [] = gadj g u) by (apply adj_rows; lia).
    assert (Q : length (concat rows) = length (concat (firstn (S u) rows)) + length (concat (skipn (S u) rows)))
      by (rewrite <- app_length, <- concat_app, firstn_skipn; reflexivity).
    rewrite concat_firstn_S, Hr in Q by (unfold rows; rewrite rows_len; lia). lia. }
  lia.
Qed.

Lemma parhip_deg_ok conc : 0 < conc -> exists h f n', parhip_csr_read_deg_buckets c conc t = Ok h /\ isomorphic_by f g (cg_graph h) /\
  cg_permutation h = map f (seq 0 (gn g)) /\ sorted_by_degree_class (sa_list (cg_nodes h)) n' /\ cg_sorted h = true.
Proof.
  intros Hconc. unfold parhip_csr_read_deg_buckets.
  pose proof (rf_layout c bn bi bnw bew nw ew g t Hc Ht Hlen Hcl Hw Hfit Hww) as Ly. pose proof (rf_ww c bn bi bnw bew nw ew g t Hc Ht Hlen Hcl Hw Hfit Hww) as Ww.
  destruct (r_parse c bn bi bnw bew nw ew g nv t Hc Ly Hlen Ww) as [E1 E2]. rewrite E1. cbn [bind]. rewrite E2. cbn [bind].
  rewrite (r_validate c bn bi bnw bew nw ew g nv t Hc Ly Hlen Ww). cbn [bind].
  rewrite (r_nodes c bn bi bnw bew nw ew g nv t Hc Ly Hlen Ww). cbn [bind].
  rewrite (r_edges c bn bi bnw bew nw ew g nv t Hc Ly Hlen Ww). cbn [bind].
  rewrite (r_vw_read c bn bi bnw bew nw ew g nv t Hc Ly Hlen Ww). cbn [bind].
  rewrite (r_ew_read c bn bi bnw bew nw ew g nv t Hc Ly Hlen Ww). cbn [bind]. cbn [ph_n ph_m ph_nw ph_ew]. rewrite Nat2Z.id.
  match goal with |- context [ph_map_edge_offset c ?h _] => pose proof (rf_nodes c bn bi bnw bew nw ew g t Hc Ht Hlen Hcl Hw Hfit Hww h eq_refl) as Rn end.
  cbv zeta in Rn. fold nv in Rn. change (fun u => ph_map_edge_offset c _ (nv u)) with (fun u => ph_map_edge_offset c {| ph_ew := ew; ph_nw := nw; ph_e64 := Nat.eqb bi 8; ph_n64 := Nat.eqb bn 8;
    ph_nw64 := Nat.eqb bnw 8; ph_ew64 := Nat.eqb bew 8; ph_n := Z.of_nat (gn g); ph_m := num_arcs g |} (nv u)) in Rn.
  rewrite Rn. fold rows. rewrite map_map.
  assert (Ei : map (fun x => Z.to_nat (Z.of_nat x)) (offsets 0 rows) = xadj).
  { unfold xadj. rewrite <- (map_id (offsets 0 rows)) at 2. apply map_ext. intros; apply Nat2Z.id. }
  rewrite Ei. destruct (degree_perm conc xadj Hconc d_deg31) as (o2n & n2o & -> & PL & M1 & I1 & V1 & V2 & So). rewrite d_len in *.
  set (o := fun u => nth u o2n 0) in *. set (i := fun u => nth u n2o 0) in *.
  set (g' := renamed g o i). assert (Gn : gn g' = gn g) by reflexivity. set (rows' := map snd (adj_list g')).
  assert (A1 : 0 :: prefix_sum (map (fun u => nth (S (nth u n2o 0)) xadj 0 - nth (nth u n2o 0) xadj 0) (seq 0 (gn g))) = offsets 0 rows').
  { rewrite <- prefix_offsets. f_equal. unfold prefix_sum. f_equal. unfold rows'. rewrite (rows_seq g'), map_map. apply map_ext_in. intros u Hu. apply in_seq in Hu.
    cbn [g' renamed gadj]. rewrite map_length. unfold i. rewrite <- d_deg by (apply (V2 u); lia). reflexivity. }
  assert (A2 : concat (map (fun u => map (fun e => nth (Z.to_nat (nth e (map (fun e => Z.of_nat (fst e)) (concat rows)) 0%Z)) o2n 0)
      (seq (nth (nth u n2o 0) xadj 0) (nth (S (nth u n2o 0)) xadj 0 - nth (nth u n2o 0) xadj 0))) (seq 0 (gn g))) = map fst (concat rows')).
  { rewrite (concat_map fst rows'). unfold rows'. rewrite (rows_seq g'), map_map. f_equal. apply map_ext_in. intros u Hu. apply in_seq in Hu. cbn [g' renamed gadj].
    rewrite map_map. cbn [fst]. etransitivity; [|apply (seg_rows (fun e => o (fst e)) g (i u) (0, 0%Z)); apply (V2 u); lia].
    apply map_ext. intros e. unfold o. f_equal.
    transitivity (Z.to_nat (Z.of_nat (fst (nth e (concat rows) (0, 0%Z))))); [f_equal; exact (map_nth (fun e : nat * Z => Z.of_nat (fst e)) (concat rows) (0, 0%Z) e)|apply Nat2Z.id]. }
  assert (A3 : (if nw then map (fun u => nth (nth u n2o 0) (r_vw g nw) 0%Z) (seq 0 (gn g)) else []) = r_vw g' nw).
  { unfold r_vw. destruct nw; [|reflexivity]. apply map_ext_in. intros u Hu. apply in_seq in Hu. cbn [g' renamed gvw]. apply nth_map_seq. apply (V2 u); lia. }
  assert (A4 : (if ew then concat (map (fun u => map (fun e => nth e (r_ew g ew) 0%Z)
      (seq (nth (nth u n2o 0) xadj 0) (nth (S (nth u n2o 0)) xadj 0 - nth (nth u n2o 0) xadj 0))) (seq 0 (gn g))) else []) = r_ew g' ew).
  { unfold r_ew. destruct ew; [|reflexivity]. fold rows'. rewrite (concat_map snd rows'). unfold rows'. rewrite (rows_seq g'), map_map. f_equal. apply map_ext_in. intros u Hu. apply in_seq in Hu.
    cbn [g' renamed gadj]. rewrite map_map. cbn [snd]. etransitivity; [|apply (seg_rows (fun e => snd e) g (i u) (0, 0%Z)); apply (V2 u); lia].
    apply map_ext. intros e. exact (map_nth snd (concat rows) (0, 0%Z) e). }
  rewrite A1, A2, A3, A4.
  assert (Cl' : closed_graph g') by (apply renamed_closed; auto).
  assert (Hw' : weights_ok g' nw ew) by (apply renamed_weights; auto).
  assert (Sg : same_graph (cg_graph (cg_make (sa_make (offsets 0 rows')) (map fst (concat rows')) (sa_make (r_vw g' nw)) (r_ew g' ew) true)) g').
  { eapply same_trans; [apply (cg_make_faithful _ _ _ _ _ (offsets 0 rows') (r_vw g' nw))|apply rows_user]; auto.
    - split; reflexivity.
    - split; reflexivity.
    - apply rows_wf; auto.
    - eapply r_vw_pos; eauto.
    - eapply r_ew_pos; eauto. }
  assert (Deg' : forall u, u < gn g -> degree_of (offsets 0 rows') u = degree_of xadj (i u)).
  { intros u Hu. unfold degree_of at 1. transitivity (length (gadj g' u)).
    - rewrite <- (map_length (fun e : nat * Z => e) (gadj g' u)). etransitivity; [|apply (f_equal (@length _)); exact (seg_rows (fun e => e) g' u (0, 0%Z) Hu)].
      now rewrite map_length, seq_length.
    - cbn [g' renamed gadj]. rewrite map_length. symmetry. apply d_deg. apply V2; auto. }
  destruct (So (offsets 0 rows')) as [n' Hn'].
  - unfold rows'. rewrite offsets_length, rows_len. reflexivity.
  - exact Deg'.
  - eexists. exists o, n'. split; [reflexivity|]. split; [|split; [|split]].
    + destruct (renamed_iso g o i M1 I1 V1) as (J1 & J2 & J3 & J4 & J5). fold g' in J1, J4, J5. destruct Sg as [S1 S2].
      change (cg_graph (cg_set_permutation o2n ?h)) with (cg_graph h).
      split; [rewrite S1; exact J1|]. split; [exact J2|]. split; [exact J3|]. split.
      * intros u Hu. destruct (S2 (o u)) as [_ ->]; [rewrite S1, J1; apply J2; auto|]. auto.
      * intros u Hu. destruct (S2 (o u)) as [-> _]; [rewrite S1, J1; apply J2; auto|]. auto.
    + cbn. unfold o. rewrite <- PL. symmetry. apply map_nth_seq.
    + cbn [cg_set_permutation cg_make cg_nodes]. rewrite (full_list _ (offsets 0 rows')) by (split; reflexivity). exact Hn'.
    + reflexivity.
Qed.
End Deg.
