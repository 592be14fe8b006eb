(* Gains, enumerations and border nodes of both caches, for every history. *)
From Verif Require Import Lib.Prelude Spec.Graph Spec.Gain Spec.CountMap Model.MathModel Model.CompactHashModel Model.GainModel
  Proofs.AlignedProofs Proofs.GainBase Proofs.GainSys Proofs.DenseGain Proofs.CompactHashOps Proofs.CompactGainBase Proofs.CompactGain.

Lemma simple_no_loop g u : simple_graph g -> u < gn g -> conn g u u = 0%Z.
Proof.
  intros Hs Hu. destruct (Hs u Hu) as [_ Hn]. unfold conn.
  rewrite (filter_ext_in _ (fun _ => false)).
  - assert (F : forall l' : list (nat * Z), filter (fun _ => false) l' = []) by (induction l'; auto). rewrite F. reflexivity.
  - intros [x y] H. cbn [fst]. apply Nat.eqb_neq. intros ->. apply Hn. apply in_map_iff. exists (u, y). auto.
Qed.

Lemma dense_reports g k lab T es : closed_graph g -> undirected g -> simple_graph g -> labels_ok g k lab ->
  exists c0 s, d_init g k lab = Some c0 /\ d_run g k es (g_start _ lab c0 T) = Some s /\ labels_ok g k (s_lab s) /\
    forall u, u < gn g -> dst_idle u s = true ->
      reports g k (label_of (s_lab s)) u (d_conn k (s_mem s) u) (d_gain k (s_mem s) u)
        (fun all exact => d_gains k all exact (s_mem s) u) (d_border k (d_degrees g) (s_mem s) u).
Proof.
  intros Hc Hs Hsim HL. destruct (dense_run_ok g k Hc Hs lab T es HL) as (c0 & s & E0 & E1 & HL' & HR).
  exists c0, s. split; auto. split; auto. split; auto. intros u Hu Hi. specialize (HR u Hu Hi).
  destruct HL' as [HL1 HL2]. pose proof (HL2 u Hu) as Hp. split; [exact HR|]. split; [|split; [|split]].
  - intros b Hb. unfold d_gain. rewrite (HR b Hb), (HR _ Hp). f_equal. symmetry.
    apply gain_is_cut_decrease; auto. apply simple_no_loop; auto.
  - intros a b Ha Hb. unfold d_gain. rewrite (HR b Hb), (HR a Ha). reflexivity.
  - intros all exact from Hf. rewrite (dense_gains_ok k _ _ u _ all exact HR Hf). eexists. split; [reflexivity|]. apply Permutation_refl.
  - intros Hpos. apply dense_border_ok; auto.
Qed.

Lemma buffer_fold k (es : list (Z * Z)) : NoDup (map fst es) -> (forall e, In e es -> 0 <= fst e < Z.of_nat k)%Z ->
  forall bf, length bf = k -> length (fold_left (fun bf e => upd (Z.to_nat (fst e)) (snd e) bf) es bf) = k /\
  (forall e, In e es -> nth (Z.to_nat (fst e)) (fold_left (fun bf e => upd (Z.to_nat (fst e)) (snd e) bf) es bf) 0%Z = snd e) /\
  (forall b, ~ In (Z.of_nat b) (map fst es) -> nth b (fold_left (fun bf e => upd (Z.to_nat (fst e)) (snd e) bf) es bf) 0%Z = nth b bf 0%Z).
Proof.
  induction es as [|[x y] es IH]; intros HN HR bf HL; cbn [fold_left].
  - split; auto. split; [intros e []|auto].
  - cbn [map fst snd] in *. inversion HN as [|? ? Hni HN']; subst.
    pose proof (HR (x, y) (or_introl eq_refl)) as Hx. cbn [fst] in Hx.
    destruct (IH HN' ltac:(intros; apply HR; right; auto) (upd (Z.to_nat x) y bf) ltac:(rewrite upd_length; auto)) as (H1 & H2 & H3).
    split; auto. split.
    + intros e [<-|Hin]; [|apply H2; auto]. cbn [fst snd]. rewrite H3; [apply upd_nth_same; lia|]. rewrite Z2Nat.id by lia. auto.
    + intros b Hb. cbn [In] in Hb. rewrite H3 by tauto. apply upd_nth_other. intros E. apply Hb. left. subst b. lia.
Qed.

Lemma compact_gains_ok g k np junk mem u p all exact from : closed_graph g -> simple_graph g -> positive_edges g -> cg_fits g k -> 0 < np ->
  length mem = gn g -> u < gn g -> in_range g k p -> from < k -> table_ok g k np junk u (nth u mem []) (block_conn g p u) ->
  exists l, cg_gains g k np junk all exact mem u from = Some l /\
    Permutation l (targets k all exact (block_conn g p u) from) /\
    (all = true -> l = targets k all exact (block_conn g p u) from).
Proof.
  intros Hc Hsim Hpos Hfit Hnp HL Hu HP Hfr HT.
  assert (HC : forall b, b < k -> cg_conn g k np junk mem u b = Some (block_conn g p u b)) by (intros; apply cg_conn_ok; auto).
  unfold cg_gains. assert (Ef : (if exact then cg_conn g k np junk mem u from else Some 0%Z) = Some (if exact then block_conn g p u from else 0)%Z)
    by (destruct exact; auto).
  rewrite Ef. destruct (cg_hash g k junk u) eqn:Eh.
  - pose proof (entries_ok g k np junk Hc Hsim Hpos Hfit Hnp mem u p Hu HP Eh HT) as HE.
    set (es := cg_entries g k np junk mem u) in *. destruct all.
    + eexists. split; [reflexivity|].
      match goal with |- Permutation ?a ?b /\ _ => assert (E : a = b) end.
      { unfold targets.
        assert (HNk : NoDup (map fst es)).
        { eapply Permutation_NoDup; [apply Permutation_map, Permutation_sym, HE|]. rewrite map_map. cbn [fst].
          apply FinFun.Injective_map_NoDup; [intros x y E; lia|]. apply NoDup_filter, seq_NoDup. }
        assert (HRg : forall e, In e es -> (0 <= fst e < Z.of_nat k)%Z).
        { intros e He. apply (Permutation_in e HE) in He. apply in_map_iff in He. destruct He as (b & <- & Hb).
          apply filter_In in Hb. destruct Hb as [Hb _]. apply in_seq in Hb. cbn [fst]. lia. }
        destruct (buffer_fold k es HNk HRg (repeat 0%Z k) (repeat_length _ _)) as (_ & H2 & H3).
        set (bf := fold_left _ es _) in *.
        assert (HB : forall b, b < k -> nth b bf 0%Z = block_conn g p u b).
        { intros b Hb. destruct (Z.ltb_spec 0 (block_conn g p u b)) as [Hlt|Hge].
          - assert (Hin : In (Z.of_nat b, block_conn g p u b) es).
            { apply (Permutation_in _ (Permutation_sym HE)). apply in_map_iff. exists b. split; auto. apply filter_In.
              split; [apply in_seq; lia|apply Z.ltb_lt; auto]. }
            specialize (H2 _ Hin). cbn [fst snd] in H2. rewrite Nat2Z.id in H2. exact H2.
          - pose proof (block_conn_bounds g p u b Hpos Hu). rewrite H3; [rewrite nth_repeat; lia|].
            intros C. apply in_map_iff in C. destruct C as (e & E & He). apply (Permutation_in e HE) in He.
            apply in_map_iff in He. destruct He as (b' & <- & Hb'). cbn [fst] in E. apply Nat2Z.inj in E. subst b'.
            apply filter_In in Hb'. destruct Hb' as [_ Hb']. apply Z.ltb_lt in Hb'. lia. }
        rewrite (filter_ext (fun b => negb (b =? from) && (true || (0 <? block_conn g p u b)%Z)) (fun b => negb (from =? b))).
        - apply map_ext_in. intros b Hb. apply filter_In in Hb. destruct Hb as [Hb _]. apply in_seq in Hb. rewrite HB by lia. reflexivity.
        - intros b. rewrite Nat.eqb_sym. cbn [orb]. apply Bool.andb_true_r. }
      rewrite E. split; auto.
    + eexists. split; [reflexivity|]. split; [|discriminate]. unfold targets.
      etransitivity; [apply Permutation_map, perm_filter, HE|].
      match goal with |- Permutation ?a ?b => assert (E : a = b); [|rewrite E; apply Permutation_refl] end.
      clear HE es. induction (seq 0 k) as [|b l IH]; cbn [filter map]; [reflexivity|]. cbn [orb].
      destruct (0 <? block_conn g p u b)%Z; rewrite ?Bool.andb_false_r, ?Bool.andb_true_r; auto.
      cbn [map filter fst snd]. rewrite Nat2Z.id. destruct (b =? from); cbn [negb map fst snd]; rewrite ?Nat2Z.id, IH; reflexivity.
  - rewrite (gains_fold k all (cg_conn g k np junk mem u) (block_conn g p u) _ from HC). eexists. split; [reflexivity|].
    unfold targets. split; auto.
Qed.
Lemma compact_reports g k np junk lab T es : closed_graph g -> undirected g -> simple_graph g -> positive_edges g ->
  cg_fits g k -> 0 < np -> labels_ok g k lab ->
  exists m0 s, cg_init g k np junk lab = Some m0 /\ cg_run g k np junk es (g_start _ lab m0 T) = Some s /\ labels_ok g k (s_lab s) /\
    forall u, u < gn g -> dst_idle u s = true ->
      reports g k (label_of (s_lab s)) u (cg_conn g k np junk (s_mem s) u) (cg_gain g k np junk (s_mem s) u)
        (fun all exact => cg_gains g k np junk all exact (s_mem s) u) (cg_border g k np junk (s_mem s) u).
Proof.
  intros Hc Hs Hsim Hpos Hfit Hnp HL. destruct (compact_run_ok g k np junk Hc Hs Hsim Hpos Hfit Hnp lab T es HL) as (c0 & s & E0 & E1 & HL' & HM & HR).
  exists c0, s. split; auto. split; auto. split; auto. intros u Hu Hi. specialize (HR u Hu Hi).
  destruct HL' as [HL1 HL2]. pose proof (HL2 u Hu) as Hp.
  assert (HC : forall b, b < k -> cg_conn g k np junk (s_mem s) u b = Some (block_conn g (label_of (s_lab s)) u b))
    by (intros; apply cg_conn_ok; auto).
  split; [exact HC|]. split; [|split; [|split]].
  - intros b Hb. unfold cg_gain. rewrite (HC b Hb), (HC _ Hp). f_equal. symmetry.
    apply gain_is_cut_decrease; auto. apply simple_no_loop; auto.
  - intros a b Ha Hb. unfold cg_gain. rewrite (HC b Hb), (HC a Ha). reflexivity.
  - intros all exact from Hfr. destruct (compact_gains_ok g k np junk (s_mem s) u (label_of (s_lab s)) all exact from) as (l & E & HPm & _); auto.
    exists l. auto.
  - intros _. unfold cg_border. rewrite (HC _ Hp). eexists. split; [reflexivity|]. 
    rewrite (wd_eq g np junk Hpos Hnp u Hu). rewrite Bool.negb_true_iff, Z.eqb_neq. apply border_iff; auto.
Qed.

(** The byte layout: the table of a node starts at an offset aligned to its entry width, the tables do not overlap and
    end within the allocated words. *)
Lemma compact_layout g k np junk : positive_edges g -> cg_fits g k -> 0 < np -> 2 <= gn g ->
  (forall u, u < gn g -> exists q, nth u (cg_offsets g k np junk) 0 = q * cg_width g k junk u \/ cg_width g k junk u = 0) /\
  (forall u, u < gn g -> 0 < length (gadj g u) ->
     nth u (cg_offsets g k np junk) 0 + cg_width g k junk u * (if cg_hash g k junk u then cg_size g k np junk u else k)
       <= nth (S u) (cg_offsets g k np junk) 0) /\
  (N.of_nat (nth (gn g) (cg_offsets g k np junk) 0%nat) <= 8 * cg_words g k np junk)%N.
Proof.
  intros Hpos Hfit Hnp Hn. destruct (offs_spec g k np junk Hpos Hfit Hnp Hn) as (_ & _ & HA & HS & HT & HW).
  split; [|split].
  - intros u Hu. destruct (HA u Hu) as [E|E].
    + exists 0. right. exact E.
    + exists (nth u (cg_offsets g k np junk) 0 / cg_width g k junk u). destruct (Nat.eq_dec (cg_width g k junk u) 0) as [|Hw]; [right; auto|left].
      pose proof (Nat.div_mod (nth u (cg_offsets g k np junk) 0) (cg_width g k junk u) Hw). lia.
  - intros u Hu Hd. destruct (cg_hash g k junk u) eqn:Eh.
    + destruct (size_spec g k np junk Hpos Hfit Hnp u Hn Hu Hd Eh) as (b & _ & _ & H). exact H.
    + specialize (HS u Hu). unfold cg_bytes in HS. rewrite Eh in HS. lia.
  - rewrite HT. exact HW.
Qed.

(** A graph for the examples: a triangle with tails, weights up to 300 (so that entries have different widths). *)
Definition ex_gain_graph : graph :=
  {| gn := 5;
     gadj u := nth u (map (map (fun e => (fst e, Z.of_nat (snd e))))
       [[(1, 2); (2, 300)]; [(0, 2); (2, 5); (3, 1)]; [(0, 300); (1, 5)]; [(1, 1); (4, 7)]; [(3, 7)]]) [];
     gvw u := 1%Z |}.
Lemma ex_gain_graph_ok : closed_graph ex_gain_graph /\ undirected ex_gain_graph /\ simple_graph ex_gain_graph /\
  positive_edges ex_gain_graph /\ cg_fits ex_gain_graph 7 /\ labels_ok ex_gain_graph 7 [0; 6; 2; 2; 3].
Proof.
  assert (H5 : forall P : nat -> Prop, (P 0 /\ P 1 /\ P 2 /\ P 3 /\ P 4) -> forall u, u < 5 -> P u).
  { intros P (H0 & H1 & H2 & H3 & H4) u Hu. do 5 (destruct u as [|u]; auto). lia. }
  repeat match goal with |- _ /\ _ => split end.
  - intros u v w Hu. revert u Hu v w. apply (H5 (fun u => forall v w, In (v, w) (gadj ex_gain_graph u) -> v < 5)).
    repeat split; intros v w Hin; cbn in Hin; repeat (destruct Hin as [Hin|Hin]; [injection Hin as <- <-; lia|]); destruct Hin.
  - intros u v Hu Hv. revert u Hu v Hv. apply (H5 (fun u => forall v, v < 5 -> conn ex_gain_graph u v = conn ex_gain_graph v u)).
    repeat split; apply H5; repeat split; reflexivity.
  - intros u Hu. revert u Hu. apply (H5 (fun u => NoDup (map fst (gadj ex_gain_graph u)) /\ ~ In u (map fst (gadj ex_gain_graph u)))).
    repeat split; try (cbn; intuition discriminate); cbn; repeat constructor; cbn; intuition discriminate.
  - intros u v w Hu. revert u Hu v w. apply (H5 (fun u => forall v w, In (v, w) (gadj ex_gain_graph u) -> (0 < w)%Z)).
    repeat split; intros v w Hin; cbn in Hin; repeat (destruct Hin as [Hin|Hin]; [injection Hin as <- <-; lia|]); destruct Hin.
  - unfold cg_fits. split; [lia|]. split; [vm_compute; discriminate|]. intros u Hu. revert u Hu. apply (H5 (fun u => (weighted_degree ex_gain_graph u < _)%Z)). repeat split; reflexivity.
  - split; [reflexivity|]. intros u Hu. revert u Hu. apply (H5 (fun u => label_of [0; 6; 2; 2; 3] u < 7)). repeat split; cbn; lia.
Qed.
