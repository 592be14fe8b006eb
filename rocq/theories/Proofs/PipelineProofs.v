(* A complete partitioning call: composition of the facade, coarsening and uncoarsening. *)
From Verif Require Import Lib.Prelude Lib.Count Spec.Graph Spec.Quotient Spec.Induced Spec.Level Spec.ExtendSpec Spec.PipelineSpec
  Model.CsrModel Model.PermModel Model.FacadeModel Model.UnbufModel Model.SubgraphModel Model.ExtendModel Model.DeepModel Model.PipelineModel
  Proofs.GraphFacts Proofs.CsrProofs Proofs.PermProofs Proofs.IsolatedProofs Proofs.FacadeProofs Proofs.QuotientProofs Proofs.SubgraphBase Proofs.UnbufFinish Proofs.DeepProofs.

(** Closed, positive weights. *)
Definition fine (g : graph) : Prop :=
  closed_graph g /\ (forall u, u < gn g -> (1 <= gvw g u)%Z) /\ (forall u v w, u < gn g -> In (v, w) (gadj g u) -> (1 <= w)%Z).

Lemma conn_single g u v w : NoDup (map fst (gadj g u)) -> In (v, w) (gadj g u) -> conn g u v = w.
Proof.
  intros Nd Hin. unfold conn. induction (gadj g u) as [|[a x] l IH]; [destruct Hin|].
  cbn [map fst] in Nd. inversion Nd as [|? ? Hn Nd']; subst.
  cbn [filter fst]. destruct Hin as [E|Hin].
  - injection E as -> ->. rewrite Nat.eqb_refl. cbn [map snd zsum].
    assert (filter (fun e => fst e =? v) l = []) as ->; [|cbn; lia].
    clear - Hn. induction l as [|[b y] l IH]; auto. cbn [filter fst map] in *. destruct (Nat.eqb_spec b v); [exfalso; apply Hn; left; auto|].
    apply IH. intros H. apply Hn. right. auto.
  - destruct (Nat.eqb_spec a v) as [->|]; [|apply IH; auto].
    exfalso. apply Hn. change v with (fst (v, w)). apply in_map. auto.
Qed.

Lemma conn_nonneg g u v : fine g -> u < gn g -> (0 <= conn g u v)%Z.
Proof.
  intros (_ & _ & He) Hu. unfold conn. apply zsum_nonneg. intros x Hx. apply in_map_iff in Hx as ([a y] & <- & Hin).
  apply filter_In in Hin as [Hin _]. specialize (He u a y Hu Hin). cbn [snd]. lia.
Qed.

Lemma conn_pos g u v w : fine g -> u < gn g -> In (v, w) (gadj g u) -> (1 <= conn g u v)%Z.
Proof.
  intros (_ & _ & He) Hu Hin. unfold conn.
  assert (forall x, In x (map snd (filter (fun e => fst e =? v) (gadj g u))) -> (1 <= x)%Z) as Hp.
  { intros x Hx. apply in_map_iff in Hx as ([a y] & <- & H). apply filter_In in H as [H _]. apply (He u a y Hu H). }
  pose proof (zsum_ge_len _ Hp) as G. rewrite map_length in G.
  assert (In (v, w) (filter (fun e => fst e =? v) (gadj g u))) as Hf by (apply filter_In; cbn [fst]; rewrite Nat.eqb_refl; auto).
  destruct (filter (fun e => fst e =? v) (gadj g u)); [destruct Hf|]. cbn [length] in G. lia.
Qed.

Lemma sumn_ge_one n f i : (forall j, j < n -> (0 <= f j)%Z) -> i < n -> (f i <= sumn n f)%Z.
Proof.
  intros Hp Hi. induction n; [lia|]. rewrite sumn_S. destruct (Nat.eq_dec i n) as [->|].
  - assert (0 <= sumn n f)%Z. { clear IHn Hi. induction n; [cbn; lia|]. rewrite sumn_S. assert (0 <= f n)%Z by (apply Hp; lia). assert (0 <= sumn n f)%Z by (apply IHn; intros; apply Hp; lia). lia. }
    lia.
  - assert (f i <= sumn n f)%Z by (apply IHn; [intros; apply Hp; lia|lia]). assert (0 <= f n)%Z by (apply Hp; lia). lia.
Qed.

Lemma quotient_fine g f h : fine g -> is_quotient g f h -> fine h.
Proof.
  intros Hg Q. pose proof (quotient_closed g h f Q (proj1 Hg)) as Ch. destruct Q as (Q1 & Q2 & Q3 & Q4 & Q5 & Q6).
  split; auto. split.
  - intros c Hc. destruct (Q2 c Hc) as (u & Hu & E). rewrite Q3 by auto.
    assert (Z.le (if f u =? c then gvw g u else 0%Z) (sumn (gn g) (fun u => if f u =? c then gvw g u else 0%Z))) as G.
    { apply (sumn_ge_one (gn g) (fun u => if f u =? c then gvw g u else 0%Z) u); auto. intros j Hj. destruct (f j =? c); [|lia].
      pose proof (proj1 (proj2 Hg) j Hj). lia. }
    rewrite E, Nat.eqb_refl in G. pose proof (proj1 (proj2 Hg) u Hu). lia.
  - intros c d w Hc Hin. pose proof (conn_single h c d w (Q5 c Hc) Hin) as E.
    assert (Hd : In d (map fst (gadj h c))) by (change d with (fst (d, w)); apply in_map, Hin).
    apply (Q6 c d Hc) in Hd. destruct Hd as (Hne & u & v & w' & Hu & Eu & Hv & Ev).
    assert (v < gn g) as Hvn by (apply (proj1 Hg u v w' Hu Hv)).
    assert (d < gn h) as Hdn by (subst d; apply Q1; auto).
    rewrite Q4 in E by auto. rewrite <- E. unfold cluster_conn.
    pose (F := fun a => if f a =? c then sumn (gn g) (fun v => if f v =? d then conn g a v else 0%Z) else 0%Z).
    assert (forall a, a < gn g -> forall b, b < gn g -> Z.le 0 (if f b =? d then conn g a b else 0%Z)) as P1.
    { intros a Ha b Hb. destruct (f b =? d); [apply conn_nonneg; auto|lia]. }
    assert (F u <= sumn (gn g) F)%Z as G1.
    { apply sumn_ge_one; auto. intros j Hj. unfold F. destruct (f j =? c); [|lia].
      destruct (gn g) as [|m] eqn:Em; [lia|].
      eapply Z.le_trans; [apply (P1 j Hj v Hvn)|]. apply (sumn_ge_one (S m) (fun b => if f b =? d then conn g j b else 0%Z) v); auto. }
    unfold F in G1 at 1. rewrite Eu, Nat.eqb_refl in G1.
    assert (Z.le (if f v =? d then conn g u v else 0%Z) (sumn (gn g) (fun v => if f v =? d then conn g u v else 0%Z))) as G2.
    { apply (sumn_ge_one (gn g) (fun b => if f b =? d then conn g u b else 0%Z) v); auto. }
    rewrite Ev, Nat.eqb_refl in G2. pose proof (conn_pos g u v w' Hg Hu Hv). unfold F in G1. lia.
Qed.

Lemma lgraph_of_length g : length (lgraph_of g) = gn g.
Proof. unfold lgraph_of. rewrite map_length, seq_length. auto. Qed.

Lemma in_lgraph_of g w adj : In (w, adj) (lgraph_of g) <-> exists u, u < gn g /\ w = gvw g u /\ adj = gadj g u.
Proof.
  unfold lgraph_of. rewrite in_map_iff. split.
  - intros (u & E & Hu). apply in_seq in Hu. injection E as <- <-. exists u. split; [lia|auto].
  - intros (u & Hu & -> & ->). exists u. split; auto. apply in_seq. lia.
Qed.

Lemma lgraph_of_ok g : fine g -> lg_ok (lgraph_of g).
Proof.
  intros (C & V & E) w adj Hin. apply in_lgraph_of in Hin as (u & Hu & -> & ->). split; [apply V; auto|].
  intros v x Hv. rewrite lgraph_of_length. split; [apply (C u v x Hu Hv)|apply (E u v x Hu Hv)].
Qed.

Lemma zsum_seq_sumn n f : zsum (map f (seq 0 n)) = sumn n f.
Proof. induction n; [reflexivity|]. rewrite seq_snoc, map_app, zsum_app, IHn, sumn_S. cbn. lia. Qed.

Lemma lg_is_nw_total g : lg_is_nw (lgraph_of g) = negb (total_weight g =? Z.of_nat (gn g))%Z.
Proof.
  unfold lg_is_nw. rewrite lgraph_of_length. unfold lgraph_of. rewrite map_map. cbn [fst].
  change (map (fun x => gvw g x) (seq 0 (gn g))) with (map (gvw g) (seq 0 (gn g))). rewrite zsum_seq_sumn. reflexivity.
Qed.

Lemma total_ge_n g : fine g -> (Z.of_nat (gn g) <= total_weight g)%Z.
Proof.
  intros (_ & V & _). unfold total_weight. rewrite <- zsum_seq_sumn.
  pose proof (zsum_ge_len (map (gvw g) (seq 0 (gn g)))) as G. rewrite map_length, seq_length in G. apply G.
  intros x Hx. apply in_map_iff in Hx as (u & <- & Hu). apply in_seq in Hu. apply V. lia.
Qed.

Lemma quotient_smaller g f h : is_quotient g f h -> gn h <= gn g.
Proof.
  intros (Q1 & Q2 & _).
  assert (incl (seq 0 (gn h)) (map f (seq 0 (gn g)))) as I.
  { intros c Hc. apply in_seq in Hc. destruct (Q2 c) as (u & Hu & <-); [lia|]. apply in_map, in_seq. lia. }
  pose proof (NoDup_incl_length (seq_NoDup (gn h) 0) I) as G. rewrite map_length, !seq_length in G. auto.
Qed.

Lemma lg_m_len g : lg_m g = length (map snd (concat (map snd g))).
Proof. unfold lg_m. rewrite map_length. induction g as [|r g IH]; auto. cbn [map concat list_sum fold_right]. rewrite app_length, <- IH. reflexivity. Qed.

Lemma lg_is_ew_iff g : fine g -> lg_is_ew (lgraph_of g) = true <-> edge_weighted g.
Proof.
  intros (_ & _ & He). unfold lg_is_ew. rewrite lg_m_len. set (l := map snd (concat (map snd (lgraph_of g)))).
  assert (forall x, In x l <-> exists u v, u < gn g /\ In (v, x) (gadj g u)) as Hl.
  { intros x. unfold l. rewrite in_map_iff. split.
    - intros ([v y] & E & Hin). cbn in E. subst y. apply in_concat in Hin as (r & Hr & Hin). apply in_map_iff in Hr as ([w adj] & E & Hr). cbn in E. subst r.
      apply in_lgraph_of in Hr as (u & Hu & _ & ->). eauto.
    - intros (u & v & Hu & Hin). exists (v, x). split; auto. apply in_concat. exists (gadj g u). split; auto.
      apply in_map_iff. exists (gvw g u, gadj g u). split; auto. apply in_lgraph_of. eauto. }
  assert (forall x, In x l -> (1 <= x)%Z) as Hp.
  { intros x Hx. apply Hl in Hx as (u & v & Hu & Hin). apply (He u v x Hu Hin). }
  rewrite negb_true_iff, Z.eqb_neq. split.
  - intros Hne. destruct (forallb (Z.eqb 1) l) eqn:E.
    + exfalso. apply Hne. rewrite forallb_forall in E. clear - E. induction l as [|x l IH]; auto. cbn [zsum length].
      rewrite (IH (fun y Hy => E y (or_intror Hy))). pose proof (E x (or_introl eq_refl)) as H. apply Z.eqb_eq in H. lia.
    + assert (exists x, In x l /\ x <> 1%Z) as (x & Hx & Hn).
      { clear - E. induction l as [|x l IH]; [discriminate|]. cbn [forallb] in E. destruct (Z.eqb_spec 1 x).
        - destruct (IH E) as (y & Hy & Hn). exists y. split; [right|]; auto.
        - exists x. split; [left|]; auto. }
      apply Hl in Hx as (u & v & Hu & Hin). exists u, v, x. auto.
  - intros (u & v & w & Hu & Hin & Hn) E. apply zsum_eq_len in E; auto.
    assert (In w l) as Hw by (apply Hl; eauto). rewrite E in Hw. apply repeat_spec in Hw. auto.
Qed.

Lemma carry g f h : fine g -> is_quotient g f h -> (edge_weighted g -> edge_weighted h) -> weights_carry (lgraph_of h) (lgraph_of g).
Proof.
  intros Hg Q Hw. pose proof (quotient_fine g f h Hg Q) as Hh. split.
  - rewrite !lg_is_nw_total, !negb_true_iff, !Z.eqb_neq. rewrite (quotient_total g h f Q).
    pose proof (total_ge_n g Hg). pose proof (quotient_smaller g f h Q). intros Hne E. apply Hne. lia.
  - rewrite !lg_is_ew_iff by auto. auto.
Qed.

(** ** Coarsening *)
Lemma coarsen_step_ok s g : step_ok s -> fine g -> 0 < gn g ->
  coarsen_step s g = Bad \/
  exists mapping h, coarsen_step s g = Ok (mapping, h) /\ is_quotient g (fun u => nth u mapping 0) h /\ length mapping = gn g.
Proof.
  intros (H1 & H2 & H3) Hg Hn. destruct (H3 g Hn) as (C & P0 & P1 & P2 & L). unfold coarsen_step.
  assert (positive_edges g) as Pe. { intros u v w Hu Hin. pose proof (proj2 (proj2 Hg) u v w Hu Hin). lia. }
  destruct (unbuffered_quotient (st_maxn s) (st_maxe s) (st_threads s) (st_mapsize s) (st_thr s) (st_hash s) g
          (st_clustering s g) (st_order0 s g) (st_order1 s g) (st_order2 s g) (st_garbage s g) (st_single s) (st_evs s g) (st_sched s g)
          H1 H2 Hn (proj1 Hg) Pe C P0 P1 P2 L) as [E|(mapping & nodes & edges & nw & ew & E & Q & Lm & _)]; rewrite E; auto.
  right. exists mapping, (user_graph nodes edges nw ew). auto.
Qed.

Fixpoint mapped (g : graph) (lvs : list (list nat * graph)) : Prop :=
  match lvs with [] => True | (mapping, h) :: rest => length mapping = gn g /\ mapped h rest end.

Lemma coarsen_loop_ok threshold steps : (forall s, In s steps -> step_ok s) -> forall shrunk g, fine g ->
  coarsen_loop threshold steps shrunk g = Bad \/
  exists lvs, coarsen_loop threshold steps shrunk g = Ok lvs /\ hierarchy g lvs /\ mapped g lvs.
Proof.
  induction steps as [|s rest IH]; intros Hs shrunk g Hg; cbn [coarsen_loop].
  - destruct (shrunk && (threshold <? gn g)); [left; auto|right; exists []; cbn; auto].
  - destruct (shrunk && (threshold <? gn g)) eqn:E; [|right; exists []; cbn; auto].
    apply andb_true_iff in E as [_ E]. apply Nat.ltb_lt in E.
    destruct (coarsen_step_ok s g (Hs s (or_introl eq_refl)) Hg ltac:(lia)) as [->|(mapping & h & -> & Q & L)]; auto.
    destruct (IH (fun s' H => Hs s' (or_intror H)) (st_shrunk s g h) h (quotient_fine _ _ _ Hg Q)) as [->|(lvs & -> & H & M)]; auto.
    right. exists ((mapping, h) :: lvs). cbn. auto.
Qed.

Lemma coarsest_fine lvs : forall g, fine g -> hierarchy g lvs -> fine (coarsest_of g lvs).
Proof.
  induction lvs as [|[mapping h] rest IH]; intros g Hg H; cbn in *; auto. destruct H as [Q H]. apply IH; auto. apply (quotient_fine _ _ _ Hg Q).
Qed.

Lemma finest_app g l lv : finest g (l ++ [lv]) = lv_g lv.
Proof. unfold finest. rewrite map_app. cbn [map]. apply last_last. Qed.

Lemma finest_levels lvs : forall g, finest (lgraph_of (coarsest_of g lvs)) (finer_levels g lvs) = lgraph_of g.
Proof.
  intros g. destruct lvs as [|[mapping h] rest]; [reflexivity|]. cbn [finer_levels]. apply finest_app.
Qed.

Lemma levels_ok_app c nx lv : forall l g, levels_ok c nx g l ->
  lg_ok (lv_g lv) -> (N.of_nat (length (lv_g lv) / c) <= 2 ^ 31)%N -> length (lv_map lv) = length (lv_g lv) ->
  (forall x, In x (lv_map lv) -> x < length (finest g l)) -> nx (finest g l) (lv_g lv) -> levels_ok c nx g (l ++ [lv]).
Proof.
  induction l as [|a l IH]; intros g H H1 H2 H3 H4 H5.
  - cbn [app levels_ok]. unfold finest in H4, H5. cbn [map last] in H4, H5. repeat (split; [assumption|]). exact I.
  - assert (finest g (a :: l) = finest (lv_g a) l) as E.
    { unfold finest. cbn [map]. clear. destruct (map lv_g l) as [|x t] eqn:Em; auto. cbn [last].
      assert (forall (t : list lgraph) x d d', last (x :: t) d = last (x :: t) d') as G.
      { clear. induction t as [|y t IH]; intros x d d'; auto. change (last (y :: t) d = last (y :: t) d'). auto. }
      apply (G t x). }
    rewrite E in H4, H5. cbn [levels_ok app] in *. destruct H as (A & B & C & D & F & G). repeat (split; auto).
Qed.

Lemma finer_levels_ok c lvs : forall g, fine g -> hierarchy g lvs -> mapped g lvs -> edge_weights_stay g lvs ->
  (N.of_nat (gn g / c) <= 2 ^ 31)%N ->
  levels_ok c weights_carry (lgraph_of (coarsest_of g lvs)) (finer_levels g lvs).
Proof.
  induction lvs as [|[mapping h] rest IH]; intros g Hg H M W B; cbn [finer_levels coarsest_of]; [exact I|].
  cbn in H, M, W. destruct H as [Q H], M as [L M], W as [W1 W].
  pose proof (quotient_fine _ _ _ Hg Q) as Hh. pose proof (quotient_smaller _ _ _ Q) as Hsm.
  assert (Bh : (N.of_nat (gn h / c) <= 2 ^ 31)%N).
  { destruct (Nat.eq_dec c 0) as [->|Hc]; [cbn; lia|]. pose proof (Nat.div_le_mono _ _ c Hc Hsm). lia. }
  apply levels_ok_app; cbn [lv_g lv_map]; rewrite ?finest_levels, ?lgraph_of_length; auto.
  - apply lgraph_of_ok; auto.
  - intros x Hx. destruct (In_nth _ _ 0 Hx) as (u & Hu & <-). destruct Q as (Q1 & _). apply Q1. lia.
  - apply (carry g (fun u => nth u mapping 0) h); auto.
Qed.

Lemma deep_partition_ok e k g : fine g -> 2 <= k -> (N.of_nat k < 2 ^ 31)%N -> env_ok e k -> (N.of_nat (gn g / pe_c e) <= 2 ^ 31)%N ->
  (forall lvs, coarsen_loop (pe_threshold e) (pe_steps e) true g = Ok lvs -> edge_weights_stay g lvs) ->
  deep_partition e k g = Bad \/
  exists labels, deep_partition e k g = Ok labels /\ length labels = gn g /\ forall x, In x labels -> x < k.
Proof.
  intros Hg Hk Hk31 (E1 & E2 & E3 & E4 & E5 & E6 & E7) B W. unfold deep_partition.
  destruct (coarsen_loop_ok (pe_threshold e) (pe_steps e) E1 true g Hg) as [E|(lvs & E & H & M)]; rewrite E; auto.
  right. specialize (W lvs E). set (g0 := lgraph_of (coarsest_of g lvs)). destruct (E2 g0) as [Hl Hlv].
  destruct (pe_initial e g0) as [part0 kp0]. cbn [fst snd] in Hl, Hlv.
  destruct (deep_lazy_ok (pe_ub e) k (pe_factor e) (pe_threads e) (last_ip_level (pe_c e) k 0 lvs) (pe_nthreads e) (pe_choices e) (pe_tid e)
    (pe_refine e) (pe_c e) (pe_refine_after e) (finer_levels g lvs) g0 (repeat free_smem (pe_nthreads e)) part0 kp0) as (mems' & part' & tr & -> & Hlab & _); auto.
  - apply repeat_length.
  - intros m Hm. apply repeat_spec in Hm. subst m. split; intros _; cbn; lia.
  - apply finer_levels_ok; auto.
  - apply lgraph_of_ok. apply coarsest_fine; auto.
  - exists part'. split; auto. unfold g0 in Hlab. rewrite finest_levels in Hlab. destruct Hlab as [A C]. rewrite lgraph_of_length in A. auto.
Qed.

(** ** The facade *)
Lemma user_graph_fine xadj adjncy vwgt adjwgt : wf_csr xadj adjncy vwgt adjwgt ->
  (forall x, In x vwgt -> (1 <= x)%Z) -> (forall x, In x adjwgt -> (1 <= x)%Z) -> fine (user_graph xadj adjncy vwgt adjwgt).
Proof.
  intros Hwf Hv He. split; [apply user_graph_closed; auto|]. pose proof Hwf as (_ & _ & _ & _ & _ & Lv & Le). split.
  - intros u Hu. cbn [gvw user_graph gn] in *. destruct vwgt as [|x t] eqn:E; [lia|]. rewrite <- E in *. apply Hv, nth_In.
    destruct Lv as [Lv|Lv]; [congruence|lia].
  - intros u v w Hu Hin. cbn [gadj user_graph gn] in *. apply in_map_iff in Hin as (e & Ep & Hin). injection Ep as <- <-.
    destruct adjwgt as [|x t] eqn:E; [lia|]. rewrite <- E in *. apply He, nth_In. destruct Le as [Le|Le]; [congruence|].
    apply in_seq in Hin. pose proof (wf_csr_range xadj adjncy vwgt adjwgt u Hwf ltac:(lia)). lia.
Qed.

Lemma same_fine g h : same_graph g h -> fine h -> fine g.
Proof.
  intros [E S] (C & V & W). split; [|split].
  - intros u v w Hu Hin. destruct (S u Hu) as [A _]. rewrite A in Hin. rewrite E in *. apply (C u v w Hu Hin).
  - intros u Hu. destruct (S u Hu) as [_ ->]. apply V. lia.
  - intros u v w Hu Hin. destruct (S u Hu) as [A _]. rewrite A in Hin. apply (W u v w); [lia|auto].
Qed.

Lemma conn_exists g u v : (0 < conn g u v)%Z -> exists w, In (v, w) (gadj g u).
Proof.
  unfold conn. intros H. destruct (filter (fun e => fst e =? v) (gadj g u)) as [|[a w] l] eqn:E; [cbn in H; lia|].
  exists w. assert (In (a, w) (filter (fun e => fst e =? v) (gadj g u))) as Hin by (rewrite E; left; auto).
  apply filter_In in Hin as [Hin Ha]. cbn in Ha. apply Nat.eqb_eq in Ha. subst a. auto.
Qed.

Section Call.
Variables (xadj adjncy : list nat) (vwgt adjwgt : list Z).
Hypothesis Hwf : wf_csr xadj adjncy vwgt adjwgt.
Hypothesis Hvw : forall x, In x vwgt -> (1 <= x)%Z.
Hypothesis Hew : forall x, In x adjwgt -> (1 <= x)%Z.
Hypothesis Hm : (N.of_nat (length adjncy) < 2 ^ 31)%N.
Hypothesis Hn : 0 < length xadj - 1.
Hypothesis Hund : undirected (user_graph xadj adjncy vwgt adjwgt).
Let n := length xadj - 1.
Let ug := user_graph xadj adjncy vwgt adjwgt.
Let rep := represents xadj adjncy vwgt adjwgt.

Lemma input_fine c f : rep (fc_graph f) -> 0 < pc_concurrency c ->
  length (pc_junk_edges c) = length adjncy -> length (pc_junk_weights c) = length adjwgt ->
  fine (cg_graph (fc_partitioner_input c f)) /\ gn (cg_graph (fc_partitioner_input c f)) <= n.
Proof using All.
  intros Hrep Hc Hj Hjw. unfold fc_partitioner_input.
  pose proof (rearranged_rep xadj adjncy vwgt adjwgt Hwf Hvw Hew Hm c f Hrep Hc Hj Hjw) as Hrep1.
  destruct Hrep1 as [nodes vws Fn Fv | xadj' edges' vw' ew' perm n' Hwf' Hs Hlx Hle Hlp Hiso Hpv Hpe].
  - unfold fc_cut_off_isolated. simpl cg_sorted. cbv iota. split.
    + apply (same_fine _ ug); [|apply user_graph_fine; auto].
      apply (cg_make_faithful nodes adjncy vws adjwgt false xadj vwgt Fn Fv Hwf Hvw Hew).
    + cbn [gn cg_graph]. unfold cg_n; simpl. destruct Fn as [_ ->]. auto.
  - unfold fc_cut_off_isolated. change (cg_sorted (sorted_csr xadj' edges' vw' ew' perm)) with true. cbv iota.
    pose proof (removed_graph xadj' edges' vw' ew' perm n' Hwf' Hs Hpv Hpe) as RG. cbv zeta in RG. destruct RG as [RG _].
    pose proof (removed_n xadj' edges' vw' ew' perm n' Hs) as RN. cbv zeta in RN.
    set (g' := user_graph xadj' edges' vw' ew') in *.
    pose proof (user_graph_fine xadj' edges' vw' ew' Hwf' Hpv Hpe) as Fg. fold g' in Fg.
    assert (undirected g') as Ug by (apply (iso_undirected (fun u => nth u perm 0) ug); auto; apply user_graph_closed; auto).
    pose proof Hs as (S1 & S2 & S3 & _).
    split; [|cbn [gn cg_graph]; rewrite RN; unfold n; lia].
    apply (same_fine _ (prefix_graph n' g')); auto. destruct Fg as (C & V & W).
    assert (forall u, u < n' -> u < gn g') as Hin' by (intros u Hu; cbn; lia).
    split; [|split]; cbn [prefix_graph gn gadj gvw].
    + intros u v w Hu Hin. change (gadj (prefix_graph n' g')) with (gadj g') in *. change (gn (prefix_graph n' g')) with n' in *.
      pose proof (Hin' u Hu) as Hu'. pose proof (C u v w Hu' Hin) as Hv.
      destruct (Nat.lt_ge_cases v n') as [|Hge]; auto. exfalso.
      pose proof (conn_pos g' u v w (conj C (conj V W)) Hu' Hin) as P. rewrite (Ug u v Hu' Hv) in P.
      destruct (conn_exists g' v u ltac:(lia)) as (w' & Hin2). revert Hin2. unfold g'. rewrite user_graph_adj.
      specialize (S3 v). unfold degree_of in S3. rewrite S3; [intros []|]. cbn in Hv. lia.
    + intros u Hu. apply V. auto.
    + intros u v w Hu Hin. apply (W u v w); auto.
Qed.

Lemma full_call_ok bits e c f : rep (fc_graph f) -> legal_call (length adjncy) (length adjwgt) n e c f ->
  full_call bits e c f = Bad \/
  exists f' out ret, full_call bits e c f = Ok (f', out, ret) /\ rep (fc_graph f') /\
    length out = n + (length (pc_out c) - n) /\
    (forall u, n <= u -> nth u out 0 = nth u (pc_out c) 0 \/ length (pc_out c) < n) /\
    (forall u, u < n -> nth u out 0 < pc_k c) /\
    ((- 2 ^ (bits - 1) <= cut_weight ug (fun u => nth u out 0%nat) < 2 ^ (bits - 1))%Z ->
       ret = Some (cut_weight ug (fun u => nth u out 0))).
Proof using All.
  intros Hrep (L1 & L2 & L3 & L4 & L5 & L6 & L7 & L8 & L9). unfold full_call.
  destruct (input_fine c f Hrep L3 L4 L5) as [Fi Ni].
  set (gi := cg_graph (fc_partitioner_input c f)) in *.
  assert (B : (N.of_nat (gn gi / pe_c e) <= 2 ^ 31)%N).
  { destruct L7 as (_ & _ & Hc & _). pose proof (Nat.div_le_mono _ _ (pe_c e) ltac:(lia) Ni). lia. }
  destruct (deep_partition_ok e (pc_k c) gi Fi L1 L2 L7 B L9) as [->|(labels & -> & Ll & Lk)]; auto. right.
  pose proof (compute_partition_spec xadj adjncy vwgt adjwgt Hwf Hvw Hew Hm Hn Hund bits (with_labels c labels) f Hrep) as H.
  assert (valid_call (length adjncy) (length adjwgt) (length xadj - 1) (with_labels c labels) f) as Hv.
  { unfold valid_call. cbn [with_labels pc_k pc_concurrency pc_junk_edges pc_junk_weights pc_labels pc_threads pc_schedule].
    repeat (split; auto). lia. }
  specialize (H Hv). destruct (compute_partition bits (with_labels c labels) f) as [[f' out] ret].
  exists f', out, ret. split; auto. destruct H as (H1 & H2 & H3 & H4 & H5 & _). repeat (split; auto).
Qed.

Lemma full_calls_ok bits cs : forall f, rep (fc_graph f) -> legal_history (length adjncy) (length adjwgt) n bits cs f ->
  full_calls bits cs f = Bad \/ exists f', full_calls bits cs f = Ok f' /\ rep (fc_graph f').
Proof using All.
  induction cs as [|[e c] cs IH]; intros f Hr Hl; cbn [full_calls]; [right; eauto|]. destruct Hl as [Hc Hl].
  destruct (full_call_ok bits e c f Hr Hc) as [->|(f' & out & ret & E & Hr' & _)]; auto. rewrite E.
  specialize (Hl _ E). cbn [fst] in Hl. apply IH; auto.
Qed.

Lemma pipeline_ok bits (borrowed : bool) cs e c :
  let f0 := if borrowed then borrow_and_mutate_graph xadj adjncy vwgt adjwgt else copy_graph xadj adjncy vwgt adjwgt in
  legal_history (length adjncy) (length adjwgt) n bits cs f0 ->
  full_calls bits cs f0 = Bad \/
  exists f, full_calls bits cs f0 = Ok f /\
  (legal_call (length adjncy) (length adjwgt) n e c f -> n <= length (pc_out c) ->
   full_call bits e c f = Bad \/
   exists f' out ret, full_call bits e c f = Ok (f', out, ret) /\
     length out = length (pc_out c) /\ (forall u, u < n -> nth u out 0 < pc_k c) /\
     (forall u, n <= u -> nth u out 0 = nth u (pc_out c) 0) /\
     ((- 2 ^ (bits - 1) <= cut_weight ug (fun u => nth u out 0%nat) < 2 ^ (bits - 1))%Z ->
       ret = Some (cut_weight ug (fun u => nth u out 0)))).
Proof using All.
  intros f0 Hh. destruct (full_calls_ok bits cs f0 (initial_rep xadj adjncy vwgt adjwgt borrowed) Hh) as [->|(f & -> & Hr)]; auto.
  right. exists f. split; auto. intros Hc Hlen.
  destruct (full_call_ok bits e c f Hr Hc) as [->|(f' & out & ret & -> & _ & H2 & H3 & H4 & H5)]; auto.
  right. exists f', out, ret. split; auto. split; [lia|]. repeat (split; auto).
  intros u Hu. destruct (H3 u Hu); auto. lia.
Qed.
End Call.
