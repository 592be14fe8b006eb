(* What is read through the local structures after every history. *)
From Verif Require Import Lib.Prelude Spec.Graph Spec.Gain Spec.KeyedList Spec.LocalView Model.DynMapModel Model.DeltaModel Model.GainModel
  Proofs.GraphFacts Proofs.GainBase Proofs.GainSys Proofs.DenseGain Proofs.CompactGainBase Proofs.CompactGain Proofs.DynMapProofs Proofs.DeltaProofs Proofs.GainTop.

Section T.
Variables (g : graph) (k : nat) (hash : nat -> nat) (all exact : bool) (cache : list nat -> bcache).
Hypothesis (Hc : closed_graph g) (Hs : undirected g).
Hypothesis Hcache : forall lab, labels_ok g k lab -> cache_exact g k all exact (label_of lab) (cache lab).
Notation n := (gn g).

Lemma start_ok lab bw : labels_ok g k lab -> length bw = k -> exact_block_weights g lab bw ->
  ok g k hash 1%N {| x_lab := lab; x_bw := bw; x_d := dl_make k |} [].
Proof.
  intros HL Hk HW. split; [exact HL|]. cbn [x_lab x_bw x_d]. split; [|split; [|split]].
  - split; auto. intros b Hb. rewrite (nth_error_in bw b 0%Z) by lia. f_equal. destruct HW as (_ & _ & HW). rewrite (HW b) by lia. reflexivity.
  - cbn [dl_make dl_part]. split; [cbn; lia|]. split; [exists []; split; [apply make_dinv|auto]|]. split; [constructor|]. intros u b [].
  - cbn [dl_make dl_w]. rewrite repeat_length. split; auto. intros b Hb. rewrite (nth_error_in _ _ 0%Z) by (rewrite repeat_length; lia).
    rewrite nth_repeat. f_equal. unfold vw, view. cbn [kl_get x_lab]. unfold label_of. lia.
  - split; [cbn; lia|]. exists []. split; [exists []; split; [apply make_dinv|auto]|]. split; [constructor|].
    intros v b Hv Hb. unfold vw, view. cbn [kl_get x_lab cget]. unfold label_of. lia.
Qed.
Lemma start_afs lab bw : afs g k {| x_lab := lab; x_bw := bw; x_d := dl_make k |} [].
Proof.
  intros v Hv. split; [constructor|]. split; [intros b []|]. intros b Hb _ _. unfold vw, view. cbn [kl_get x_lab]. unfold label_of. lia.
Qed.

Section S.
Variables (T : N) (s : lsys) (D : list (nat * nat)).
Hypothesis HO : ok g k hash T s D.
Notation p := (label_of (x_lab s)).
Notation q := (vw s D).
Lemma s_labels : labels_ok g k (x_lab s). Proof. apply HO. Qed.
Lemma r_weight b : b < k -> dg_block_weight (x_bw s) (x_d s) b = Some (block_weight g q b).
Proof. intros Hb. destruct HO as (_ & (_ & H1) & _ & (_ & H2) & _). unfold dg_block_weight. rewrite H1, H2 by auto. f_equal. lia. Qed.
Lemma r_delta u b : u < n -> b < k -> dc_delta k hash (x_d s) u b = Some (block_conn g q u b - block_conn g p u b)%Z.
Proof. intros Hu Hb. destruct HO as (_ & _ & _ & _ & H). exact (has_delta g k hash T _ _ u b H Hu Hb). Qed.
Lemma r_conn u b : u < n -> b < k -> dc_conn k hash (cache (x_lab s)) (x_d s) u b = Some (block_conn g q u b).
Proof.
  intros Hu Hb. unfold dc_conn. destruct (Hcache _ s_labels u Hu) as (H1 & _ & _). rewrite (H1 b Hb), (r_delta u b Hu Hb). f_equal. lia.
Qed.
Lemma r_gain u a b : u < n -> a < k -> b < k ->
  dc_gain k hash (cache (x_lab s)) (x_d s) u a b = Some (block_conn g q u b - block_conn g q u a)%Z.
Proof.
  intros Hu Ha Hb. unfold dc_gain. destruct (Hcache _ s_labels u Hu) as (_ & H1 & _). rewrite (H1 a b Ha Hb), !r_delta by auto. f_equal. lia.
Qed.
Lemma r_size : dg_size (x_d s) = length D /\ Permutation (dg_for_each (x_d s)) D.
Proof.
  destruct HO as (_ & _ & (_ & H1 & _) & _). destruct (for_each_ok false hash 0 _ _ H1) as (H2 & H3 & _). auto.
Qed.
Lemma adjust_fold u cfd l : u < n -> (forall b x, In (b, x) l -> b < k) -> forall acc,
  fold_left (dc_adjust k hash (x_d s) u cfd) l (Some acc) =
  Some (acc ++ map (fun e => (fst e, snd e + (block_conn g q u (fst e) - block_conn g p u (fst e)) - cfd)%Z) l).
Proof.
  intros Hu. induction l as [|[b x] l IH]; intros Hl acc; cbn [fold_left map fst snd]; [rewrite app_nil_r; auto|].
  unfold dc_adjust at 2. cbn [fst snd]. rewrite r_delta by (auto; eapply Hl; left; eauto).
  rewrite IH by (intros; eapply Hl; right; eauto). rewrite <- app_assoc. reflexivity.
Qed.
Definition fval (u from : nat) : Z := if exact then block_conn g q u from else 0%Z.
Definition fbase (u from : nat) : Z := if exact then block_conn g p u from else 0%Z.
Lemma r_from u from : u < n -> from < k -> dc_from_delta k hash exact (x_d s) u from = Some (fval u from - fbase u from)%Z.
Proof. intros Hu Hf. unfold dc_from_delta, fval, fbase. destruct exact; auto. apply r_delta; auto. Qed.
Lemma r_gains u from : u < n -> from < k ->
  exists l, dc_gains k hash exact (cache (x_lab s)) (x_d s) u from = Some l /\
    Permutation l (map (fun b => (b, block_conn g q u b - fval u from)%Z)
      (filter (fun b => negb (b =? from) && (all || (0 <? block_conn g p u b)%Z)) (seq 0 k))).
Proof.
  intros Hu Hf. unfold dc_gains. rewrite r_from by auto. destruct (Hcache _ s_labels u Hu) as (_ & _ & H1).
  destruct (H1 from Hf) as (l & E & HP). rewrite E.
  rewrite adjust_fold; auto.
  - eexists. split; [reflexivity|]. cbn [app].
    rewrite (Permutation_map (fun e => (fst e, snd e + (block_conn g q u (fst e) - block_conn g p u (fst e)) - (fval u from - fbase u from))%Z) HP).
    unfold targets. rewrite map_map. cbn [fst snd]. apply Permutation_refl'. apply map_ext. intros b. f_equal. unfold fbase. destruct exact; lia.
  - intros b x Hin. apply (Permutation_in _ HP) in Hin. unfold targets in Hin. apply in_map_iff in Hin. destruct Hin as (b' & Eb & Hin).
    injection Eb as -> _. apply filter_In in Hin. destruct Hin as [Hin _]. apply in_seq in Hin. lia.
Qed.
Lemma extra_fold u from cfd : u < n -> from < k -> forall ex acc, (forall b, In b ex -> b < k) ->
  fold_left (dc_extra k hash (cache (x_lab s)) (x_d s) u from cfd) ex (Some acc) =
  Some (acc ++ map (fun b => (b, block_conn g q u b - block_conn g p u from - cfd)%Z) (filter (fun b => negb (b =? from)) ex)).
Proof.
  intros Hu Hf. induction ex as [|b ex IH]; intros acc Hex; cbn [fold_left map filter]; [rewrite app_nil_r; auto|].
  unfold dc_extra at 2. destruct (Nat.eqb_spec b from) as [->|Hn]; cbn [negb]; [apply IH; intros; apply Hex; right; auto|].
  assert (Hb : b < k) by (apply Hex; left; auto). destruct (Hcache _ s_labels u Hu) as (_ & H1 & _).
  rewrite (H1 from b Hf Hb), (r_delta u b Hu Hb), IH by (intros; apply Hex; right; auto). cbn [map]. rewrite <- app_assoc. cbn [app].
  do 4 f_equal. lia.
Qed.
End S.

Lemma delta_view lk lab bw es : simple_graph g -> labels_ok g k lab -> length bw = k -> exact_block_weights g lab bw ->
  (1 + N.of_nat (length (filter is_lclear es)) < 2 ^ 64)%N ->
  exists s, l_run g k hash cache lk es {| x_lab := lab; x_bw := bw; x_d := dl_make k |} = Some s /\
    let D := snd (lv_run n k lab es) in
    let q := view (label_of (fst (lv_run n k lab es))) D in
    x_lab s = fst (lv_run n k lab es) /\
    (forall u, u < n -> dg_block hash (x_lab s) (x_d s) u = Some (q u)) /\
    (forall b, b < k -> dg_block_weight (x_bw s) (x_d s) b = Some (block_weight g q b)) /\
    (dg_size (x_d s) = length D /\ Permutation (dg_for_each (x_d s)) D) /\
    (forall u, u < n ->
      (forall b, b < k -> dc_conn k hash (cache (x_lab s)) (x_d s) u b = Some (block_conn g q u b)) /\
      (forall b, b < k -> dc_gain k hash (cache (x_lab s)) (x_d s) u (q u) b = Some (cut_weight g q - cut_weight g (relabel q u b))%Z) /\
      (forall a b, a < k -> b < k -> dc_gain k hash (cache (x_lab s)) (x_d s) u a b = Some (block_conn g q u b - block_conn g q u a)%Z) /\
      (all = true -> forall from, from < k -> exists l, dc_gains k hash exact (cache (x_lab s)) (x_d s) u from = Some l /\
         Permutation l (targets k true exact (block_conn g q u) from))).
Proof.
  intros Hsim HL Hk HW Hcl.
  assert (Hcc : forall lab, labels_ok g k lab -> forall u b, u < n -> b < k -> bc_conn (cache lab) u b = Some (block_conn g (label_of lab) u b)).
  { intros lab' HL' u b Hu Hb. destruct (Hcache lab' HL' u Hu) as (H1 & _). auto. }
  destruct (run_ok_delta g k hash Hc Hs cache Hcc lk es 1%N _ [] (start_ok lab bw HL Hk HW) Hcl) as (s & T & E & HR).
  cbn [x_lab] in HR. fold (lv_run n k lab es) in HR. destruct HR as (El & HO & _). exists s. split; auto. cbv zeta.
  rewrite <- El. fold (vw s (snd (lv_run n k lab es))). set (D := snd (lv_run n k lab es)) in *.
  split; auto. split; [intros; eapply block_ok; eauto|]. split; [intros; eapply r_weight; eauto|]. split; [eapply r_size; eauto|].
  intros u Hu. split; [intros; eapply r_conn; eauto|]. split; [|split; [intros; eapply r_gain; eauto|]].
  - intros b Hb. erewrite r_gain; eauto; [|eapply vw_lt; eauto]. f_equal. symmetry. apply gain_is_cut_decrease; auto. apply simple_no_loop; auto.
  - intros Ha from Hf. destruct (r_gains T s D HO u from Hu Hf) as (l & E1 & HP). exists l. split; auto. rewrite Ha in HP. exact HP.
Qed.

Lemma delta_clear lk lab bw es : simple_graph g -> labels_ok g k lab -> length bw = k -> exact_block_weights g lab bw ->
  (2 + N.of_nat (length (filter is_lclear es)) < 2 ^ 64)%N ->
  exists s, l_run g k hash cache lk (es ++ [LClear]) {| x_lab := lab; x_bw := bw; x_d := dl_make k |} = Some s /\
    dg_size (x_d s) = 0 /\ dg_for_each (x_d s) = [] /\
    (forall u, u < n -> dg_block hash (x_lab s) (x_d s) u = nth_error (x_lab s) u) /\
    (forall b, b < k -> dg_block_weight (x_bw s) (x_d s) b = nth_error (x_bw s) b) /\
    (forall u a b, u < n -> a < k -> b < k ->
       dc_conn k hash (cache (x_lab s)) (x_d s) u b = bc_conn (cache (x_lab s)) u b /\
       dc_gain k hash (cache (x_lab s)) (x_d s) u a b = bc_gain (cache (x_lab s)) u a b).
Proof.
  intros Hsim HL Hk HW Hcl.
  assert (Hcc : forall lab, labels_ok g k lab -> forall u b, u < n -> b < k -> bc_conn (cache lab) u b = Some (block_conn g (label_of lab) u b)).
  { intros lab' HL' u b Hu Hb. destruct (Hcache lab' HL' u Hu) as (H1 & _). auto. }
  assert (Hcl' : (1 + N.of_nat (length (filter is_lclear (es ++ [LClear]))) < 2 ^ 64)%N).
  { rewrite filter_app, app_length. cbn [filter is_lclear length]. lia. }
  destruct (run_ok_delta g k hash Hc Hs cache Hcc lk (es ++ [LClear]) 1%N _ [] (start_ok lab bw HL Hk HW) Hcl') as (s & T & E & HR).
  cbn [x_lab] in HR. fold (lv_run n k lab (es ++ [LClear])) in HR. destruct HR as (El & HO & _). exists s. split; auto.
  assert (ED : snd (lv_run n k lab (es ++ [LClear])) = []).
  { unfold lv_run. rewrite fold_left_app. cbn [fold_left]. destruct (fold_left _ es (lab, [])). reflexivity. }
  rewrite ED in HO. clear ED El. destruct (r_size T s [] HO) as [S1 S2]. split; auto. split; [apply Permutation_nil, Permutation_sym; auto|].
  split; [|split].
  - intros u Hu. rewrite (block_ok g k hash T s [] u HO Hu). unfold vw, view. cbn [kl_get]. destruct (s_labels T s [] HO) as [HL1 _].
    rewrite (nth_error_in _ _ 0) by lia. reflexivity.
  - intros b Hb. rewrite (r_weight T s [] HO b Hb). destruct HO as (_ & (_ & H1) & _). rewrite (H1 b Hb). reflexivity.
  - intros u a b Hu Ha Hb. rewrite (r_conn T s [] HO u b Hu Hb), (r_gain T s [] HO u a b Hu Ha Hb).
    destruct (Hcache _ (s_labels T s [] HO) u Hu) as (H1 & H2 & _). rewrite (H1 b Hb), (H2 a b Ha Hb). split; reflexivity.
Qed.

Lemma delta_large_k lab bw es : simple_graph g -> positive_edges g -> all = false -> labels_ok g k lab -> length bw = k -> exact_block_weights g lab bw ->
  (1 + N.of_nat (length (filter is_lclear es)) < 2 ^ 64)%N -> forallb (fun e => negb (is_xmove e)) es = true ->
  exists s, l_run g k hash cache true es {| x_lab := lab; x_bw := bw; x_d := dl_make k |} = Some s /\
    let q := view (label_of lab) (snd (lv_run n k lab es)) in
    forall u from, u < n -> from < k -> exists l, lk_gains k hash exact (cache (x_lab s)) (x_d s) u from = Some l /\
      NoDup (map fst l) /\
      (forall b, In b (map fst l) -> b < k /\ b <> from) /\
      (forall b, b < k -> b <> from -> (0 < block_conn g q u b)%Z -> In b (map fst l)) /\
      (exact = true -> forall b x, In (b, x) l -> x = block_conn g q u b - block_conn g q u from)%Z.
Proof.
  intros Hsim Hpos Hall HL Hk HW Hcl Hnx.
  assert (Hcc : forall lab, labels_ok g k lab -> forall u b, u < n -> b < k -> bc_conn (cache lab) u b = Some (block_conn g (label_of lab) u b)).
  { intros lab' HL' u b Hu Hb. destruct (Hcache lab' HL' u Hu) as (H1 & _). auto. }
  destruct (run_ok_delta g k hash Hc Hs cache Hcc true es 1%N _ [] (start_ok lab bw HL Hk HW) Hcl) as (s & T & E & HR).
  cbn [x_lab] in HR. fold (lv_run n k lab es) in HR. destruct HR as (El & HO & HA). exists s. split; auto. cbv zeta.
  assert (Elab : fst (lv_run n k lab es) = lab).
  { unfold lv_run. clear - Hnx. generalize (@nil (nat * nat)). induction es as [|e es' IH]; intros D; auto. cbn [forallb] in Hnx.
    apply Bool.andb_true_iff in Hnx. destruct Hnx as [H1 H2]. cbn [fold_left]. destruct e; cbn [lv_step].
    - destruct (_ && _); apply IH; auto.
    - apply IH; auto.
    - discriminate. }
  rewrite Elab in El. replace (label_of lab) with (label_of (x_lab s)) by (rewrite El; reflexivity). fold (vw s (snd (lv_run n k lab es))). set (D := snd (lv_run n k lab es)) in *.
  specialize (HA eq_refl Hsim Hpos Hnx (start_afs lab bw)).
  intros u from Hu Hf. unfold lk_gains. rewrite (r_from T s D HO u from Hu Hf).
  destruct (r_gains T s D HO u from Hu Hf) as (l & E1 & HP). rewrite E1. rewrite Hall in HP.
  destruct (HA u Hu) as (HN & HB & HZ).
  rewrite (extra_fold T s D HO u from _ Hu Hf); [|intros b Hb; apply HB; auto]. eexists. split; [reflexivity|].
  set (ex := dl_extra (x_d s) u) in *. set (p := label_of (x_lab s)) in *. set (q := vw s D) in *.
  assert (HPm : Permutation (map fst l) (filter (fun b => negb (b =? from) && (0 <? block_conn g p u b)%Z) (seq 0 k))).
  { rewrite HP, map_map. cbn [fst orb]. rewrite map_id. apply Permutation_refl. }
  assert (Hm : forall b, In b (map fst l) <-> b < k /\ b <> from /\ (0 < block_conn g p u b)%Z).
  { intros b. rewrite (Permutation_in' eq_refl HPm), filter_In, in_seq, Bool.andb_true_iff, Bool.negb_true_iff, Nat.eqb_neq, Z.ltb_lt. intuition lia. }
  rewrite map_app, map_map. cbn [fst]. rewrite map_id.
  assert (Hex : forall b, In b (filter (fun b => negb (b =? from)) ex) <-> In b ex /\ b <> from).
  { intros b. rewrite filter_In, Bool.negb_true_iff, Nat.eqb_neq. tauto. }
  split; [|split; [|split]].
  - apply NoDup_app_intro.
    + apply (Permutation_NoDup (Permutation_sym HPm)). apply NoDup_filter, seq_NoDup.
    + apply NoDup_filter; auto.
    + intros b H1 H2. apply Hm in H1. apply Hex in H2. destruct (HB b (proj1 H2)) as [_ E0]. lia.
  - intros b Hin. apply in_app_iff in Hin. destruct Hin as [Hin|Hin]; [apply Hm in Hin; tauto|]. apply Hex in Hin. destruct Hin as [H1 H2].
    split; auto. apply HB; auto.
  - intros b Hb Hn H0. change (0 < block_conn g q u b)%Z in H0. apply in_app_iff. destruct (Z.eq_dec (block_conn g p u b) 0) as [E0|E0].
    + right. apply Hex. split; auto. destruct (in_dec Nat.eq_dec b ex) as [|Hni]; auto. specialize (HZ b Hb Hni E0). cbn beta in HZ. lia.
    + left. apply Hm. split; auto. split; auto. pose proof (proj1 (block_conn_bounds g p u b Hpos Hu)). lia.
  - intros He b x Hin. apply in_app_iff in Hin. destruct Hin as [Hin|Hin].
    + apply (Permutation_in _ HP) in Hin. apply in_map_iff in Hin. destruct Hin as (b' & Eb & _). injection Eb as <- <-. unfold fval. rewrite He. reflexivity.
    + apply in_map_iff in Hin. destruct Hin as (b' & Eb & _). injection Eb as <- <-. unfold fval, fbase. rewrite He. fold p q. lia.
Qed.
End T.

(** * The caches of C17 can be the shared cache *)
Definition dense_cache (g : graph) (k : nat) (all exact : bool) (lab : list nat) : bcache :=
  match d_init g k lab with
  | None => {| bc_conn := fun _ _ => None; bc_gain := fun _ _ _ => None; bc_gains := fun _ _ => None |}
  | Some m => {| bc_conn := d_conn k m; bc_gain := d_gain k m; bc_gains := d_gains k all exact m |}
  end.
Lemma dense_cache_exact g k all exact : closed_graph g -> undirected g -> simple_graph g ->
  forall lab, labels_ok g k lab -> cache_exact g k all exact (label_of lab) (dense_cache g k all exact lab).
Proof.
  intros Hc Hs Hsim lab HL. destruct (dense_reports g k lab 0 [] Hc Hs Hsim HL) as (c0 & s & E0 & E1 & _ & HR).
  cbn in E1. injection E1 as <-. unfold dense_cache. rewrite E0. intros u Hu. destruct (HR u Hu eq_refl) as (R1 & _ & R2 & R3 & _).
  cbn [bc_conn bc_gain bc_gains]. split; [exact R1|]. split; [exact R2|]. intros from Hf. apply (R3 all exact from Hf).
Qed.
Definition compact_cache (g : graph) (k np : nat) (junk : N) (all exact : bool) (lab : list nat) : bcache :=
  match cg_init g k np junk lab with
  | None => {| bc_conn := fun _ _ => None; bc_gain := fun _ _ _ => None; bc_gains := fun _ _ => None |}
  | Some m => {| bc_conn := cg_conn g k np junk m; bc_gain := cg_gain g k np junk m; bc_gains := cg_gains g k np junk all exact m |}
  end.
Lemma compact_cache_exact g k np junk all exact : closed_graph g -> undirected g -> simple_graph g -> positive_edges g -> cg_fits g k -> 0 < np ->
  forall lab, labels_ok g k lab -> cache_exact g k all exact (label_of lab) (compact_cache g k np junk all exact lab).
Proof.
  intros Hc Hs Hsim Hpos Hfit Hnp lab HL. destruct (compact_reports g k np junk lab 0 [] Hc Hs Hsim Hpos Hfit Hnp HL) as (c0 & s & E0 & E1 & _ & HR).
  cbn in E1. injection E1 as <-. unfold compact_cache. rewrite E0. intros u Hu. destruct (HR u Hu eq_refl) as (R1 & _ & R2 & R3 & _).
  cbn [bc_conn bc_gain bc_gains]. split; [exact R1|]. split; [exact R2|]. intros from Hf. apply (R3 all exact from Hf).
Qed.
