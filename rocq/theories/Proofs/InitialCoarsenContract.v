(* The contraction of Model/InitialCoarsenModel.v builds the quotient graph, and a clustering of it. *)
From Verif Require Import Lib.Prelude Lib.Count Spec.Graph Spec.Quotient Spec.RatingMap Model.RatingMapModel Model.VarintModel
  Model.InitialCoarsenModel Proofs.GraphFacts Proofs.RatingMapProofs Proofs.PermProofs Proofs.QuotientProofs Proofs.ContractProofs
  Proofs.InitialCoarsenBase Proofs.InitialCoarsenMap.

Lemma acc_fold_pos ops : (forall k v, In (RAdd k v) ops -> (0 < v)%Z) -> forall l, (forall e, In e l -> (0 < snd e)%Z) ->
  forall e, In e (fold_left acc_step ops l) -> (0 < snd e)%Z.
Proof.
  induction ops as [|o ops IH]; intros Hp l Hl; [exact Hl|]. cbn [fold_left]. apply IH; [intros k v H; apply (Hp k v); right; exact H|].
  destruct o as [k v|]; cbn [acc_step]; [|intros e []]. apply acc_add_values; [exact Hl|]. apply (Hp k v). left. reflexivity.
Qed.
Lemma partition_perm {A} (own : A -> nat) (l : list A) k : (forall x, In x l -> own x < k) ->
  Permutation (flat_map (fun t => filter (fun x => own x =? t) l) (seq 0 k)) l.
Proof.
  induction l as [|x l IH]; intros H.
  - cbn. induction (seq 0 k); [constructor|]. cbn. assumption.
  - assert (Hx := H x (or_introl eq_refl)).
    assert (Hs : seq 0 k = seq 0 (own x) ++ own x :: seq (S (own x)) (k - S (own x))).
    { replace k with (own x + S (k - S (own x))) at 1 by lia. rewrite seq_app. reflexivity. }
    transitivity (x :: flat_map (fun t => filter (fun y => own y =? t) l) (seq 0 k)); [|apply perm_skip, IH; intros y Hy; apply H; right; exact Hy].
    rewrite Hs, !flat_map_app. cbn [flat_map]. cbn [filter]. rewrite Nat.eqb_refl.
    assert (E1 : forall ts, ~ In (own x) ts -> flat_map (fun t => if own x =? t then x :: filter (fun y => own y =? t) l else filter (fun y => own y =? t) l) ts
        = flat_map (fun t => filter (fun y => own y =? t) l) ts).
    { induction ts as [|t ts IHt]; intros Ht; [reflexivity|]. cbn [flat_map]. rewrite IHt by (intros Hi; apply Ht; right; exact Hi).
      destruct (Nat.eqb_spec (own x) t) as [Et|]; [exfalso; apply Ht; left; congruence|reflexivity]. }
    rewrite (E1 (seq 0 (own x))) by (rewrite in_seq; lia). rewrite (E1 (seq (S (own x)) _)) by (rewrite in_seq; lia).
    cbn [app]. symmetry. apply Permutation_middle.
Qed.
Lemma slice_flat_map (E : nat -> list (nat * Z)) m c : c < m ->
  slice (map (psum (fun c => length (E c))) (seq 0 (S m))) (flat_map E (seq 0 m)) c = E c.
Proof.
  intros Hc. unfold slice. rewrite !nth_map_seq by lia. cbn [Nat.add]. rewrite psum_S.
  assert (G : forall k, length (flat_map E (seq 0 k)) = psum (fun c => length (E c)) k).
  { induction k as [|k IH]; [reflexivity|]. rewrite seq_snoc, flat_map_app, app_length, IH, psum_S. cbn. rewrite app_nil_r. reflexivity. }
  replace m with (c + S (m - c - 1)) by lia. rewrite seq_app, flat_map_app. cbn [Nat.add seq flat_map].
  rewrite skipn_app, G, Nat.sub_diag. rewrite skipn_all2 by (rewrite G; lia). cbn [app skipn].
  replace (psum (fun c0 => length (E c0)) c + length (E c) - psum (fun c0 => length (E c0)) c) with (length (E c)) by lia.
  rewrite firstn_app, Nat.sub_diag, firstn_all, firstn_O, app_nil_r. reflexivity.
Qed.

Set Default Proof Using "All".
Section Edges.
Variables (bits limit : Z) (g : graph) (NR NE c_n : nat) (mapping : list nat) (cw : list Z).
Hypothesis Hbits : (1 <= bits)%Z.
Hypothesis Hlim : (limit < 2 ^ (bits - 1))%Z.
Hypothesis HNR : c_n <= NR.
Hypothesis HNE : c_n <= NE.
Hypothesis Cg : closed_graph g.
Hypothesis Pg : positive_edges g.
Notation f := (fun u => nth u mapping 0).
Notation bkt c := (filter (fun u => nth u mapping 0 =? c) (seq 0 (gn g))).
Notation E c := (acc_run (bucket_ops g (fun u => nth u mapping 0) c (bkt c))).
Notation wc := (fun c => nth c cw 0%Z).
Notation deg c := (list_sum (map (fun u => length (gadj g u)) (bkt c))).
Notation m := (list_sum (map (fun u => length (gadj g u)) (seq 0 (gn g)))).
Hypothesis Hf : forall x, x < gn g -> nth x mapping 0 < c_n.
Hypothesis Hs : forall c, c < c_n -> exists x, x < gn g /\ nth x mapping 0 = c.
Hypothesis Hcw : forall c, c < c_n -> (0 <= nth c cw 0 < 2 ^ (bits - 1))%Z.

Record einv (c : nat) (ops : list rop) (s : estate) : Prop := mkEinv {
  ei_cu : e_cu s = c;
  ei_nodes : e_nodes s = map (psum (fun c => length (E c))) (seq 0 (S c));
  ei_edges : e_edges s = flat_map (fun c => E c) (seq 0 c);
  ei_ec : finv NE (e_ec s) (acc_run ops);
  ei_cl : cinv limit c_n wc (fun v => v < c) (fst (fst (e_lp s))) (snd (fst (e_lp s)));
  ei_rm : exists l, rinv c_n NR (fst (fst (e_lp s))) (snd (e_lp s)) l /\ (e_lock s = true -> l = []);
  ei_lock : e_lock s = false -> c < c_n -> lkd (fst (fst (e_lp s))) c = false }.

Lemma visit_ok adj : forall c ops s, einv c ops s -> (forall v x, In (v, x) adj -> v < gn g /\ (0 < x)%Z) ->
  exists s', fold_left (visit_edge mapping) adj (Some s) = Some s' /\ einv c (ops ++ node_ops f c adj) s'.
Proof.
  induction adj as [|[v x] adj IH]; intros c ops s I Hadj.
  - exists s. split; [reflexivity|]. cbn. rewrite app_nil_r. exact I.
  - pose proof I as [I1 I2 I3 I4 I5 I6 I7]. cbn [fold_left visit_edge]. destruct (Hadj v x (or_introl eq_refl)) as [Hv Hx].
    assert (Hadj' : forall v0 x0, In (v0, x0) adj -> v0 < gn g /\ (0 < x0)%Z) by (intros v0 x0 H; apply Hadj; right; exact H).
    rewrite I1. cbn [node_ops flat_map fst snd]. fold (node_ops f c adj). destruct (Nat.eqb_spec (nth v mapping 0) c) as [Ec|Ec].
    + cbn [app]. apply (IH c ops s I Hadj').
    + rewrite app_assoc.
      assert (Hfv := Hf v Hv). rewrite (fi_len _ _ _ I4). rewrite (proj2 (Nat.ltb_lt _ NE)) by lia.
      assert (F' : finv NE (fra_modify (e_ec s) (nth v mapping 0) (fun y => (y + x)%Z)) (acc_run (ops ++ [RAdd (nth v mapping 0) x]))).
      { unfold acc_run. rewrite fold_left_app. cbn [fold_left acc_step]. apply fra_modify_ok; [exact I4|lia|exact Hx]. }
      destruct I6 as (l & R & Hlk). destruct (e_lp s) as [[cl moves] rm] eqn:Elp. cbn [fst snd] in *. destruct (e_lock s) eqn:Elk.
      * apply IH; [|exact Hadj']. constructor; cbn [e_cu e_nodes e_edges e_ec e_lp e_lock fst snd]; auto. exists l. auto.
      * destruct (rate_ok bits limit c_n NR wc Hbits Hlim Hcw HNR _ cl moves rm l (nth v mapping 0) x I5 R Hfv Hx) as (rm' & l' & -> & R').
        apply IH; [|exact Hadj']. constructor; cbn [e_cu e_nodes e_edges e_ec e_lp e_lock fst snd]; auto. exists l'. split; [exact R'|discriminate].
Qed.

Lemma deg_total : psum (fun c => deg c) c_n = m.
Proof.
  assert (P : Permutation (flat_map (fun c => bkt c) (seq 0 c_n)) (seq 0 (gn g))).
  { apply (partition_perm (fun u => nth u mapping 0)). intros u Hu. apply in_seq in Hu. apply Hf. lia. }
  assert (Gs : forall l l', Permutation l l' -> list_sum l = list_sum l') by (intros l l' Q; induction Q; rewrite ?ls_cons; lia).
  rewrite <- (Gs _ _ (Permutation_map (fun u => length (gadj g u)) P)). unfold psum.
  clear P Gs. induction (seq 0 c_n) as [|c cs IH]; [reflexivity|]. cbn [map flat_map]. rewrite map_app, list_sum_app, ls_cons, IH. reflexivity.
Qed.
Lemma edges_fit c : c <= c_n -> length (flat_map (fun c => E c) (seq 0 c)) <= m.
Proof.
  intros Hc. rewrite <- deg_total. apply (Nat.le_trans _ (psum (fun c => deg c) c)); [|apply psum_le, Hc].
  clear Hc. induction c as [|c IH]; [reflexivity|]. rewrite seq_snoc, flat_map_app, app_length, psum_S. cbn [flat_map Nat.add]. rewrite app_nil_r.
  pose proof (acc_fold_length _ (bucket_ops_no_clear g f c (bkt c)) []). pose proof (bucket_ops_length g f c (bkt c)). unfold acc_run in *. cbn [length] in *. lia.
Qed.

Lemma finish_ok coin c s : c < c_n -> einv c (bucket_ops g f c (bkt c)) s ->
  exists s', finish_coarse bits limit m c_n cw coin s = Some s' /\ einv (S c) [] s' /\ finv NR (snd (e_lp s')) [].
Proof.
  intros Hc [I1 I2 I3 I4 I5 I6 I7]. unfold finish_coarse. rewrite I1, (proj2 (Nat.ltb_lt c c_n) Hc). unfold interleaved_handle.
  assert (Hent : fra_entries (e_ec s) = E c).
  { unfold fra_entries. rewrite (fi_used _ _ _ I4). transitivity (map (fun p => (p, acc_get p (E c))) (map fst (E c))).
    - apply map_ext_in. intros p Hp. f_equal. apply (fi_data _ _ _ I4), (fi_keys _ _ _ I4), Hp.
    - apply map_keys_get, (fi_nodup _ _ _ I4). }
  assert (Hed : e_edges s ++ fra_entries (e_ec s) = flat_map (fun c => E c) (seq 0 (S c))).
  { rewrite I3, Hent, (seq_snoc 0 c), flat_map_app. cbn [flat_map Nat.add]. rewrite app_nil_r. reflexivity. }
  rewrite Hed. pose proof (edges_fit (S c) ltac:(lia)) as Hfit. rewrite (proj2 (Nat.leb_le _ m) Hfit).
  assert (Glen : forall k, length (flat_map (fun c => E c) (seq 0 k)) = psum (fun c => length (E c)) k).
  { induction k as [|k IH]; [reflexivity|]. rewrite seq_snoc, flat_map_app, app_length, IH, psum_S. cbn [flat_map Nat.add]. rewrite app_nil_r. reflexivity. }
  assert (Hnd : e_nodes s ++ [length (flat_map (fun c => E c) (seq 0 (S c)))] = map (psum (fun c => length (E c))) (seq 0 (S (S c)))).
  { rewrite I2, Glen, (seq_snoc 0 (S c)), map_app. reflexivity. }
  rewrite Hnd. destruct I6 as (l & R & Hlk). destruct (e_lp s) as [[cl moves] rm] eqn:Elp. cbn [fst snd] in *.
  assert (Res : exists lp' : lpstate, (if e_lock s then @Some lpstate (cl, moves, rm) else choose bits limit c (nth c cw 0%Z) (coin c) (cl, moves, rm)) = Some lp' /\
     cinv limit c_n wc (fun v => v < S c) (fst (fst lp')) (snd (fst lp')) /\ finv NR (snd lp') []).
  { destruct (e_lock s) eqn:Elk.
    - exists (cl, moves, rm). split; [reflexivity|]. split.
      + apply (cinv_weaken bits limit c_n NR wc Hbits Hlim Hcw HNR (fun v => v < c)); [intros; lia|exact I5].
      + cbn [snd]. destruct R as [R _]. rewrite (Hlk eq_refl) in R. exact R.
    - destruct (choose_ok bits limit c_n NR wc Hbits Hlim Hcw HNR _ cl moves rm l c (coin c) I5 R Hc (Nat.lt_irrefl c) (I7 eq_refl Hc))
        as (cl' & moves' & rm' & Ech & C' & F'). exists (cl', moves', rm'). split; [exact Ech|]. split; [|exact F'].
      apply (cinv_weaken bits limit c_n NR wc Hbits Hlim Hcw HNR (fun v => v < c \/ v = c)); [intros; lia|exact C']. }
  destruct Res as (lp' & -> & C' & F'). pose proof (ci_len _ _ _ _ _ _ C') as Hlen.
  rewrite (nth_error_nth' (fst (fst lp')) dcl) by lia. eexists. split; [reflexivity|]. split; [|exact F'].
  constructor; cbn [e_cu e_nodes e_edges e_ec e_lp e_lock]; auto.
  - apply (fra_clear_ok NE _ _ I4).
  - exists []. split; [|auto]. split; [exact F'|]. intros k [].
Qed.

Lemma visit_nodes_ok coin : forall us c pre s, (forall u, In u us -> u < gn g /\ nth u mapping 0 = c) ->
  einv c (bucket_ops g f c pre) s ->
  exists s', fold_left (coarse_node bits limit g m c_n mapping cw coin) us (Some s) = Some s' /\ einv c (bucket_ops g f c (pre ++ us)) s'.
Proof.
  induction us as [|u us IH]; intros c pre s Hus I; [exists s; rewrite app_nil_r; auto|]. cbn [fold_left].
  destruct (Hus u (or_introl eq_refl)) as [Hu Eu]. unfold coarse_node at 2. rewrite Eu, (ei_cu _ _ _ I), Nat.eqb_refl.
  destruct (visit_ok (gadj g u) c _ s I) as (s1 & -> & I1).
  { intros v x H. split; [apply (Cg u v x Hu H)|apply (Pg u v x Hu H)]. }
  replace (pre ++ u :: us) with ((pre ++ [u]) ++ us) by (rewrite <- app_assoc; reflexivity). apply IH.
  - intros v Hv. apply Hus. right. exact Hv.
  - unfold bucket_ops in *. rewrite flat_map_app. cbn [flat_map]. rewrite app_nil_r. exact I1.
Qed.

Lemma next_bucket_ok coin c s : S c < c_n -> einv c (bucket_ops g f c (bkt c)) s ->
  exists s', fold_left (coarse_node bits limit g m c_n mapping cw coin) (bkt (S c)) (Some s) = Some s' /\
    einv (S c) (bucket_ops g f (S c) (bkt (S c))) s'.
Proof.
  intros Hc I. destruct (finish_ok coin c s ltac:(lia) I) as (s1 & E1 & I1 & _).
  destruct (Hs (S c) Hc) as (x & Hx & Ex).
  assert (Hin : In x (bkt (S c))) by (apply filter_In; split; [apply in_seq; lia|apply Nat.eqb_eq, Ex]).
  assert (Hb : forall u, In u (bkt (S c)) -> u < gn g /\ nth u mapping 0 = S c).
  { intros u Hu. apply filter_In in Hu. destruct Hu as [H1 H2]. apply in_seq in H1. apply Nat.eqb_eq in H2. lia. }
  destruct (visit_nodes_ok coin (bkt (S c)) (S c) [] s1 Hb I1) as (s2 & E2 & I2). exists s2. split; [|exact I2].
  destruct (bkt (S c)) as [|u us]; [destruct Hin|]. cbn [fold_left] in *. destruct (Hb u (or_introl eq_refl)) as [Hu Eu].
  rewrite <- E2. f_equal. unfold coarse_node. rewrite Eu, (ei_cu _ _ _ I), (ei_cu _ _ _ I1), Nat.eqb_refl.
  rewrite (proj2 (Nat.eqb_neq (S c) c)) by lia. rewrite E1. reflexivity.
Qed.

Lemma all_buckets_ok coin s : 0 < c_n -> einv 0 [] s ->
  exists s', fold_left (coarse_node bits limit g m c_n mapping cw coin) (flat_map (fun c => bkt c) (seq 0 c_n)) (Some s) = Some s' /\
    einv (c_n - 1) (bucket_ops g f (c_n - 1) (bkt (c_n - 1))) s'.
Proof.
  intros H0 I. assert (G : forall k, S k <= c_n -> exists s', fold_left (coarse_node bits limit g m c_n mapping cw coin) (flat_map (fun c => bkt c) (seq 0 (S k))) (Some s) = Some s' /\
     einv k (bucket_ops g f k (bkt k)) s').
  { induction k as [|k IH]; intros Hk.
    - cbn [seq flat_map]. rewrite app_nil_r. apply (visit_nodes_ok coin (bkt 0) 0 [] s); [|exact I].
      intros u Hu. apply filter_In in Hu. destruct Hu as [H1 H2]. apply in_seq in H1. apply Nat.eqb_eq in H2. lia.
    - destruct (IH ltac:(lia)) as (s1 & E1 & I1). rewrite (seq_snoc 0 (S k)), flat_map_app, fold_left_app, E1.
      cbn [flat_map]. rewrite app_nil_r. replace (0 + S k) with (S k) by lia. apply next_bucket_ok; [lia|exact I1]. }
  destruct (G (c_n - 1) ltac:(lia)) as (s1 & E1 & I1). exists s1. replace (S (c_n - 1)) with c_n in E1 by lia. auto.
Qed.

Lemma E_positive c : forall e, In e (E c) -> (0 < snd e)%Z.
Proof.
  apply acc_fold_pos; [|intros e []]. intros k v H. apply in_flat_map in H. destruct H as (u & Hu & H). apply in_node_ops in H.
  destruct H as (_ & x & Hx & _). apply filter_In in Hu. destruct Hu as [Hu _]. apply in_seq in Hu. apply (Pg u x v); [lia|exact Hx].
Qed.
End Edges.
