(* The result of unbuffered contraction is the quotient graph. *)
From Verif Require Import Lib.Prelude Lib.Count Spec.Graph Spec.Quotient Spec.RatingMap Model.CsrModel Model.RatingMapModel Model.ContractModel Model.UnbufModel.
From Verif Require Import Proofs.CsrProofs Proofs.PermProofs Proofs.RatingMapProofs Proofs.QuotientProofs Proofs.ContractPreProofs Proofs.ContractProofs Proofs.UnbufProofs Proofs.UnbufPhase1 Proofs.UnbufPhase2.

Fixpoint index_of (c : nat) (l : list nat) : nat :=
  match l with [] => 0 | a :: t => if a =? c then 0 else S (index_of c t) end.
Lemma index_of_spec c l : In c l -> index_of c l < length l /\ nth (index_of c l) l 0 = c.
Proof.
  induction l as [|a l IH]; intros H; [destruct H|]. cbn [index_of length]. destruct (Nat.eqb_spec a c) as [->|Hne]; [cbn; split; [lia|reflexivity]|].
  destruct H as [H|H]; [contradiction|]. destruct (IH H). cbn [nth]. split; [lia|assumption].
Qed.
Lemma all_some_map {A B} (f : A -> option B) (h : A -> B) l : (forall x, In x l -> f x = Some (h x)) -> all_some (map f l) = Some (map h l).
Proof.
  induction l as [|a l IH]; intros H; [reflexivity|]. cbn [map all_some]. rewrite (H a (or_introl eq_refl)), IH; [reflexivity|]. intros x Hx. apply H. right. exact Hx.
Qed.
Lemma psum_find (deg : nat -> nat) : forall c p, p < psum deg c -> exists c' j, c' < c /\ j < deg c' /\ p = psum deg c' + j.
Proof.
  induction c as [|c IH]; intros p Hp; [cbn in Hp; lia|]. rewrite psum_S in Hp. destruct (lt_dec p (psum deg c)) as [L|L].
  - destruct (IH p L) as (c' & j & H1 & H2 & H3). exists c', j. split; [lia|auto].
  - exists c, (p - psum deg c). lia.
Qed.

Section Finish.
Variables (T c_n : nat) (wt : nat -> Z) (mapping : list nat) (asg : list rcd) (st : ust) (P : list wr).
Hypothesis I : minv T wt st asg P.
Hypothesis Hp : no_pending st = true.
Hypothesis HP : Permutation (map fst asg) (seq 0 c_n).
Hypothesis Hkeys : forall r e, In r asg -> In e (snd r) -> fst e < c_n.
Hypothesis Hmap : forall c, In c mapping -> c < c_n.
Let rec k := nth k asg (0, []).
Definition pos (c : nat) : nat := index_of c (map fst asg).
Definition rowE (k : nat) : list (nat * Z) := map (fun e => (pos (fst e), snd e)) (snd (nth k asg (0, []))).

Lemma fin_len : length asg = c_n.
Proof. rewrite <- (map_length fst), (Permutation_length HP), seq_length. reflexivity. Qed.
Lemma fin_nodup : NoDup (map fst asg).
Proof. apply (Permutation_NoDup (Permutation_sym HP)), seq_NoDup. Qed.
Lemma pos_spec c : c < c_n -> pos c < c_n /\ fst (rec (pos c)) = c.
Proof.
  intros Hc. destruct (index_of_spec c (map fst asg)) as [H1 H2].
  - apply (Permutation_in _ (Permutation_sym HP)), in_seq. lia.
  - rewrite map_length, fin_len in H1. split; [exact H1|]. unfold rec. rewrite <- (map_nth fst). exact H2.
Qed.

Lemma fin_read w : In w (asg_writes wt 0 0 asg) -> u_mem st (w_arr w) (w_idx w) = Some (w_val w).
Proof.
  intros Hw. destruct I as [_ _ _ I4 I5]. rewrite (no_pending_concat st Hp), app_nil_r in I4. rewrite I5. apply run_stores_read.
  - intros w1 w2 H1 H2. apply (asg_agree wt asg); [exact fin_nodup| |]; apply (Permutation_in _ I4); assumption.
  - apply (Permutation_in _ (Permutation_sym I4)), Hw.
Qed.
Lemma fin_writes k a i v : k < c_n -> In (mkWr a i v) (neighbourhood_writes (fst (rec k)) (wt (fst (rec k))) k (rdeg (firstn k asg)) (snd (rec k))) ->
  u_mem st a i = Some v.
Proof. intros Hk H. apply (fin_read (mkWr a i v)), (asg_writes_in wt). exists k. split; [rewrite fin_len; exact Hk|exact H]. Qed.

Lemma fin_psum k : k <= c_n -> rdeg (firstn k asg) = psum (fun k => length (rowE k)) k.
Proof.
  intros Hk. induction k as [|k IH]; [reflexivity|]. rewrite (rdeg_firstn_S wt asg k) by (rewrite fin_len; lia). rewrite psum_S, IH by lia. unfold rowE. rewrite map_length. reflexivity.
Qed.
Lemma fin_e : u_e st = psum (fun k => length (rowE k)) c_n.
Proof. rewrite (mi_e _ _ _ _ _ I), <- fin_psum by lia. rewrite <- fin_len, firstn_all. reflexivity. Qed.

Lemma fin_remap c : c < c_n -> remapped st c = Some (pos c).
Proof.
  intros Hc. destruct (pos_spec c Hc) as [H1 H2]. unfold remapped.
  rewrite (fin_writes (pos c) ARemap c (Z.of_nat (pos c)) H1); [cbn; rewrite Nat2Z.id; reflexivity|]. left. rewrite H2. reflexivity.
Qed.

Lemma finish_ok : finish c_n mapping st = Ok (map pos mapping,
  (map (psum (fun k => length (rowE k))) (seq 0 (S c_n)), flat_map (fun k => map fst (rowE k)) (seq 0 c_n),
   map (fun k => wt (fst (rec k))) (seq 0 c_n), flat_map (fun k => map snd (rowE k)) (seq 0 c_n))).
Proof.
  unfold finish.
  rewrite (all_some_map _ (psum (fun k => length (rowE k))) (seq 0 c_n)).
  2:{ intros k Hk. apply in_seq in Hk. rewrite (fin_writes k ANode k (Z.of_nat (rdeg (firstn k asg)))); [|lia|right; left; reflexivity].
      cbn. rewrite Nat2Z.id, fin_psum by lia. reflexivity. }
  set (L1 := flat_map (fun k => map fst (rowE k)) (seq 0 c_n)). set (L2 := flat_map (fun k => map snd (rowE k)) (seq 0 c_n)).
  assert (Len1 : length L1 = u_e st).
  { rewrite fin_e. unfold L1. rewrite length_flat_map_list_sum. unfold psum. f_equal. apply map_ext. intros k. apply map_length. }
  assert (Len2 : length L2 = u_e st).
  { rewrite fin_e. unfold L2. rewrite length_flat_map_list_sum. unfold psum. f_equal. apply map_ext. intros k. apply map_length. }
  rewrite (all_some_map _ (fun e => nth e L1 0) (seq 0 (u_e st))).
  2:{ intros e He. apply in_seq in He. rewrite fin_e in He. destruct (psum_find (fun k => length (rowE k)) c_n e ltac:(lia)) as (k & j & Hk & Hj & ->).
      unfold L1. rewrite (flat_map_nth _ (fun k => length (rowE k))) by (auto; intros; apply map_length). unfold rowE in Hj. rewrite map_length in Hj.
      rewrite (fin_writes k AEdge (psum (fun k => length (rowE k)) k + j) (Z.of_nat (fst (nth j (snd (rec k)) (0, 0%Z))))); [|lia|].
      - rewrite Nat2Z.id, fin_remap; [|apply (Hkeys (rec k)); apply nth_In; [rewrite fin_len; lia|exact Hj]].
        f_equal. unfold rowE. rewrite map_map. cbn [fst]. rewrite nth_indep with (d' := pos (fst (0, 0%Z))) by (rewrite map_length; exact Hj).
        rewrite (map_nth (fun e => pos (fst e)) (snd (nth k asg (0, []))) (0, 0%Z)). reflexivity.
      - right. right. right. apply (edge_writes_in wt). exists j. rewrite fin_psum by lia. split; [exact Hj|left; reflexivity]. }
  rewrite (all_some_map _ (fun k => wt (fst (rec k))) (seq 0 c_n)).
  2:{ intros k Hk. apply in_seq in Hk. rewrite (fin_writes k ANw k (wt (fst (rec k)))); [reflexivity|lia|right; right; left; reflexivity]. }
  rewrite (all_some_map _ (fun e => nth e L2 0%Z) (seq 0 (u_e st))).
  2:{ intros e He. apply in_seq in He. rewrite fin_e in He. destruct (psum_find (fun k => length (rowE k)) c_n e ltac:(lia)) as (k & j & Hk & Hj & ->).
      unfold L2. rewrite (flat_map_nth _ (fun k => length (rowE k))) by (auto; intros; apply map_length). unfold rowE in Hj. rewrite map_length in Hj.
      rewrite (fin_writes k AEw (psum (fun k => length (rowE k)) k + j) (snd (nth j (snd (rec k)) (0, 0%Z)))); [|lia|].
      - f_equal. unfold rowE. rewrite map_map. cbn [snd]. rewrite nth_indep with (d' := snd (0, 0%Z)) by (rewrite map_length; exact Hj).
        rewrite (map_nth snd (snd (nth k asg (0, []))) (0, 0%Z)). reflexivity.
      - right. right. right. apply (edge_writes_in wt). exists j. rewrite fin_psum by lia. split; [exact Hj|right; reflexivity]. }
  rewrite (all_some_map _ pos mapping) by (intros c Hc; apply fin_remap, Hmap, Hc).
  assert (E1 : map (fun e => nth e L1 0) (seq 0 (u_e st)) = L1) by (rewrite <- Len1; apply map_nth_seq).
  assert (E2 : map (fun e => nth e L2 0%Z) (seq 0 (u_e st)) = L2) by (rewrite <- Len2; apply map_nth_seq).
  rewrite E1, E2.
  rewrite (seq_snoc 0 c_n), map_app. cbn [map Nat.add]. rewrite fin_e. reflexivity.
Qed.
End Finish.

Lemma quotient_ext g f f' h : closed_graph g -> is_quotient g f h -> (forall u, u < gn g -> f u = f' u) -> is_quotient g f' h.
Proof.
  intros Cg (Q1 & Q2 & Q3 & Q4 & Q5 & Q6) E. split; [|split; [|split; [|split; [|split]]]].
  - intros u Hu. rewrite <- E by exact Hu. apply Q1, Hu.
  - intros c Hc. destruct (Q2 c Hc) as (u & Hu & <-). exists u. split; [exact Hu|]. symmetry. apply E, Hu.
  - intros c Hc. rewrite (Q3 c Hc). apply sumn_ext. intros u Hu. rewrite E by exact Hu. reflexivity.
  - intros c d Hc Hd Hcd. rewrite (Q4 c d Hc Hd Hcd). unfold cluster_conn. apply sumn_ext. intros u Hu. rewrite E by exact Hu.
    destruct (f' u =? c); [|reflexivity]. apply sumn_ext. intros v Hv. rewrite E by exact Hv. reflexivity.
  - exact Q5.
  - intros c d Hc. rewrite (Q6 c d Hc). split; intros (H1 & u & v & w & H2 & H3 & H4 & H5); (split; [exact H1|]); exists u, v, w.
    + rewrite <- (E u H2), <- (E v (Cg u v w H2 H4)). auto.
    + rewrite (E u H2), (E v (Cg u v w H2 H4)). auto.
Qed.

(** ** Aggregation *)
Lemma agg_two_phase_ok hash ms thr ops : 0 < ms -> thr <= ms -> no_clear ops -> forall l mp P, fsinv hash ms mp l P -> length l < thr ->
  exists r, agg_two_phase hash ms thr ops mp = Some r /\ forall E, r = Some E -> E = fold_left acc_step ops l.
Proof.
  intros Hms Ht. induction ops as [|o ops IH]; intros HC l mp P I Hl.
  - cbn [agg_two_phase]. eexists. split; [reflexivity|]. intros E HE. injection HE as <-. apply I.
  - destruct o as [k v|]; [|destruct (HC RClear (or_introl eq_refl) eq_refl)]. cbn [agg_two_phase fold_left acc_step].
    destruct (fsm_acc_ok hash ms Hms mp l P k v I ltac:(lia)) as (mp' & P' & E & I'). rewrite E. rewrite (fs_sz _ _ _ _ _ I').
    destruct (thr <=? length (acc_add k v l)) eqn:El; [eexists; split; [reflexivity|discriminate]|]. apply Nat.leb_gt in El.
    apply (IH (fun o Ho => HC o (or_intror Ho)) _ _ _ I' El).
Qed.

Lemma unbuffered_quotient MAXN MAXE T ms thr hash g clustering order0 order1 order2 garbage single evs sched :
  0 < thr -> thr <= ms -> 0 < gn g -> closed_graph g -> positive_edges g -> (forall u, u < gn g -> nth u clustering 0 < gn g) ->
  Permutation order0 (seq 0 (gn g)) -> Permutation order1 (seq 0 (gn g)) -> Permutation order2 (seq 0 (gn g)) -> length garbage = gn g ->
  contract_clustering_unbuffered MAXN MAXE T ms thr hash g clustering order0 order1 order2 garbage single evs sched = Bad \/
  exists mapping nodes edges nw ew,
    contract_clustering_unbuffered MAXN MAXE T ms thr hash g clustering order0 order1 order2 garbage single evs sched = Ok (mapping, (nodes, edges, nw, ew)) /\
    is_quotient g (fun u => nth u mapping 0) (user_graph nodes edges nw ew) /\
    length mapping = gn g /\
    numbers_clusters (gn g) (gn (user_graph nodes edges nw ew)) (fun u => nth u clustering 0) (fun u => nth u mapping 0).
Proof.
  intros Hthr Hms Hn Cg Pos Hcl P0 P1 P2 Hg. pose proof (mapping_correct (gn g) clustering order0 Hn P0 Hcl) as MC. pose proof (mapping_numbers (gn g) clustering order0 Hn P0 Hcl) as MN.
  unfold contract_clustering_unbuffered. destruct (compute_mapping (gn g) clustering order0) as [c_n mapping]. cbn [fst snd] in MN. destruct MC as [ML (M1 & M2 & M3)]. destruct MN as (_ & _ & M4).
  set (bi := fill_cluster_buckets c_n mapping order1 order2 garbage).
  assert (Hb : forall c, c < c_n -> is_bucket g (fun u => nth u mapping 0) c (bucket_of bi c)).
  { intros c Hc. unfold is_bucket. apply buckets_perm; assumption. }
  set (m := list_sum (map (fun u => length (gadj g u)) (seq 0 (gn g)))).
  set (wtf := fun c => zsum (map (gvw g) (bucket_of bi c))).
  set (rops := fun c => collect_ops g mapping c (bucket_of bi c)).
  set (good := fun c E => Permutation E (acc_run (rops c))).
  set (agg := fun c : nat => if single then _ else _).
  assert (Hclear : forall c, no_clear (rops c)) by (intros c; apply (bucket_ops_no_clear g (fun u => nth u mapping 0) c)).
  assert (Hops : forall c, c < c_n -> forall k v, In (RAdd k v) (rops c) -> k < c_n /\ (0 < v)%Z).
  { intros c Hc k v H. apply in_flat_map in H. destruct H as (u & Hu & H). apply (in_node_ops (fun u => nth u mapping 0) c) in H. destruct H as (_ & x & Hx & <-).
    apply (bucket_in g (fun u => nth u mapping 0) c _ u (Hb c Hc)) in Hu. split; [apply M1, (Cg u x v (proj1 Hu) Hx)|apply (Pos u x v (proj1 Hu) Hx)]. }
  assert (Hfd : forall c, length (acc_run (rops c)) <= fdeg g bi c) by (intros c; apply (deg_le 1 hash g c_n mapping bi ltac:(lia) Pos Hb c)).
  assert (Hgood : forall c E, c < c_n -> good c E -> length E <= fdeg g bi c) by (intros c E _ HE; rewrite (Permutation_length HE); apply Hfd).
  assert (Hm : psum (fdeg g bi) c_n <= m) by (rewrite (sum_fdeg 1 hash g c_n mapping bi ltac:(lia) Pos M1 Hb); reflexivity).
  assert (Hagg : forall c, c < c_n -> exists r, agg c = Some r /\ forall E, r = Some E -> good c E).
  { intros c Hc. unfold agg. destruct single.
    - unfold agg_single_phase. pose proof (collect_execute 1 hash g c_n mapping bi ltac:(lia) Cg Pos M1 Hb c Hc) as CE. unfold fdeg in CE. rewrite CE. cbn [option_map].
      eexists. split; [reflexivity|]. intros E HE. injection HE as <-. apply Permutation_refl.
    - destruct (agg_two_phase_ok hash ms thr (rops c) ltac:(lia) Hms (Hclear c) [] _ _ (fsm_make_ok hash ms ltac:(lia)) Hthr) as (r & E1 & E2). exists r. split; [exact E1|].
      intros E HE. rewrite (E2 E HE). apply Permutation_refl. }
  unfold contract_unbuffered.
  destruct (urun_ok MAXN MAXE T c_n m wtf agg good (fdeg g bi) Hagg Hgood Hm evs _ _ _ _ (u_init_inv T c_n wtf good)) as [->|(st1 & asg1 & bufs1 & P1' & -> & U)]; [left; reflexivity|].
  cbn [obind]. destruct (phase1_complete c_n st1) eqn:Epc; [|left; reflexivity]. cbn [negb].
  destruct (phase1_end T c_n m wtf agg good (fdeg g bi) Hagg Hgood Hm st1 asg1 bufs1 P1' U Epc) as (E1 & E2 & E3 & E4).
  assert (HN1 : NoDup (map fst asg1 ++ u_second st1)) by (apply (Permutation_NoDup (Permutation_sym E1)), seq_NoDup).
  assert (HL1 : forall c, In c (map fst asg1 ++ u_second st1) -> c < c_n) by (intros c Hc; apply (Permutation_in _ E1), in_seq in Hc; lia).
  match goal with |- obind ?x _ = _ \/ _ =>
    change x with (fold_left (fun st c_u => obind st (second_node T c_n m wtf thr (add_pairs (rops c_u)) c_u (fst (sched c_u)) (snd (sched c_u)))) (u_second st1) (Ok st1)) end.
  destruct (second_phase_ok T c_n m thr wtf rops (fdeg g bi) Hclear Hops Hgood Hm sched (u_second st1) st1 asg1 P1' E4 E3 HN1) as [->|(st2 & asg2 & P2' & -> & F1 & F2 & F3 & F4)].
  - intros c Hc. apply HL1, in_or_app. right. exact Hc.
  - intros r Hr. split; [apply HL1, in_or_app; left; apply in_map, Hr|apply E2, Hr].
  - left. reflexivity.
  - cbn [obind].
    assert (HP : Permutation (map fst asg2) (seq 0 c_n)) by (rewrite F3; exact E1).
    assert (Hk2 : forall r e, In r asg2 -> In e (snd r) -> fst e < c_n).
    { intros r [k v] Hr He. destruct (F4 r Hr) as [G1 G2]. apply (Permutation_in _ G2) in He.
      assert (Ht : touched k (acc_run (rops (fst r))) = true) by (apply touched_iff; change k with (fst (k, v)); apply in_map, He).
      unfold acc_run in Ht. apply (acc_fold_touched _ (Hclear (fst r))) in Ht. destruct Ht as [Ht|[w Ht]]; [discriminate|]. apply (Hops (fst r) G1 k w Ht). }
    assert (Hmp : forall c, In c mapping -> c < c_n).
    { intros c Hc. apply (In_nth _ _ 0) in Hc. destruct Hc as (u & Hu & <-). apply M1. rewrite ML in Hu. exact Hu. }
    rewrite (finish_ok T c_n wtf mapping asg2 st2 P2' F1 F2 HP Hk2 Hmp). right.
    do 5 eexists. split; [reflexivity|].
    set (h := user_graph _ _ _ _).
    assert (Gn : gn h = c_n) by apply (assembled_n c_n (rowE asg2)).
    assert (Hpos : forall c, c < c_n -> pos asg2 c < c_n /\ fst (nth (pos asg2 c) asg2 (0, [])) = c) by (intros c Hc; eapply pos_spec; eassumption).
    assert (HLen : length asg2 = c_n) by (rewrite <- (map_length fst), (Permutation_length HP), seq_length; reflexivity).
    assert (Hinj : injn c_n (pos asg2)).
    { intros a b Ha Hb' E. destruct (Hpos a Ha) as [_ A]. destruct (Hpos b Hb') as [_ B]. rewrite <- A, <- B, E. reflexivity. }
    assert (Hnm : forall u, u < gn g -> nth u (map (pos asg2) mapping) 0 = pos asg2 (nth u mapping 0)).
    { intros u Hu. rewrite nth_indep with (d' := pos asg2 0) by (rewrite map_length, ML; exact Hu). apply map_nth. }
    split; [|split].
    + assert (Q : is_quotient g (fun u => pos asg2 (nth u mapping 0)) h).
      { apply (build_quotient g (fun u => nth u mapping 0) h (pos asg2) (bucket_of bi) (fun c => snd (nth (pos asg2 c) asg2 (0, [])))); rewrite ?Gn; auto.
        - intros c Hc. apply Hpos, Hc.
        - intros c Hc. destruct (Hpos c Hc) as [H1 H2].
          assert (Hr : In (nth (pos asg2 c) asg2 (0, [])) asg2) by (apply nth_In; rewrite HLen; exact H1).
          destruct (F4 _ Hr) as [_ G]. rewrite H2 in G. exact G.
        - intros c Hc. apply (assembled_adj c_n (rowE asg2)). apply Hpos, Hc.
        - intros c Hc. destruct (Hpos c Hc) as [H1 H2]. cbn [gvw h user_graph]. 
          set (nw := map _ (seq 0 c_n)). destruct nw as [|w0 nw0] eqn:Enw.
          + apply (f_equal (@length Z)) in Enw. unfold nw in Enw. rewrite map_length, seq_length in Enw. cbn in Enw. lia.
          + rewrite <- Enw. unfold nw. rewrite nth_map_seq by exact H1. cbn [Nat.add]. rewrite H2. reflexivity. }
      apply (quotient_ext g _ _ h Cg Q). intros u Hu. symmetry. apply Hnm, Hu.
    + rewrite map_length. exact ML.
    + rewrite Gn. split; [|split].
      * intros u Hu. rewrite Hnm by exact Hu. apply Hpos, M1, Hu.
      * intros k Hk. assert (Hc : fst (nth k asg2 (0, [])) < c_n).
        { apply F4. apply nth_In. rewrite HLen. exact Hk. }
        destruct (M2 _ Hc) as (u & Hu & E). exists u. split; [exact Hu|]. rewrite Hnm, E by exact Hu. destruct (Hpos _ Hc) as [H1 H2].
        assert (ND : NoDup (map fst asg2)) by (apply (Permutation_NoDup (Permutation_sym HP)), seq_NoDup). apply (proj1 (NoDup_nth (map fst asg2) 0) ND); rewrite ?map_length, ?HLen; auto.
        change 0 with (@fst nat (list (nat * Z)) (0, [])). rewrite !map_nth. exact H2.
      * intros u v Hu Hv. rewrite !Hnm by assumption. rewrite <- M3 by assumption. split; [apply Hinj; apply M1; assumption|intros ->; reflexivity].
Qed.
