(* Facts about quotient graphs (Spec/Quotient.v), and a criterion for building one. *)
From Verif Require Import Lib.Prelude Lib.Count Spec.Graph Spec.Quotient Spec.RatingMap Proofs.GraphFacts Proofs.RatingMapProofs.

Lemma sumn_class m n (f : nat -> nat) (H : nat -> nat -> Z) : maps_into n m f ->
  sumn m (fun c => sumn n (fun u => if f u =? c then H c u else 0%Z)) = sumn n (fun u => H (f u) u).
Proof.
  intros Hf. rewrite sumn_swap. apply sumn_ext. intros u Hu. rewrite (sumn_single m (f u)).
  - rewrite Nat.eqb_refl. reflexivity.
  - apply Hf, Hu.
  - intros c _ Hne. destruct (Nat.eqb_spec (f u) c); [congruence|reflexivity].
Qed.

Lemma sumn_if n (b : bool) f : sumn n (fun i => if b then f i else 0%Z) = if b then sumn n f else 0%Z.
Proof. destruct b; [reflexivity|apply sumn_zero]. Qed.

Section Quot.
Variables (g h : graph) (f : nat -> nat).
Hypothesis Q : is_quotient g f h.
Hypothesis Cg : closed_graph g.

Lemma quotient_closed : closed_graph h.
Proof.
  destruct Q as (Q1 & Q2 & Q3 & Q4 & Q5 & Q6). intros c d w Hc Hin.
  assert (Hd : In d (map fst (gadj h c))) by (change d with (fst (d, w)); apply in_map, Hin).
  apply (Q6 c d Hc) in Hd. destruct Hd as (_ & u & v & w' & Hu & _ & Hv & <-). apply Q1. apply (Cg u v w' Hu Hv).
Qed.

Lemma cluster_conn_sym c d : undirected g -> cluster_conn g f c d = cluster_conn g f d c.
Proof.
  intros Ug. unfold cluster_conn.
  transitivity (sumn (gn g) (fun u => sumn (gn g) (fun v => if f u =? c then if f v =? d then conn g u v else 0%Z else 0%Z))).
  { apply sumn_ext. intros u _. rewrite sumn_if. reflexivity. }
  rewrite sumn_swap. apply sumn_ext. intros v Hv. rewrite <- sumn_if. apply sumn_ext. intros u Hu.
  destruct (f u =? c), (f v =? d); try reflexivity. apply Ug; assumption.
Qed.

Lemma quotient_undirected : undirected g -> undirected h.
Proof.
  intros Ug c d Hc Hd. destruct (Nat.eq_dec c d) as [->|Hne]; [reflexivity|].
  destruct Q as (Q1 & Q2 & Q3 & Q4 & Q5 & Q6). rewrite !Q4 by auto. apply cluster_conn_sym, Ug.
Qed.

Lemma quotient_dcut p : dcut h p = dcut g (fun u => p (f u)).
Proof.
  rewrite dcut_conn by apply quotient_closed. rewrite dcut_conn by exact Cg.
  destruct Q as (Q1 & Q2 & Q3 & Q4 & Q5 & Q6).
  transitivity (sumn (gn h) (fun c => sumn (gn g) (fun u => if f u =? c
     then sumn (gn g) (fun v => if p c =? p (f v) then 0%Z else conn g u v) else 0%Z))).
  - apply sumn_ext. intros c Hc.
    transitivity (sumn (gn h) (fun d => if p c =? p d then 0%Z else cluster_conn g f c d)).
    { apply sumn_ext. intros d Hd. destruct (Nat.eqb_spec (p c) (p d)); [reflexivity|]. apply Q4; auto. }
    transitivity (sumn (gn h) (fun d => sumn (gn g) (fun u => if f u =? c then
        sumn (gn g) (fun v => if f v =? d then if p c =? p d then 0%Z else conn g u v else 0%Z) else 0%Z))).
    { apply sumn_ext. intros d Hd. unfold cluster_conn. destruct (p c =? p d).
      - symmetry. apply sumn_zero_ext. intros u _. destruct (f u =? c); [|reflexivity]. apply sumn_zero_ext. intros v _. destruct (f v =? d); reflexivity.
      - apply sumn_ext. intros u _. reflexivity. }
    rewrite sumn_swap. apply sumn_ext. intros u Hu. rewrite sumn_if. destruct (f u =? c); [|reflexivity].
    rewrite (sumn_class (gn h) (gn g) f (fun d v => if p c =? p d then 0%Z else conn g u v) Q1). reflexivity.
  - rewrite (sumn_class (gn h) (gn g) f (fun c u => sumn (gn g) (fun v => if p c =? p (f v) then 0%Z else conn g u v)) Q1). reflexivity.
Qed.

Lemma quotient_cut p : undirected g -> cut_weight h p = cut_weight g (fun u => p (f u)).
Proof.
  intros Ug. pose proof (quotient_dcut p) as E. rewrite dcut_cut in E by auto using quotient_closed, quotient_undirected.
  rewrite dcut_cut in E by assumption. lia.
Qed.

Lemma quotient_block_weight p b : block_weight h p b = block_weight g (fun u => p (f u)) b.
Proof.
  destruct Q as (Q1 & Q2 & Q3 & Q4 & Q5 & Q6). unfold block_weight.
  transitivity (sumn (gn h) (fun c => sumn (gn g) (fun u => if f u =? c then if p c =? b then gvw g u else 0%Z else 0%Z))).
  - apply sumn_ext. intros c Hc. rewrite Q3 by exact Hc. destruct (p c =? b).
    + reflexivity.
    + symmetry. apply sumn_zero_ext. intros u _. destruct (f u =? c); reflexivity.
  - apply (sumn_class (gn h) (gn g) f (fun c u => if p c =? b then gvw g u else 0%Z) Q1).
Qed.

Lemma quotient_total : total_weight h = total_weight g.
Proof.
  destruct Q as (Q1 & Q2 & Q3 & Q4 & Q5 & Q6). unfold total_weight.
  transitivity (sumn (gn h) (fun c => sumn (gn g) (fun u => if f u =? c then gvw g u else 0%Z))).
  - apply sumn_ext. intros c Hc. apply Q3, Hc.
  - apply (sumn_class (gn h) (gn g) f (fun c u => gvw g u) Q1).
Qed.
End Quot.

(** ** Accumulating the neighbourhood of a coarse node *)
Definition node_ops (f : nat -> nat) (c : nat) (adj : list (nat * Z)) : list rop :=
  flat_map (fun e => if f (fst e) =? c then [] else [RAdd (f (fst e)) (snd e)]) adj.

Definition bucket_ops (g : graph) (f : nat -> nat) (c : nat) (bucket : list nat) : list rop :=
  flat_map (fun u => node_ops f c (gadj g u)) bucket.

(** The value added for [d] by a list of additions. *)
Definition ops_total (d : nat) (ops : list rop) : Z :=
  zsum (map (fun o => match o with RAdd k v => if k =? d then v else 0%Z | RClear => 0%Z end) ops).

Definition no_clear (ops : list rop) : Prop := forall o, In o ops -> o <> RClear.

Lemma ops_total_app d a b : ops_total d (a ++ b) = (ops_total d a + ops_total d b)%Z.
Proof. unfold ops_total. rewrite map_app, zsum_app. reflexivity. Qed.

Lemma acc_fold_get ops : no_clear ops -> forall l d, acc_get d (fold_left acc_step ops l) = (acc_get d l + ops_total d ops)%Z.
Proof.
  induction ops as [|o ops IH]; intros HN l d; [unfold ops_total; cbn [fold_left map zsum]; lia|]. cbn [fold_left].
  rewrite IH by (intros o' Ho'; apply HN; right; exact Ho'). unfold ops_total. cbn [map zsum].
  destruct o as [k v|]; [|destruct (HN RClear (or_introl eq_refl) eq_refl)]. cbn [acc_step]. rewrite acc_get_add. lia.
Qed.

Lemma acc_fold_touched ops : no_clear ops -> forall l d,
  touched d (fold_left acc_step ops l) = true <-> touched d l = true \/ exists v, In (RAdd d v) ops.
Proof.
  induction ops as [|o ops IH]; intros HN l d; [cbn; split; [auto|intros [H|[v []]]; exact H]|]. cbn [fold_left].
  rewrite IH by (intros o' Ho'; apply HN; right; exact Ho').
  destruct o as [k v|]; [|destruct (HN RClear (or_introl eq_refl) eq_refl)]. cbn [acc_step].
  rewrite !touched_iff, acc_add_keys. destruct (touched k l) eqn:T.
  - split; intros [H|[w H]]; [left; exact H|right; exists w; right; exact H|left; exact H|].
    destruct H as [H|H]; [|right; exists w; exact H]. injection H as -> ->. left. apply touched_iff, T.
  - rewrite in_app_iff. split.
    + intros [[H|[<-|[]]]|[w H]]; [left; exact H|right; exists v; left; reflexivity|right; exists w; right; exact H].
    + intros [H|[w [H|H]]]; [left; left; exact H|injection H as -> ->; left; right; left; reflexivity|right; exists w; exact H].
Qed.

Lemma acc_fold_nodup ops : forall l, NoDup (map fst l) -> NoDup (map fst (fold_left acc_step ops l)).
Proof.
  induction ops as [|o ops IH]; intros l H; [exact H|]. cbn [fold_left]. apply IH. destruct o; [apply acc_add_nodup, H|constructor].
Qed.

Lemma acc_run_nodup ops : NoDup (map fst (acc_run ops)).
Proof. apply acc_fold_nodup. constructor. Qed.

Lemma acc_fold_length ops : no_clear ops -> forall l, length (fold_left acc_step ops l) <= length l + length ops.
Proof.
  induction ops as [|o ops IH]; intros HN l; [cbn; lia|]. cbn [fold_left length].
  specialize (IH (fun o' Ho' => HN o' (or_intror Ho')) (acc_step l o)).
  destruct o as [k v|]; [|destruct (HN RClear (or_introl eq_refl) eq_refl)]. cbn [acc_step] in *. rewrite acc_add_length in IH. destruct (touched k l); lia.
Qed.

Lemma node_ops_no_clear f c adj : no_clear (node_ops f c adj).
Proof. intros o H ->. apply in_flat_map in H. destruct H as (e & _ & H). destruct (_ =? _); [destruct H|destruct H as [H|[]]; discriminate]. Qed.

Lemma bucket_ops_no_clear g f c b : no_clear (bucket_ops g f c b).
Proof. intros o H E. apply in_flat_map in H. destruct H as (u & _ & H). exact (node_ops_no_clear f c _ o H E). Qed.

Lemma node_ops_length f c adj : length (node_ops f c adj) <= length adj.
Proof.
  induction adj as [|e adj IH]; [cbn; lia|]. unfold node_ops in *. cbn [flat_map length]. rewrite app_length. destruct (_ =? _); cbn; lia.
Qed.

Lemma bucket_ops_length g f c b : length (bucket_ops g f c b) <= list_sum (map (fun u => length (gadj g u)) b).
Proof.
  induction b as [|u b IH]; [cbn; lia|]. unfold bucket_ops in *. cbn [flat_map map list_sum fold_right]. rewrite app_length.
  pose proof (node_ops_length f c (gadj g u)). unfold list_sum in IH. lia.
Qed.

Lemma in_node_ops f c adj d v : In (RAdd d v) (node_ops f c adj) <-> d <> c /\ exists x, In (x, v) adj /\ f x = d.
Proof.
  unfold node_ops. rewrite in_flat_map. split.
  - intros ([x w] & He & H). cbn [fst snd] in H. destruct (Nat.eqb_spec (f x) c) as [|Hne]; [destruct H|].
    destruct H as [H|[]]. injection H as <- <-. split; [exact Hne|]. exists x. auto.
  - intros (Hne & x & He & <-). exists (x, v). split; [exact He|]. cbn [fst snd]. rewrite (proj2 (Nat.eqb_neq _ _) Hne). left. reflexivity.
Qed.

Lemma node_ops_total f c adj d : d <> c -> ops_total d (node_ops f c adj) = zsum (map (fun e => if f (fst e) =? d then snd e else 0%Z) adj).
Proof.
  intros Hne. induction adj as [|e adj IH]; [reflexivity|]. unfold node_ops in *. cbn [flat_map map zsum]. rewrite ops_total_app, IH. f_equal.
  destruct (Nat.eqb_spec (f (fst e)) c) as [E|E].
  - rewrite E, (proj2 (Nat.eqb_neq c d)) by auto. reflexivity.
  - unfold ops_total. cbn. lia.
Qed.

Lemma node_total_conn g f u d : closed_graph g -> u < gn g ->
  zsum (map (fun e => if f (fst e) =? d then snd e else 0%Z) (gadj g u)) = sumn (gn g) (fun v => if f v =? d then conn g u v else 0%Z).
Proof.
  intros Cg Hu. rewrite (sum_by_target (gn g) (gadj g u) (fun v w => if f v =? d then w else 0%Z)).
  - reflexivity.
  - intros v w H. apply (Cg u v w Hu H).
  - intros v. destruct (f v =? d); reflexivity.
  - intros v a b. destruct (f v =? d); lia.
Qed.

Lemma zsum_bucket n f c (bucket : list nat) (F : nat -> Z) : Permutation bucket (filter (fun u => f u =? c) (seq 0 n)) ->
  zsum (map F bucket) = sumn n (fun u => if f u =? c then F u else 0%Z).
Proof.
  intros P. rewrite (zsum_perm _ _ (Permutation_map F P)), zsum_filter. reflexivity.
Qed.

Definition is_bucket (g : graph) (f : nat -> nat) (c : nat) (bucket : list nat) : Prop :=
  Permutation bucket (filter (fun u => f u =? c) (seq 0 (gn g))).

Lemma bucket_in g f c b u : is_bucket g f c b -> In u b <-> u < gn g /\ f u = c.
Proof.
  intros H. split; intros Hu.
  - apply (Permutation_in _ H) in Hu. apply filter_In in Hu. destruct Hu as [Hu E]. apply in_seq in Hu. apply Nat.eqb_eq in E. split; [lia|exact E].
  - apply (Permutation_in _ (Permutation_sym H)). apply filter_In. split; [apply in_seq; lia|apply Nat.eqb_eq, Hu].
Qed.

Lemma bucket_ops_total g f c d b : closed_graph g -> is_bucket g f c b -> d <> c -> ops_total d (bucket_ops g f c b) = cluster_conn g f c d.
Proof.
  intros Cg Hb Hne.
  transitivity (zsum (map (fun u => sumn (gn g) (fun v => if f v =? d then conn g u v else 0%Z)) b)).
  - assert (G : forall l, (forall u, In u l -> u < gn g) -> ops_total d (bucket_ops g f c l)
        = zsum (map (fun u => sumn (gn g) (fun v => if f v =? d then conn g u v else 0%Z)) l)).
    { induction l as [|u l IH]; intros Hl; [reflexivity|]. unfold bucket_ops in *. cbn [flat_map map zsum]. rewrite ops_total_app, IH by (intros; apply Hl; right; assumption).
      rewrite node_ops_total by exact Hne. rewrite node_total_conn by (auto; apply Hl; left; reflexivity). reflexivity. }
    apply G. intros u Hu. apply (bucket_in g f c b u Hb), Hu.
  - apply zsum_bucket, Hb.
Qed.

Lemma Permutation_filter_compat {A} (p : A -> bool) l l' : Permutation l l' -> Permutation (filter p l) (filter p l').
Proof.
  induction 1 as [|x l l' P IH|x y l|l1 l2 l3 P1 IH1 P2 IH2]; cbn [filter]; auto.
  - destruct (p x); auto.
  - destruct (p x), (p y); auto. constructor.
  - eapply perm_trans; eauto.
Qed.

Lemma NoDup_map_inj_on {A B} (r : A -> B) l : (forall x y, In x l -> In y l -> r x = r y -> x = y) -> NoDup l -> NoDup (map r l).
Proof.
  intros H HN. induction HN as [|x l Hx HN IH]; cbn [map]; [constructor|]. constructor.
  - intros Hin. apply in_map_iff in Hin. destruct Hin as (y & E & Hy). apply H in E; [subst; contradiction|right; exact Hy|left; reflexivity].
  - apply IH. intros a b Ha Hb. apply H; right; assumption.
Qed.

(** The criterion: every coarse node lists what was accumulated from a listing of its members, up to order and up to
    a renaming [r] of the coarse nodes. *)
Lemma build_quotient g f h r (bucket : nat -> list nat) (E : nat -> list (nat * Z)) :
  closed_graph g -> maps_into (gn g) (gn h) f -> (forall c, c < gn h -> exists u, u < gn g /\ f u = c) ->
  maps_into (gn h) (gn h) r -> injn (gn h) r ->
  (forall c, c < gn h -> is_bucket g f c (bucket c)) ->
  (forall c, c < gn h -> Permutation (E c) (acc_run (bucket_ops g f c (bucket c)))) ->
  (forall c, c < gn h -> gadj h (r c) = map (fun e => (r (fst e), snd e)) (E c)) ->
  (forall c, c < gn h -> gvw h (r c) = zsum (map (gvw g) (bucket c))) ->
  is_quotient g (fun u => r (f u)) h.
Proof.
  intros Cg Hf Hs Hr Hi Hb HE Hadj Hw.
  pose proof (inj_surj (gn h) r Hr Hi) as Hrs.
  assert (Heq : forall u c, u < gn g -> c < gn h -> (r (f u) =? r c) = (f u =? c)).
  { intros u c Hu Hc. destruct (Nat.eqb_spec (f u) c) as [->|Hne]; [apply Nat.eqb_refl|]. apply Nat.eqb_neq. intros E'. apply Hne, Hi; auto. }
  assert (HEk : forall c, c < gn h -> forall d, In d (map fst (E c)) <->
     d <> c /\ exists u v w, u < gn g /\ f u = c /\ In (v, w) (gadj g u) /\ f v = d).
  { intros c Hc d. transitivity (In d (map fst (acc_run (bucket_ops g f c (bucket c))))).
    - split; apply Permutation_in; [|apply Permutation_sym]; apply Permutation_map, HE, Hc.
    - rewrite <- touched_iff. unfold acc_run. rewrite (acc_fold_touched _ (bucket_ops_no_clear g f c _)). cbn [touched existsb]. split.
      + intros [H|[v H]]; [discriminate|]. apply in_flat_map in H. destruct H as (u & Hu & H). apply in_node_ops in H.
        destruct H as (Hne & x & Hx & Ex). split; [exact Hne|]. apply (bucket_in g f c _ u (Hb c Hc)) in Hu. exists u, x, v. tauto.
      + intros (Hne & u & v & w & Hu & Eu & Hv & Ev). right. exists w. apply in_flat_map. exists u.
        split; [apply (bucket_in g f c _ u (Hb c Hc)); auto|]. apply in_node_ops. split; [exact Hne|]. exists v. auto. }
  assert (HElt : forall c, c < gn h -> forall d, In d (map fst (E c)) -> d < gn h).
  { intros c Hc d H. apply (HEk c Hc) in H. destruct H as (_ & u & v & w & Hu & _ & Hv & <-). apply Hf, (Cg u v w Hu Hv). }
  assert (HEn : forall c, c < gn h -> NoDup (map fst (E c))).
  { intros c Hc. apply (Permutation_NoDup (l := map fst (acc_run (bucket_ops g f c (bucket c))))); [|apply acc_run_nodup].
    apply Permutation_sym, Permutation_map, HE, Hc. }
  split; [intros u Hu; apply Hr, Hf, Hu|]. split.
  { intros c Hc. destruct (Hrs c Hc) as (c' & Hc' & <-). destruct (Hs c' Hc') as (u & Hu & <-). exists u. auto. }
  split.
  { intros c' Hc'. destruct (Hrs c' Hc') as (c & Hc & <-). rewrite Hw by exact Hc. rewrite (zsum_bucket (gn g) f c _ (gvw g) (Hb c Hc)).
    apply sumn_ext. intros u Hu. rewrite Heq by assumption. reflexivity. }
  split.
  { intros c' d' Hc' Hd' Hne. destruct (Hrs c' Hc') as (c & Hc & <-). destruct (Hrs d' Hd') as (d & Hd & <-).
    assert (Hne' : d <> c) by congruence.
    transitivity (cluster_conn g f c d).
    - rewrite <- (bucket_ops_total g f c d (bucket c) Cg (Hb c Hc) Hne').
      pose proof (acc_fold_get _ (bucket_ops_no_clear g f c (bucket c)) [] d) as A. fold (acc_run (bucket_ops g f c (bucket c))) in A.
      change (acc_get d []) with 0%Z in A. rewrite Z.add_0_l in A. rewrite <- A.
      unfold conn. rewrite Hadj by exact Hc. unfold acc_get.
      assert (F : filter (fun e => fst e =? r d) (map (fun e => (r (fst e), snd e)) (E c)) = map (fun e => (r (fst e), snd e)) (filter (fun e => fst e =? d) (E c))).
      { assert (G : forall l, (forall x, In x (map fst l) -> x < gn h) -> filter (fun e => fst e =? r d) (map (fun e => (r (fst e), snd e)) l)
            = map (fun e : nat * Z => (r (fst e), snd e)) (filter (fun e => fst e =? d) l)).
        { induction l as [|[x w] l IH]; intros Hl; [reflexivity|]. cbn [map filter fst snd].
          assert (Ex : (r x =? r d) = (x =? d)).
          { destruct (Nat.eqb_spec x d) as [->|Hx]; [apply Nat.eqb_refl|]. apply Nat.eqb_neq. intros E'. apply Hx, Hi; auto. apply Hl. left. reflexivity. }
          rewrite Ex, IH by (intros y Hy; apply Hl; right; exact Hy). destruct (x =? d); reflexivity. }
        apply G. intros x Hx. apply (HElt c Hc x Hx). }
      rewrite F, map_map. cbn [snd]. rewrite (map_ext (fun x : nat * Z => snd x) snd) by reflexivity. apply zsum_perm, Permutation_map. apply Permutation_filter_compat, HE, Hc.
    - unfold cluster_conn. apply sumn_ext. intros u Hu. rewrite Heq by assumption. destruct (f u =? c); [|reflexivity].
      apply sumn_ext. intros v Hv. rewrite Heq by assumption. reflexivity. }
  split.
  { intros c' Hc'. destruct (Hrs c' Hc') as (c & Hc & <-). rewrite Hadj by exact Hc. rewrite map_map. cbn [fst].
    rewrite <- (map_map fst r). apply NoDup_map_inj_on; [|apply HEn, Hc]. intros x y Hx Hy. apply Hi; apply (HElt c Hc); assumption. }
  intros c' d' Hc'. destruct (Hrs c' Hc') as (c & Hc & <-). rewrite Hadj by exact Hc. rewrite map_map. cbn [fst]. rewrite <- (map_map fst r), in_map_iff. split.
  - intros (d & <- & Hd). assert (Hdl := HElt c Hc d Hd). apply (HEk c Hc) in Hd. destruct Hd as (Hne & u & v & w & Hu & <- & Hv & <-).
    split; [intros E'; apply Hne, Hi; auto|]. exists u, v, w. auto.
  - intros (Hne & u & v & w & Hu & Eu & Hv & <-). exists (f v). split; [reflexivity|].
    assert (f u = c) by (apply Hi; auto). subst c. apply (HEk (f u) Hc). split; [congruence|]. exists u, v, w. auto.
Qed.
