(* Parallel compression: the statements about compute_compressed_graph. *)
From Coq Require Import Sorted.
From Verif Require Import Lib.Prelude Lib.Count Model.VarintModel Model.CompressModel Model.CompressParModel
  Spec.CompressInput Proofs.VarintProofs Proofs.CompressProofs Proofs.CompressGraphProofs Proofs.CompressSize
  Proofs.CompressParBase Proofs.CompressParProofs Proofs.CompressParTop Proofs.CompressParSize.
From Verif Require Import Lib.Slice.
Local Open Scope Z_scope.

Definition degs_of (nbs : list (list nbr)) : list Z := map (fun nb => Z.of_nat (length nb)) nbs.

Lemma max_degree_ge degs : forall a, a <= fold_left Z.max degs a /\ (forall d, In d degs -> d <= fold_left Z.max degs a).
Proof.
  induction degs as [|x degs IH]; intros a; cbn [fold_left]; [split; [lia|intros d []]|].
  destruct (IH (Z.max a x)) as (H1 & H2). split; [lia|]. intros d [<-|H]; [lia|auto].
Qed.
Lemma max_degree_le degs B : forall a, a <= B -> (forall d, In d degs -> d <= B) -> fold_left Z.max degs a <= B.
Proof.
  induction degs as [|x degs IH]; intros a H1 H2; cbn [fold_left]; [auto|]. apply IH; [specialize (H2 x (or_introl eq_refl)); lia|intros; apply H2; right; auto].
Qed.
Lemma map_slice {A B} (f : A -> B) l a k : map f (slice l a k) = slice (map f l) a k.
Proof. unfold slice. now rewrite skipn_map, firstn_map. Qed.

Section Main.
Variable c : cconf.
Variable sort : list nbr -> list nbr.
Variable nbs : list (list nbr).
Hypothesis Hc : conf_ok c.
Hypothesis Hsort : forall l, Permutation (sort l) l.
Notation n := (Z.of_nat (length nbs)).
Notation m := (num_edges_of nbs).
Notation md := (max_degree_of (degs_of nbs)).
Notation chunks := (compute_chunks m (degs_of nbs)).
Notation lcap := (compressed_edge_array_max_size c false n md).
Notation cap := (compressed_edge_array_max_size c true n m).
Hypothesis Hn : n < 2 ^ (c_wn c - 1).
Hypothesis Hm : m < 2 ^ c_wi c.
Hypothesis Hs : Forall (fun nb => simple_nb c n (sort nb)) nbs.
Hypothesis Hsize : Z.of_nat (length (cn_edges (cn_build c sort m nbs))) < 2 ^ c_wi c.
Hypothesis Hmd : m / kNumChunks <= md + 1.

Lemma wi_pos : 0 < c_wi c. Proof. destruct Hc as (_ & [?|?] & _); lia. Qed.
Lemma we_pos' : 0 < c_we c. Proof. destruct Hc as (_ & _ & [?|?]); lia. Qed.
Lemma tl : tiles 0 (length nbs) chunks.
Proof. pose proof (chunks_tile m (degs_of nbs)) as H. unfold degs_of in H at 1. now rewrite map_length in H. Qed.
Lemma off_total : off c sort nbs chunks (length chunks) = Z.of_nat (length (cn_edges (cn_build c sort m nbs))).
Proof.
  destruct (seq_chunks c sort nbs we_pos' wi_pos chunks 0 tl) as (_ & _ & S3 & _). cbv zeta in S3. rewrite skipn_O in S3.
  unfold cn_build. destruct (build_loop c sort 0 nbs [] 0) as [[o d] t]. cbn [fst snd cn_edges] in *. rewrite S3. reflexivity.
Qed.
Lemma cap_ok : off c sort nbs chunks (length chunks) <= Z.of_nat (Z.to_nat cap).
Proof.
  rewrite off_total. pose proof (build_size c sort nbs Hc Hsort Hn Hm Hs). lia.
Qed.
Lemma deg_in u : (u < length nbs)%nat -> Z.of_nat (length (nth u nbs [])) <= md.
Proof.
  intros Hu. apply max_degree_ge. unfold degs_of. apply in_map_iff. exists (nth u nbs []). split; auto. now apply nth_In.
Qed.
Lemma lcap_ok ch : (ch < length chunks)%nat -> csz c sort nbs chunks ch <= lcap.
Proof.
  intros H. destruct (tiles_nth _ _ _ ch tl H) as (_ & H1 & _). pose proof (chunks_facts m (degs_of nbs)) as F. rewrite Forall_forall in F.
  specialize (F _ (nth_In _ (0%nat, 0%nat, 0) H)). unfold csz, chunk_data, chunk_result.
  destruct (nth ch chunks (0%nat, 0%nat, 0)) as [[a b] fe]. cbn [fst snd] in H1. destruct F as (_ & _ & F).
  assert (SL : length (slice nbs a (b - a)) = (b - a)%nat) by (apply slice_len; lia).
  assert (ME : num_edges_of (slice nbs a (b - a)) = zsum (slice (degs_of nbs) a (b - a))) by (unfold num_edges_of, degs_of; now rewrite map_slice).
  assert (HE : num_edges_of (slice nbs a (b - a)) <= md).
  { destruct F as [F|F]; [|rewrite ME; lia]. subst b. replace (S a - a)%nat with 1%nat by lia. unfold slice.
    pose proof (deg_in a ltac:(lia)) as D. assert (E : skipn a nbs = nth a nbs [] :: skipn (S a) nbs).
    { rewrite <- (firstn_skipn a nbs) at 2. rewrite app_nth2; rewrite firstn_length; [|lia]. replace (a - Nat.min a (length nbs))%nat with 0%nat by lia.
      change (S a) with (1 + a)%nat. rewrite Nat.add_comm, <- skipn_skipn. destruct (skipn a nbs) eqn:E; [|reflexivity].
      apply (f_equal (@length _)) in E. rewrite skipn_length in E. cbn in E. lia. }
    rewrite E. cbn [firstn]. unfold num_edges_of. cbn [map zsum]. lia. }
  apply range_size; auto.
  - rewrite SL. lia.
  - apply Z.le_lt_trans with m; auto. apply max_degree_le.
    + unfold num_edges_of. clear. induction nbs; cbn [map zsum]; lia.
    + intros d Hd. apply in_map_iff in Hd. destruct Hd as (nb & <- & Hi). apply In_nth with (d := []) in Hi. destruct Hi as (u & Hu & <-). now apply num_edges_ge.
  - apply Forall_forall. intros x Hx. rewrite Forall_forall in Hs. apply Hs. unfold slice in Hx.
    rewrite <- (firstn_skipn a nbs). apply in_or_app. right. rewrite <- (firstn_skipn (b - a) (skipn a nbs)). apply in_or_app. left. exact Hx.
Qed.

Lemma parallel_ok T ts : exists s, p_run c sort nbs chunks lcap ts (p_init nbs chunks T (Z.to_nat cap)) = Some s /\
  (p_finished s = true -> p_build c nbs m s = cn_build c sort m nbs).
Proof.
  destruct (run_inv c sort nbs chunks lcap T (Z.to_nat cap) wi_pos we_pos' tl ltac:(rewrite off_total; auto) cap_ok lcap_ok ts _ _ _ (init_inv c sort nbs chunks lcap T (Z.to_nat cap) we_pos' lcap_ok))
    as (s & pr & e & R & I).
  exists s. split; auto. intros F. apply (result c sort nbs chunks lcap T (Z.to_nat cap) wi_pos we_pos' tl ltac:(rewrite off_total; auto) cap_ok lcap_ok s pr e m I F).
Qed.
Lemma parallel_finishes T f : (0 < T)%nat -> (forall t N, (t < T)%nat -> exists j, (N <= j)%nat /\ f j = t) ->
  exists N s, p_run c sort nbs chunks lcap (map f (seq 0 N)) (p_init nbs chunks T (Z.to_nat cap)) = Some s /\ p_finished s = true.
Proof.
  intros HT Hf. apply (fair_finish c sort nbs chunks lcap T (Z.to_nat cap) wi_pos we_pos' tl ltac:(rewrite off_total; auto) cap_ok lcap_ok HT f Hf).
Qed.
End Main.

(** ** The chunks *)
Lemma max_chunk_ge l : forall a ch, (a <= fold_left (fun a ch => Nat.max a (snd (fst ch) - fst (fst ch))) l a)%nat /\
  (In ch l -> (snd (fst ch) - fst (fst ch) <= fold_left (fun (a : nat) (ch : nat * nat * Z) => Nat.max a (snd (fst ch) - fst (fst ch))) l a)%nat).
Proof.
  induction l as [|x l IH]; intros a ch; cbn [fold_left]; [split; [lia|intros []]|].
  destruct (IH (Nat.max a (snd (fst x) - fst (fst x))) ch) as (H1 & H2). split; [lia|]. intros [->|H]; [lia|auto].
Qed.
Lemma chunks_main m degs : let chunks := compute_chunks m degs in
  (forall u, (u < length degs)%nat -> exists ch a b fe, nth_error chunks ch = Some (a, b, fe) /\ (a <= u < b)%nat /\
     forall ch' a' b' fe', nth_error chunks ch' = Some (a', b', fe') -> (a' <= u < b')%nat -> ch' = ch) /\
  (forall ch a b fe, nth_error chunks ch = Some (a, b, fe) ->
     (a < b <= length degs)%nat /\ fe = zsum (firstn a degs) /\ (b - a <= max_chunk_size chunks)%nat /\
     (b = S a \/ zsum (firstn (b - a) (skipn a degs)) < m / 5000)).
Proof.
  intros chunks. pose proof (chunks_tile m degs) as HT. fold chunks in HT. split.
  - intros u Hu. destruct (tiles_cover _ _ _ u HT ltac:(lia)) as (ch & Hch & Hr).
    exists ch, (fst (fst (nth ch chunks (0%nat, 0%nat, 0)))), (snd (fst (nth ch chunks (0%nat, 0%nat, 0)))), (snd (nth ch chunks (0%nat, 0%nat, 0))).
    split; [rewrite (nth_error_nth' chunks (0%nat, 0%nat, 0) Hch); destruct (nth ch chunks _) as [[? ?] ?]; reflexivity|]. split; auto.
    intros ch' a' b' fe' E Hr'. assert (Hch' : (ch' < length chunks)%nat) by (apply nth_error_Some; congruence).
    apply nth_error_nth with (d := (0%nat, 0%nat, 0)) in E. destruct (Nat.lt_trichotomy ch ch') as [L|[L|L]]; auto.
    + destruct (tiles_nth _ _ _ ch HT Hch) as (_ & _ & _ & X). specialize (X ch' ltac:(lia)). rewrite E in X. cbn [fst snd] in *. lia.
    + destruct (tiles_nth _ _ _ ch' HT Hch') as (_ & _ & _ & X). specialize (X ch ltac:(lia)). rewrite E in X. cbn [fst snd] in *. lia.
  - intros ch a b fe E. pose proof (nth_error_In _ _ E) as Hi. assert (Hch : (ch < length chunks)%nat) by (apply nth_error_Some; congruence).
    pose proof (chunks_facts m degs) as F. rewrite Forall_forall in F. specialize (F _ Hi). cbn in F. destruct F as (F1 & F2 & F3).
    apply nth_error_nth with (d := (0%nat, 0%nat, 0)) in E. destruct (tiles_nth _ _ _ ch HT Hch) as (_ & X & _). rewrite E in X. cbn [fst snd] in X.
    repeat split; auto; try lia. apply (proj2 (max_chunk_ge chunks 0%nat (a, b, fe)) Hi).
Qed.
