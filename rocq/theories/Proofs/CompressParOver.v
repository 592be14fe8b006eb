(* Parallel compression: the buffer of a thread is too small for large dense graphs. *)
From Coq Require Import Sorted.
From Verif Require Import Lib.Prelude Lib.Count Model.VarintModel Model.CompressModel Model.CompressParModel
  Spec.CompressInput Proofs.VarintProofs Proofs.CompressProofs Proofs.CompressGraphProofs Proofs.CompressSize
  Proofs.CompressParBase Proofs.CompressParSize Proofs.CompressParMain.
From Verif Require Import Lib.Slice.
Local Open Scope Z_scope.

(** 64-bit edge IDs, unweighted edges. *)
Definition cfg_big : cconf := {| c_wn := 32; c_wi := 64; c_we := 64; c_ew := false; c_hd := true; c_iv := true |}.
Definition bigd : nat := Z.to_nat 100000.
Definition bign : nat := (40 + Z.to_nat 199960)%nat.
(** The complete bipartite graph between the even and the odd nodes. *)
Definition side (p : Z) (d : nat) : list nbr := map (fun i => (2 * Z.of_nat i + p, 1)) (seq 0 d).
Definition bip : list (list nbr) := map (fun u => side (if Nat.even u then 1 else 0) bigd) (seq 0 bign).

(** Neighbours at distance two: no intervals. *)
Inductive step2 : list nbr -> Prop :=
| step2_nil : step2 []
| step2_one a w : step2 [(a, w)]
| step2_cons a w w' l : step2 ((a + 2, w') :: l) -> step2 ((a, w) :: (a + 2, w') :: l).
Lemma side_from p d : forall s, step2 (map (fun i => (2 * Z.of_nat i + p, 1)) (seq s d)).
Proof.
  induction d as [|d IH]; intros s; [constructor|]. cbn [seq map]. destruct d as [|d]; [constructor|].
  specialize (IH (S s)). cbn [seq map] in *. replace (2 * Z.of_nat (S s) + p) with (2 * Z.of_nat s + p + 2) in * by lia. constructor. auto.
Qed.
Lemma step2_skipn l : step2 l -> forall k, step2 (skipn k l).
Proof.
  induction 1 as [|a w|a w w' l H IH]; intros [|k]; cbn [skipn]; try constructor; auto.
  - rewrite skipn_nil. constructor.
Qed.
Lemma step2_firstn l : step2 l -> forall k, step2 (firstn k l).
Proof.
  induction 1 as [|a w|a w w' l H IH]; intros [|k]; try constructor.
  - cbn [firstn]. rewrite firstn_nil. constructor.
  - specialize (IH k). cbn [firstn]. destruct k as [|k]; [constructor|]. cbn [firstn] in *. constructor. auto.
Qed.
Lemma parse_loop_step2 wn l : 2 <= wn -> step2 l -> Forall (fun x => 0 <= fst x < 2 ^ wn - 1) l -> forall i len a w l', l = (a, w) :: l' ->
  parse_loop wn i len a l' = [].
Proof.
  intros Hwn. induction 1 as [|a w|a w w' l H IH]; intros HF i len a0 w0 l' E; inversion E; subst; auto.
  cbn [parse_loop]. inversion HF as [|? ? H1 H2]; subst. inversion H2 as [|? ? H3 H4]; subst. cbn [fst] in *.
  rewrite wrap_u_small by lia. replace (a0 + 1 =? a0 + 2) with false by lia. cbn [negb]. eapply IH; eauto.
Qed.
Lemma count_step2 wn l : 2 <= wn -> step2 l -> Forall (fun x => 0 <= fst x < 2 ^ wn - 1) l -> count_intervals wn l = 0.
Proof.
  intros Hwn H HF. unfold count_intervals, parse_intervals. destruct (Z.of_nat (length l) <? kIntervalLengthThreshold); auto.
  destruct l as [|[a w] l]; auto. erewrite (parse_loop_step2 wn ((a, w) :: l)); eauto.
Qed.
Lemma gap_loop_ge c l : 1 <= c_wn c -> Forall (fun x => 0 <= fst x < 2 ^ c_wn c - 1) l -> forall pv st,
  Z.of_nat (length l) <= Z.of_nat (length (fst (encode_gap_loop c pv l st))).
Proof.
  intros Hw. induction 1 as [|[v w] l Hv Hl IH]; intros pv st; [cbn; lia|]. cbn [encode_gap_loop]. unfold kInvalidNodeID. cbn [fst] in Hv.
  replace (v =? 2 ^ c_wn c - 1) with false by lia. destruct (encode_edge_weight c w st) as [b st1]. specialize (IH v st1).
  destruct (encode_gap_loop c v l st1) as [b' st2]. cbn [fst] in *. rewrite !app_length.
  destruct (varint_encode_facts (c_wn c) (wrap_u (c_wn c) (v - pv - 1)) Hw) as (E1 & E2 & _).
  { unfold wrap_u. apply Z.mod_pos_bound. apply Z.pow_pos_nonneg; lia. }
  cbn [length]. lia.
Qed.
Lemma signed_ge x : 1 <= Z.of_nat (length (signed_varint_encode 64 (wrap_s 64 x))).
Proof.
  unfold signed_varint_encode. pose proof (wrap_s_range 64 x ltac:(lia)). 
  destruct (varint_encode_facts 64 (zigzag_encode 64 (wrap_s 64 x)) ltac:(lia)) as (E1 & E2 & _); [|lia].
  apply zigzag_encode_range; lia.
Qed.
Lemma gaps_ge c node l st : 1 <= c_wn c -> Forall (fun x => 0 <= fst x < 2 ^ c_wn c - 1) l ->
  Z.of_nat (length l) <= Z.of_nat (length (fst (encode_gaps c node (Z.of_nat (length l)) l st))).
Proof.
  intros Hw Hl. unfold encode_gaps. destruct l as [|[v w] l]; [cbn; lia|].
  destruct (Z.eqb_spec (Z.of_nat (length ((v, w) :: l))) 0) as [E|E]; [cbn [length] in E; lia|].
  inversion Hl as [|? ? Hv Hl']; subst. cbn [skip_invalid fst] in *. unfold kInvalidNodeID. replace (v =? 2 ^ c_wn c - 1) with false by lia.
  destruct (encode_edge_weight c w st) as [b st1]. pose proof (gap_loop_ge c l Hw Hl' v st1) as G.
  destruct (encode_gap_loop c v l st1) as [b' st2]. cbn [fst length] in *. rewrite !app_length. pose proof (signed_ge (v - node)). lia.
Qed.
Lemma edges_ge c node l t : 2 <= c_wn c -> step2 l -> Forall (fun x => 0 <= fst x < 2 ^ c_wn c - 1) l ->
  Z.of_nat (length l) <= Z.of_nat (length (fst (add_edges c node 0 l t))).
Proof.
  intros Hw H2 Hl. unfold add_edges, encode_intervals. cbn [Z.ltb Z.compare]. pose proof (gaps_ge c node l (0, t) ltac:(lia) Hl) as G.
  destruct (c_iv c); destruct (encode_gaps c node _ l (0, t)) as [b st]; cbn [fst app] in *; exact G.
Qed.
Lemma sorted_ge c node l t : 2 <= c_wn c -> step2 l -> Forall (fun x => 0 <= fst x < 2 ^ c_wn c - 1) l ->
  Z.of_nat (length l) <= Z.of_nat (length (fst (add_sorted c node l t))).
Proof.
  intros Hw H2 Hl. unfold add_sorted. destruct (Nat.eqb_spec (length l) 0) as [E|E]; [cbn [fst length]; lia|].
  destruct (c_hd c && (kHighDegreeThreshold <=? Z.of_nat (length l))).
  - assert (P : forall ps o t, Z.of_nat (length (flat_map (part_of l) ps)) <= Z.of_nat (length (snd (fst (encode_part_loop c node l ps o t))))).
    { induction ps as [|p ps IH]; intros o t'; [cbn; lia|]. cbn [encode_part_loop flat_map].
      assert (S2 : step2 (part_of l p)) by (unfold part_of; apply step2_firstn, step2_skipn; auto).
      assert (F2 : Forall (fun x => 0 <= fst x < 2 ^ c_wn c - 1) (part_of l p)).
      { apply Forall_forall. intros x Hx. rewrite Forall_forall in Hl. apply Hl. eapply part_incl; eauto. }
      replace (if c_iv c then count_intervals (c_wn c) (part_of l p) else 0) with 0 by (destruct (c_iv c); auto; symmetry; apply count_step2; auto).
      pose proof (edges_ge c node (part_of l p) t' Hw S2 F2) as G. destruct (add_edges c node 0 (part_of l p) t') as [b t1].
      specialize (IH (o + Z.of_nat (length b)) t1). destruct (encode_part_loop c node l ps _ t1) as [[x b'] t2]. cbn [fst snd] in *. rewrite !app_length. lia. }
    specialize (P (seq 0 (num_parts (length l))) (Z.of_nat (id_bytes c * num_parts (length l))) t). rewrite parts_concat in P.
    destruct (encode_part_loop c node l _ _ t) as [[x b'] t2]. cbn [fst snd] in *. rewrite !app_length. lia.
  - replace (if c_iv c && negb false then count_intervals (c_wn c) l else 0) with 0 by (destruct (c_iv c); auto; symmetry; apply count_step2; auto).
    pose proof (edges_ge c node l t Hw H2 Hl) as G. destruct (add_edges c node 0 l t) as [b t1]. cbn [fst] in *. rewrite !app_length. lia.
Qed.
Lemma build_ge c nbs : 2 <= c_wn c -> Forall (fun l => step2 l /\ Forall (fun x => 0 <= fst x < 2 ^ c_wn c - 1) l) nbs -> forall node data t,
  Z.of_nat (length data) + num_edges_of nbs <= Z.of_nat (length (snd (fst (build_loop c (fun l => l) node nbs data t)))).
Proof.
  intros Hw. induction 1 as [|l nbs (H1 & H2) Hl IH]; intros node data t; cbn [build_loop].
  - unfold num_edges_of. cbn. lia.
  - pose proof (sorted_ge c (Z.of_nat node) l t Hw H1 H2) as G. destruct (add_sorted c (Z.of_nat node) l t) as [b t1]. specialize (IH (S node) (data ++ b) t1).
    destruct (build_loop c (fun l => l) (S node) nbs (data ++ b) t1) as [[o d] t2]. cbn [fst snd] in *. rewrite app_length in IH.
    unfold num_edges_of in *. cbn [map zsum]. lia.
Qed.

Lemma side_simple p : p = 0 \/ p = 1 -> simple_nb cfg_big 200000 (side p bigd).
Proof.
  intros Hp. assert (Hd : Z.of_nat bigd = 100000) by (unfold bigd; lia). split.
  - unfold side. generalize 0%nat as s. generalize bigd as d. induction d as [|d IH]; intros s; cbn [seq map]; constructor; auto.
    apply Forall_forall. intros x Hx. apply in_map_iff in Hx. destruct Hx as (i & <- & Hi). apply in_seq in Hi. cbn [fst]. lia.
  - apply Forall_forall. intros x Hx. unfold side in Hx. apply in_map_iff in Hx. destruct Hx as (i & <- & Hi). apply in_seq in Hi. cbn [fst snd].
    split; [|vm_compute; split; [discriminate|reflexivity]]. lia.
Qed.
Lemma bip_len : length bip = bign. Proof. unfold bip. now rewrite map_length, seq_length. Qed.
Lemma bign_Z : Z.of_nat bign = 200000. Proof. unfold bign. lia. Qed.
Lemma side_len p : length (side p bigd) = bigd. Proof. unfold side. now rewrite map_length, seq_length. Qed.
Lemma bip_degs : degs_of bip = repeat 100000 bign.
Proof.
  unfold degs_of, bip. rewrite map_map. rewrite <- (seq_length bign 0) at 2. generalize (seq 0 bign) as l. induction l as [|u l IH]; [reflexivity|].
  cbn [map length repeat]. rewrite IH. rewrite side_len. unfold bigd. f_equal; try lia.
Qed.
Lemma zsum_repeat x k : zsum (repeat x k) = x * Z.of_nat k.
Proof. induction k as [|k IH]; [cbn; lia|]. cbn [repeat]. change (zsum (x :: repeat x k)) with (x + zsum (repeat x k)). rewrite IH. lia. Qed.
Lemma bip_m : num_edges_of bip = 20000000000.
Proof. change (num_edges_of bip) with (zsum (degs_of bip)). rewrite bip_degs, zsum_repeat, bign_Z. reflexivity. Qed.
Lemma bip_md : max_degree_of (degs_of bip) = 100000.
Proof.
  rewrite bip_degs. unfold bign. generalize (Z.to_nat 199960) as k. intros k. change (40 + k)%nat with (S (39 + k)).
  unfold max_degree_of. cbn [repeat fold_left]. generalize (39 + k)%nat as j. change (Z.max 0 100000) with 100000.
  induction j as [|j IH]; [reflexivity|]. cbn [repeat fold_left]. exact IH.
Qed.
Lemma bip_chunks : exists rest, compute_chunks (num_edges_of bip) (degs_of bip) = (0%nat, 39%nat, 0) :: rest.
Proof.
  rewrite bip_m, bip_degs. unfold bign. generalize (Z.to_nat 199960) as k. intros k. unfold compute_chunks.
  change (20000000000 / kNumChunks) with 4000000. rewrite repeat_app. eexists. reflexivity.
Qed.
Lemma bip_lcap : compressed_edge_array_max_size cfg_big false 200000 100000 = 3300510.
Proof. vm_compute. reflexivity. Qed.

Lemma overflow_first c sort nbs x rest lcap cap : lcap < Z.of_nat (length (chunk_data c sort nbs (x :: rest) 0)) ->
  p_run c sort nbs (x :: rest) lcap [0%nat; 0%nat] (p_init nbs (x :: rest) 1 cap) = None.
Proof.
  intros H. unfold p_init. cbn -[chunk_data Z.ltb Z.of_nat]. change (upd 0 (Some (0%nat, SComp)) [None]) with [Some (0%nat, SComp)]. cbn -[chunk_data Z.ltb Z.of_nat]. replace (lcap <? Z.of_nat (length (chunk_data c sort nbs (x :: rest) 0))) with true; [reflexivity|].
  symmetry. now apply Z.ltb_lt.
Qed.
Lemma bip_overflow : let chunks := compute_chunks (num_edges_of bip) (degs_of bip) in
  p_run cfg_big (fun l => l) bip chunks (compressed_edge_array_max_size cfg_big false (Z.of_nat (length bip)) (max_degree_of (degs_of bip)))
    [0%nat; 0%nat] (p_init bip chunks 1 (Z.to_nat (compressed_edge_array_max_size cfg_big true (Z.of_nat (length bip)) (num_edges_of bip)))) = None.
Proof.
  intros chunks. destruct bip_chunks as (rest & E). fold chunks in E. rewrite bip_len, bign_Z, bip_md, bip_lcap.
  generalize (Z.to_nat (compressed_edge_array_max_size cfg_big true 200000 (num_edges_of bip))) as cap. intros cap. rewrite E. apply overflow_first.
  assert (G : 3900000 <= Z.of_nat (length (chunk_data cfg_big (fun l => l) bip ((0%nat, 39%nat, 0) :: rest) 0))).
  { unfold chunk_data, chunk_result. cbn [nth]. change (39 - 0)%nat with 39%nat.
    etransitivity; [|apply build_ge].
    - cbn [length]. unfold num_edges_of. rewrite map_slice. change (map (fun nb : list nbr => Z.of_nat (length nb)) bip) with (degs_of bip).
      rewrite bip_degs. unfold bign. rewrite repeat_app. unfold slice. cbn [skipn]. rewrite firstn_app. rewrite zsum_app.
      rewrite repeat_length. change (39 - 40)%nat with 0%nat. cbn [firstn]. vm_compute. discriminate.
    - vm_compute. discriminate.
    - apply Forall_forall. intros x Hx. unfold slice in Hx. cbn [skipn] in Hx. assert (Hx' : In x bip).
      { rewrite <- (firstn_skipn 39 bip). apply in_or_app. left. exact Hx. }
      unfold bip in Hx'. apply in_map_iff in Hx'. destruct Hx' as (u & <- & _). split; [apply side_from|].
      destruct (side_simple (if Nat.even u then 1 else 0)) as (_ & F); [destruct (Nat.even u); auto|].
      eapply Forall_impl; [|exact F]. cbn. intros a (Ha & _). change (2 ^ 32) with 4294967296. lia. }
  lia.
Qed.
Lemma bip_symmetric u v : (u < bign)%nat -> (v < bign)%nat -> In (Z.of_nat v, 1) (nth u bip []) <-> In (Z.of_nat u, 1) (nth v bip []).
Proof.
  assert (G : forall u v, (u < bign)%nat -> (v < bign)%nat -> In (Z.of_nat v, 1) (nth u bip []) <-> Nat.even u = negb (Nat.even v)).
  { intros a b Ha Hb. pose proof bign_Z. unfold bip. rewrite (nth_indep _ [] ((fun u => side (if Nat.even u then 1 else 0) bigd) 0%nat)) by (rewrite map_length, seq_length; auto).
    rewrite (map_nth (fun u => side (if Nat.even u then 1 else 0) bigd)), seq_nth by auto. cbn [plus]. unfold side. rewrite in_map_iff. split.
    - intros (i & E & Hi). apply (f_equal fst) in E. cbn [fst] in E. destruct (Nat.even a).
      + assert (X : b = S (2 * i)) by lia. rewrite X, Nat.even_succ, <- Nat.negb_even, Nat.even_mul. reflexivity.
      + assert (X : b = (2 * i)%nat) by lia. rewrite X, Nat.even_mul. reflexivity.
    - intros E. exists (Nat.div2 b). split.
      + f_equal. pose proof (Nat.div2_odd b) as D. rewrite <- Nat.negb_even in D. rewrite E. destruct (Nat.even b); cbn [negb Nat.b2n] in *; lia.
      + apply in_seq. pose proof (Nat.div2_odd b). assert (Z.of_nat bigd = 100000) by (unfold bigd; lia). lia. }
  intros Hu Hv. rewrite (G u v), (G v u) by auto. destruct (Nat.even u), (Nat.even v); cbn; split; congruence.
Qed.
Lemma local_buffer_refuted : exists c nbs, conf_ok c /\ Z.of_nat (length nbs) = 200000 /\
  Forall (simple_nb c (Z.of_nat (length nbs))) nbs /\
  (forall u v, (u < length nbs)%nat -> (v < length nbs)%nat -> In (Z.of_nat v, 1) (nth u nbs []) <-> In (Z.of_nat u, 1) (nth v nbs [])) /\
  let n := Z.of_nat (length nbs) in let m := num_edges_of nbs in let degs := map (fun nb => Z.of_nat (length nb)) nbs in
  let chunks := compute_chunks m degs in
  p_run c (fun l => l) nbs chunks (compressed_edge_array_max_size c false n (max_degree_of degs)) [0%nat; 0%nat]
    (p_init nbs chunks 1 (Z.to_nat (compressed_edge_array_max_size c true n m))) = None.
Proof.
  exists cfg_big, bip. rewrite bip_len, bign_Z. split; [repeat split; cbn; auto|]. split; auto. split.
  - apply Forall_forall. intros x Hx. unfold bip in Hx. apply in_map_iff in Hx. destruct Hx as (u & <- & _). apply side_simple. destruct (Nat.even u); auto.
  - split; [apply bip_symmetric|]. pose proof bip_overflow as H. rewrite bip_len, bign_Z in H. exact H.
Qed.
