(* Parallel compression: chunk sizes and capacities. *)
From Verif Require Import Lib.Prelude Lib.Count Model.VarintModel Model.CompressModel Model.CompressParModel
  Spec.CompressInput Proofs.VarintProofs Proofs.CompressProofs Proofs.CompressGraphProofs Proofs.CompressSize
  Proofs.CompressParBase Proofs.CompressParProofs Proofs.CompressParTop.
From Verif Require Import Lib.Slice.
Local Open Scope Z_scope.

(** Facts about every chunk; [pre] are the degrees of the nodes before the current one. *)
Definition chunk_fact (mo : Z) (all : list Z) (x : nat * nat * Z) : Prop :=
  let '(a, b, fe) := x in
  (b <= length all)%nat /\ fe = zsum (firstn a all) /\ (b = S a \/ zsum (slice all a (b - a)) < mo).
Lemma zsum_firstn_S l i d : nth_error l i = Some d -> zsum (firstn (S i) l) = zsum (firstn i l) + d.
Proof.
  revert i; induction l as [|x l IH]; intros [|i] H; cbn in H; try discriminate.
  - injection H as ->. cbn. lia.
  - change (firstn (S (S i)) (x :: l)) with (x :: firstn (S i) l). change (firstn (S i) (x :: l)) with (x :: firstn i l).
    change (x + zsum (firstn (S i) l) = x + zsum (firstn i l) + d). rewrite (IH i H). lia.
Qed.
Lemma zsum_slice l a b : (a <= b <= length l)%nat -> zsum (slice l a (b - a)) = zsum (firstn b l) - zsum (firstn a l).
Proof.
  intros H. assert (E : firstn b l = firstn a l ++ slice l a (b - a)).
  { unfold slice. replace b with (a + (b - a))%nat at 1 by lia. rewrite firstn_skipn_comm. rewrite <- (firstn_skipn a (firstn (a + (b - a)) l)) at 1.
    f_equal. rewrite firstn_firstn. f_equal. lia. }
  rewrite E, zsum_app. lia.
Qed.
Lemma chunk_loop_facts mo all degs : forall i start o fe, (start <= i)%nat -> skipn i all = degs ->
  o = zsum (firstn i all) - zsum (firstn start all) -> fe = zsum (firstn start all) -> (i <= length all)%nat ->
  (start = i \/ i = S start \/ o < mo) ->
  Forall (chunk_fact mo all) (chunk_loop mo i start o fe degs).
Proof.
  induction degs as [|d degs IH]; intros i start o fe H Hs Ho Hf Hi HC; cbn [chunk_loop].
  - destruct (Nat.eqb_spec start i) as [E|E]; [constructor|]. constructor; [|constructor]. cbn.
    rewrite zsum_slice by lia. repeat split; auto. destruct HC as [HC|[HC|HC]]; [lia|left; auto|right; lia].
  - assert (Hd : nth_error all i = Some d).
    { rewrite <- (firstn_skipn i all), Hs. rewrite nth_error_app2; rewrite firstn_length; [|lia]. replace (i - Nat.min i (length all))%nat with 0%nat by lia. reflexivity. }
    assert (Hl : (i < length all)%nat) by (apply nth_error_Some; congruence).
    pose proof (zsum_firstn_S all i d Hd) as ZS.
    assert (Hs' : skipn (S i) all = degs). { change (S i) with (1 + i)%nat. rewrite Nat.add_comm, <- skipn_skipn, Hs. reflexivity. }
    destruct (Z.leb_spec mo (o + d)) as [L|L].
    + destruct (Nat.eqb_spec start i) as [E|E].
      * subst start. constructor; [cbn; repeat split; auto; lia|]. apply IH; auto; try lia.
      * constructor.
        -- cbn. rewrite zsum_slice by lia. repeat split; auto; try lia.
        -- apply IH; auto; try lia.
    + apply IH; auto; try lia.
Qed.
Lemma chunks_facts m degs : Forall (chunk_fact (m / kNumChunks) degs) (compute_chunks m degs).
Proof. apply chunk_loop_facts; auto; cbn; lia. Qed.

(** ** Bytes of a chunk *)
Lemma in_nodes n a : forall b, (a + b <= n)%nat -> Z.of_nat (a + b) <= Z.of_nat n.
Proof. intros; lia. Qed.
Lemma marked_max w a : (w = 32 \/ w = 64) -> 0 <= a < 2 ^ w -> marked_varint_length w a <= varint_max_length w.
Proof.
  intros Hw Ha. etransitivity; [apply (marked_length_mono w w a (2 ^ w - 1)); lia|]. destruct Hw as [-> | ->]; vm_compute; discriminate.
Qed.
Lemma length_max w a : (w = 32 \/ w = 64) -> 0 <= a < 2 ^ w -> varint_length w a <= varint_max_length w.
Proof.
  intros Hw Ha. etransitivity; [apply (varint_length_mono w w a (2 ^ w - 1)); lia|]. destruct Hw as [-> | ->]; vm_compute; discriminate.
Qed.

Lemma range_size c sort nbs n E node : conf_ok c -> (forall l, Permutation (sort l) l) ->
  n < 2 ^ (c_wn c - 1) -> Z.of_nat (node + length nbs) <= n -> E < 2 ^ c_wi c -> num_edges_of nbs <= E ->
  Forall (fun nb => simple_nb c n (sort nb)) nbs ->
  Z.of_nat (length (snd (fst (build_loop c sort node nbs [] 0)))) <= compressed_edge_array_max_size c false n E.
Proof.
  intros Hc Hsort Hn Hnode Hm HE Hs. pose proof (wn_pos c Hc) as Hwn. pose proof (pow2_half (c_wn c) ltac:(lia)) as Hh.
  pose proof (proj1 (proj2 Hc)) as Hwi'. assert (Hwi : 32 <= c_wi c) by (destruct Hc as (_ & [?|?] & _); lia).
  set (m := num_edges_of nbs) in *.
  set (H := varint_max_length (c_wi c)).
  set (B := nodew c n + ews c). set (T := if c_hd c then varint_max_length (c_wn c) else 0).
  assert (HT : 0 <= T). { subst T. destruct (c_hd c); [|lia]. unfold varint_max_length. pose proof (Z.div_pos (c_wn c) 7 ltac:(lia) ltac:(lia)). lia. }
  assert (Hm0 : 0 <= m). { subst m. unfold num_edges_of. clear. induction nbs; cbn [map zsum]; lia. }
  pose proof (build_loop_size c sort (fun d => H + B * d + (d / 1000 + 1) * T) nbs node [] 0) as Hb.
  destruct (build_loop c sort node nbs [] 0) as [[offsets data] tot]. cbn [fst snd].
  assert (Hd : Z.of_nat (length data) <= Z.of_nat (length (@nil Z)) + zsum (map (fun nb => H + B * Z.of_nat (length (sort nb)) + (Z.of_nat (length (sort nb)) / 1000 + 1) * T) nbs)).
  { apply Hb. intros u t Hu.
    assert (Hin : In (nth u nbs []) nbs) by (apply nth_In; exact Hu).
    rewrite Forall_forall in Hs. specialize (Hs _ Hin).
    pose proof (Permutation_length (Hsort (nth u nbs []))) as Hlen.
    pose proof (num_edges_ge nbs u Hu) as Hdm. fold m in Hdm. rewrite <- Hlen in Hdm.
    pose proof (simple_length c n _ ltac:(lia) Hs) as Hdn.
    pose proof (simple_add_sorted_size c Hc n H (Z.of_nat (node + u)) (sort (nth u nbs [])) t ltac:(lia) ltac:(lia) Hs) as Hsz.
    apply Z.le_trans with (1 := Hsz ltac:(subst H; destruct (c_iv c);
      [etransitivity; [apply (marked_length_mono (c_wn c) (c_wi c) _ (2 ^ c_wi c - 1)); lia|apply marked_max; auto; lia]
      |etransitivity; [apply (varint_length_mono (c_wn c) (c_wi c) _ (2 ^ c_wi c - 1)); lia|apply length_max; auto; lia]])).
    subst T B. destruct (c_hd c); lia. }
  rewrite (zsum_lin3 H B T (fun nb => Z.of_nat (length (sort nb))) (fun nb => Z.of_nat (length (sort nb)) / 1000)) in Hd.
  assert (Hlens : map (fun nb => Z.of_nat (length (sort nb))) nbs = map (fun nb => Z.of_nat (length nb)) nbs).
  { apply map_ext. intros l. rewrite (Permutation_length (Hsort l)). reflexivity. }
  rewrite Hlens in Hd. fold (num_edges_of nbs) in Hd. fold m in Hd.
  assert (Hq : zsum (map (fun nb => Z.of_nat (length (sort nb)) / 1000) nbs) <= m / 1000).
  { subst m. unfold num_edges_of. rewrite <- Hlens.
    pose proof (sum_div1000 (map (fun nb => Z.of_nat (length (sort nb))) nbs)) as Hq. rewrite map_map in Hq. apply Hq.
    apply Forall_forall. intros x Hx. apply in_map_iff in Hx. destruct Hx as (y & <- & _). lia. }
  assert (Hq' : m / 1000 <= E / 1000) by (apply Z.div_le_mono; lia).
  unfold compressed_edge_array_max_size. fold H. fold (nodew c n).
  rewrite wrap_u_small by lia.
  change (Z.of_nat kHighDegreePartLength) with 1000.
  cbn [length] in Hd.
  assert (HH : 0 <= H). { subst H. destruct Hwi' as [-> | ->]; vm_compute; discriminate. }
  assert (HqT : zsum (map (fun nb => Z.of_nat (length (sort nb)) / 1000) nbs) * T <= E / 1000 * T) by (apply Z.mul_le_mono_nonneg_r; lia).
  assert (HB : 0 <= B).
  { subst B. pose proof (ews_nonneg c Hc). unfold nodew, signed_varint_length_u. destruct (varint_encode_facts (c_wn c) (zigzag_encode_u (c_wn c) n) ltac:(lia)) as (_ & ? & _).
    - rewrite zigzag_u_spec by lia. lia.
    - lia. }
  assert (HBE : B * m <= B * E) by (apply Z.mul_le_mono_nonneg_l; lia).
  assert (HL : Z.of_nat (length nbs) * (H + T) <= n * (H + T)) by (apply Z.mul_le_mono_nonneg_r; lia).
  subst B. unfold ews in *. subst T. clearbody m H.
  destruct (c_hd c), (c_ew c); lia.
Qed.
