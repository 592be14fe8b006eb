(* Proofs about CSRGraph, edge_cut, weight detection, degree buckets and isolated nodes. *)
From Verif Require Import Lib.Prelude Lib.Count Model.MathModel Spec.Graph Model.CsrModel Proofs.GraphFacts Proofs.MathProofs.

(* ---------------------------------------------------------------- prefix sums *)
Lemma prefix_sum_from_length a l : length (prefix_sum_from a l) = length l.
Proof. revert a; induction l; simpl; auto. Qed.
Lemma prefix_sum_length l : length (prefix_sum l) = length l.
Proof. apply prefix_sum_from_length. Qed.
Lemma prefix_sum_from_nth l : forall a i, i < length l ->
  nth i (prefix_sum_from a l) 0 = a + list_sum (firstn (S i) l).
Proof.
  induction l as [|x l IH]; simpl; intros a i Hi; [lia|].
  destruct i; simpl; [lia|]. rewrite IH by lia. destruct l; simpl in *; lia.
Qed.
Lemma prefix_sum_nth l i : i < length l -> nth i (prefix_sum l) 0 = list_sum (firstn (S i) l).
Proof. intros. unfold prefix_sum. rewrite prefix_sum_from_nth; auto. Qed.
Lemma firstn_S_snoc {A} (d : A) l i : i < length l -> firstn (S i) l = firstn i l ++ [nth i l d].
Proof.
  revert i; induction l; simpl; intros i Hi; [lia|]. destruct i; simpl; auto. f_equal. apply IHl; lia.
Qed.
Lemma last_nth {A} (l : list A) d : last l d = nth (length l - 1) l d.
Proof.
  destruct l as [|x l]; auto. revert x; induction l as [|y l IH]; intros x; auto.
  change (last (x :: y :: l) d) with (last (y :: l) d). rewrite IH. simpl. rewrite Nat.sub_0_r. auto.
Qed.

(* ---------------------------------------------------------------- edge cut *)
Definition node_cut (adj : nat -> list (nat * Z)) (part : nat -> nat) (u : nat) : Z :=
  zsum (map (fun e => if part u =? part (fst e) then 0%Z else snd e) (adj u)).

Lemma fold_add_zsum {A} (f : A -> Z) l : forall a, fold_left (fun a x => (a + f x)%Z) l a = (a + zsum (map f l))%Z.
Proof. induction l; simpl; intros; [lia|]. rewrite IHl. lia. Qed.

Lemma chunk_cut_eq adj part c : forall acc, chunk_cut adj part c acc = (acc + zsum (map (node_cut adj part) c))%Z.
Proof.
  unfold chunk_cut. induction c; simpl; intros; [lia|]. rewrite IHc.
  rewrite (fold_add_zsum (fun e => if part a =? part (fst e) then 0%Z else snd e)).
  unfold node_cut at 2. lia.
Qed.

Lemma ets_sum adj part (s : schedule) : forall ets,
  (forall t c, In (t, c) s -> t < length ets) ->
  zsum (fold_left (fun ets tc => upd (fst tc) (chunk_cut adj part (snd tc) (nth (fst tc) ets 0%Z)) ets) s ets)
  = (zsum ets + zsum (map (node_cut adj part) (concat (map snd s))))%Z.
Proof.
  induction s as [|[t c] s IH]; simpl; intros ets H; [lia|].
  rewrite IH.
  - rewrite zsum_upd by (eapply H; left; eauto). rewrite chunk_cut_eq, map_app, zsum_app. lia.
  - intros. rewrite upd_length. eapply H; right; eauto.
Qed.

Lemma zsum_repeat0 n : zsum (repeat 0%Z n) = 0%Z. Proof. induction n; simpl; lia. Qed.

Lemma edge_cut_sum bits threads s n adj part : valid_schedule threads n s ->
  edge_cut bits threads s adj part = finish_cut bits (sumn n (node_cut adj part)).
Proof.
  intros [Ht Hp]. unfold edge_cut. rewrite ets_sum by (rewrite repeat_length; auto).
  rewrite zsum_repeat0. f_equal. unfold sumn. simpl. apply zsum_perm, Permutation_map; auto.
Qed.

Lemma edge_cut_seq_sum bits n adj part :
  edge_cut_seq bits n adj part = finish_cut bits (sumn n (node_cut adj part)).
Proof. unfold edge_cut_seq. rewrite chunk_cut_eq. reflexivity. Qed.

Lemma edge_cut_par_seq bits threads s n adj part : valid_schedule threads n s ->
  edge_cut bits threads s adj part = edge_cut_seq bits n adj part.
Proof. intros. erewrite edge_cut_sum by eauto. rewrite edge_cut_seq_sum. auto. Qed.

Lemma finish_cut_double bits c : (- 2 ^ (bits - 1) <= c < 2 ^ (bits - 1))%Z -> finish_cut bits (2 * c) = Some c.
Proof.
  intros H. unfold finish_cut. rewrite Z.mul_comm, Z.rem_mul, Z.quot_mul by lia. simpl.
  destruct (Z.leb_spec (- 2 ^ (bits - 1)) c); [|lia]. destruct (Z.ltb_spec c (2 ^ (bits - 1))); [|lia]. auto.
Qed.

Lemma edge_cut_correct bits threads s g part :
  closed_graph g -> undirected g -> valid_schedule threads (gn g) s ->
  (- 2 ^ (bits - 1) <= cut_weight g part < 2 ^ (bits - 1))%Z ->
  edge_cut bits threads s (gadj g) part = Some (cut_weight g part).
Proof.
  intros Hc Hs Hv Hb. erewrite edge_cut_sum by eauto.
  change (sumn (gn g) (node_cut (gadj g) part)) with (dcut g part).
  rewrite dcut_cut by auto. apply finish_cut_double; auto.
Qed.

(* ---------------------------------------------------------------- weight detection *)
Lemma ones_of_sum l : (forall x, In x l -> (1 <= x)%Z) -> zsum l = Z.of_nat (length l) -> forall x, In x l -> x = 1%Z.
Proof.
  induction l as [|a l IH]; simpl; intros H E x Hx; [tauto|].
  assert (Z.of_nat (length l) <= zsum l)%Z.
  { clear - H. induction l; simpl; [lia|]. pose proof (H a0 (or_intror (or_introl eq_refl))).
    assert (Z.of_nat (length l) <= zsum l)%Z by (apply IHl; intros; apply H; simpl; tauto). lia. }
  pose proof (H a (or_introl eq_refl)).
  destruct Hx as [->|Hx]; [lia|]. apply IH; auto. lia.
Qed.

Lemma nth_ones l e : (forall x, In x l -> x = 1%Z) -> e < length l -> nth e l 0%Z = 1%Z.
Proof. intros H He. apply H, nth_In; auto. Qed.

Lemma sa_list_make {A} (l : list A) : sa_list (sa_make l) = l.
Proof. unfold sa_list, sa_make; simpl. apply firstn_all. Qed.
Lemma sa_list_span {A} (l : list A) : sa_list (sa_span l) = l.
Proof. unfold sa_list, sa_span; simpl. apply firstn_all. Qed.

(** CSRGraph over full arrays (owned or borrowed). *)
Definition full {A} (a : sarray A) (l : list A) : Prop := sa_data a = l /\ sa_size a = length l.
Lemma full_make {A} (l : list A) : full (sa_make l) l. Proof. split; auto. Qed.
Lemma full_span {A} (l : list A) : full (sa_span l) l. Proof. split; auto. Qed.
Lemma full_list {A} (a : sarray A) l : full a l -> sa_list a = l.
Proof. intros [E1 E2]. unfold sa_list. rewrite E1, E2. apply firstn_all. Qed.

Lemma node_weight_faithful nodes edges vw ew sorted xadj vwgt u :
  full nodes xadj -> full vw vwgt -> (vwgt = [] \/ length vwgt = length xadj - 1) ->
  (forall x, In x vwgt -> (1 <= x)%Z) -> u < length xadj - 1 ->
  cg_node_weight (cg_make nodes edges vw ew sorted) u = match vwgt with [] => 1%Z | _ => nth u vwgt 0%Z end.
Proof.
  intros Hn Hv Hl H1 Hu. unfold cg_node_weight, cg_is_node_weighted, cg_n. simpl.
  rewrite (full_list _ _ Hv). destruct Hn as [Hn1 Hn2], Hv as [Hv1 Hv2]. unfold sa_get. rewrite Hn2, Hv2, Hv1.
  destruct vwgt as [|x vwgt]; simpl length; simpl Nat.eqb; cbv iota.
  - rewrite Z.eqb_refl. auto.
  - destruct Hl as [|Hl]; [discriminate|]. simpl length in Hl.
    destruct (Z.eqb_spec (Z.of_nat (length xadj - 1)) (zsum (x :: vwgt))) as [E|E]; simpl negb; cbv iota; auto.
    symmetry. apply nth_ones; [|simpl; lia]. apply ones_of_sum; auto. rewrite <- E. simpl. lia.
Qed.

Lemma edge_weight_faithful nodes edges vw ew sorted e :
  (ew = [] \/ length ew = length edges) -> (forall x, In x ew -> (1 <= x)%Z) -> e < length edges ->
  cg_edge_weight (cg_make nodes edges vw ew sorted) e = match ew with [] => 1%Z | _ => nth e ew 0%Z end.
Proof.
  intros Hl H1 He. unfold cg_edge_weight, cg_is_edge_weighted, cg_m. simpl.
  destruct ew as [|x ew].
  - rewrite Z.eqb_refl. auto.
  - destruct Hl as [|Hl]; [discriminate|].
    destruct (Z.eqb_spec (Z.of_nat (length edges)) (zsum (x :: ew))) as [E|E]; simpl negb; cbv iota; auto.
    symmetry. apply nth_ones; [|rewrite Hl; auto]. apply ones_of_sum; auto. rewrite <- E. lia.
Qed.

(* ---------------------------------------------------------------- the whole graph *)
Lemma mono_le l : (forall i, S i < length l -> nth i l 0 <= nth (S i) l 0) ->
  forall i j, i <= j < length l -> nth i l 0 <= nth j l 0.
Proof.
  intros H i j [Hij Hj]. induction Hij; [lia|]. specialize (H m). specialize (IHHij ltac:(lia)). lia.
Qed.

Lemma wf_csr_range xadj adjncy vwgt adjwgt u : wf_csr xadj adjncy vwgt adjwgt -> u < length xadj - 1 ->
  nth u xadj 0 <= nth (S u) xadj 0 <= length adjncy.
Proof.
  intros (H1 & H0 & Hm & Hl & Ht & Hv & He) Hu. split; [apply Hm; lia|].
  rewrite <- Hl, last_nth. apply mono_le; auto. lia.
Qed.

Lemma user_graph_closed xadj adjncy vwgt adjwgt : wf_csr xadj adjncy vwgt adjwgt ->
  closed_graph (user_graph xadj adjncy vwgt adjwgt).
Proof.
  intros Hwf u v w Hu Hin. simpl in *. apply in_map_iff in Hin as (e & E & He).
  injection E as <- _. apply in_seq in He. pose proof (wf_csr_range _ _ _ _ u Hwf Hu).
  destruct Hwf as (_ & _ & _ & _ & Ht & _). apply Ht, nth_In. lia.
Qed.

Lemma same_graph_sym g h : same_graph g h -> same_graph h g.
Proof. intros [E H]. split; [auto|]. intros u Hu. destruct (H u); [congruence|]. auto. Qed.

Lemma same_graph_iso g h : same_graph g h -> isomorphic_by (fun u => u) g h.
Proof.
  intros [E H]. split; [auto|]. split; [intros i Hi; auto|]. split; [intros i j; auto|].
  split; intros u Hu; destruct (H u Hu) as [H1 H2]; auto.
  rewrite <- H1. erewrite map_ext; [rewrite map_id; auto|]. intros []; auto.
Qed.

Lemma cg_make_faithful nodes edges vw ew sorted xadj vwgt :
  full nodes xadj -> full vw vwgt -> wf_csr xadj edges vwgt ew ->
  (forall x, In x vwgt -> (1 <= x)%Z) -> (forall x, In x ew -> (1 <= x)%Z) ->
  same_graph (cg_graph (cg_make nodes edges vw ew sorted)) (user_graph xadj edges vwgt ew).
Proof.
  intros Hn Hv Hwf Hw1 Hw2. pose proof Hwf as (_ & _ & _ & _ & _ & Hlv & Hle).
  assert (cg_n (cg_make nodes edges vw ew sorted) = length xadj - 1) as En.
  { unfold cg_n; simpl. destruct Hn as [_ ->]. auto. }
  split; [exact En|]. simpl. rewrite En. intros u Hu. split.
  - unfold cg_adjacent_nodes. simpl cg_nodes. simpl cg_edges. unfold sa_get. destruct Hn as [-> _].
    apply map_ext_in. intros e He. apply in_seq in He. f_equal.
    apply edge_weight_faithful; auto. pose proof (wf_csr_range _ _ _ _ u Hwf Hu). lia.
  - apply node_weight_faithful with (xadj := xadj); auto.
Qed.

(* ---------------------------------------------------------------- degree buckets *)
Lemma bucket_of_degree_log2 d : 0 < d -> (N.of_nat d < 2 ^ 32)%N -> bucket_of_degree d = S (Nat.log2 d).
Proof.
  intros Hd Hb. unfold bucket_of_degree, degree_bucket.
  destruct (N.eqb_spec (N.of_nat d) 0); [lia|]. rewrite floor_log2_some by lia.
  rewrite N2Nat.inj_add. rewrite <- (Nat2N.id d) at 2. 
  replace (Nat.log2 (N.to_nat (N.of_nat d))) with (N.to_nat (N.log2 (N.of_nat d))); [simpl; lia|].
  symmetry. apply Nat.log2_unique'  with (c := d - 2 ^ N.to_nat (N.log2 (N.of_nat d))); [lia| |].
  - pose proof (N.log2_spec (N.of_nat d) ltac:(lia)) as [_ H]. rewrite N.pow_succ_r' in H.
    assert (N.of_nat (2 ^ N.to_nat (N.log2 (N.of_nat d))) = 2 ^ N.log2 (N.of_nat d))%N as E.
    { rewrite Nat2N.inj_pow, N2Nat.id. auto. }
    pose proof (Nat.pow_nonzero 2 (N.to_nat (N.log2 (N.of_nat d)))).
    split; [lia|]. lia.
  - pose proof (N.log2_spec (N.of_nat d) ltac:(lia)) as [H _].
    assert (N.of_nat (2 ^ N.to_nat (N.log2 (N.of_nat d))) = 2 ^ N.log2 (N.of_nat d))%N as E.
    { rewrite Nat2N.inj_pow, N2Nat.id. auto. }
    rewrite Nat2N.id. lia.
Qed.

Lemma bucket_of_degree_0 : bucket_of_degree 0 = 0. Proof. reflexivity. Qed.

Lemma bucket_of_degree_lt d : (N.of_nat d < 2 ^ 32)%N -> bucket_of_degree d < num_degree_buckets.
Proof.
  intros H. destruct (Nat.eq_dec d 0) as [->|Hd]; [rewrite bucket_of_degree_0; unfold num_degree_buckets; lia|].
  unfold bucket_of_degree, degree_bucket.
  destruct (N.eqb_spec (N.of_nat d) 0); [lia|]. rewrite floor_log2_some by lia.
  assert (N.log2 (N.of_nat d) < 32)%N by (apply log2_lt_w; auto). unfold num_degree_buckets. lia.
Qed.

Lemma bucket_of_degree_class d b : 0 < d -> (N.of_nat d < 2 ^ 32)%N -> 
  (bucket_of_degree d = S b <-> 2 ^ b <= d < 2 ^ S b).
Proof.
  intros Hd Hb. rewrite bucket_of_degree_log2 by auto. split.
  - intros E. injection E as <-. apply Nat.log2_spec; auto.
  - intros H. f_equal. apply Nat.log2_unique; auto. lia.
Qed.

Lemma hist_fold degs : forall h,
  (forall d, In d degs -> S (bucket_of_degree d) < length h) ->
  let h' := fold_left (fun h d => upd (S (bucket_of_degree d)) (S (nth (S (bucket_of_degree d)) h 0)) h) degs h in
  length h' = length h /\
  forall j, nth j h' 0 = nth j h 0 + match j with 0 => 0 | S b => cnt (fun d => bucket_of_degree d =? b) degs end.
Proof.
  induction degs as [|d degs IH]; intros h H; simpl.
  - split; auto. intros [|j]; rewrite ?cnt_nil; lia.
  - destruct (IH (upd (S (bucket_of_degree d)) (S (nth (S (bucket_of_degree d)) h 0)) h)) as [Hl Hn].
    { intros. rewrite upd_length. apply H; right; auto. }
    simpl in Hl, Hn. split; [etransitivity; [exact Hl|apply (upd_length (S (bucket_of_degree d)))]|].
    intros j. rewrite Hn. pose proof (H d (or_introl eq_refl)).
    destruct j as [|b].
    + rewrite upd_nth_other by lia. lia.
    + rewrite cnt_cons. destruct (Nat.eqb_spec (bucket_of_degree d) b) as [E|Hne].
      * rewrite E in *. rewrite upd_nth_same by lia. lia.
      * rewrite upd_nth_other by lia. lia.
Qed.

Lemma bucket_histogram_nth degs : (forall d, In d degs -> (N.of_nat d < 2 ^ 32)%N) ->
  length (bucket_histogram degs) = S num_degree_buckets /\
  forall j, nth j (bucket_histogram degs) 0 = match j with 0 => 0 | S b => cnt (fun d => bucket_of_degree d =? b) degs end.
Proof.
  intros H. destruct (hist_fold degs (repeat 0 (S num_degree_buckets))) as [Hl Hn].
  - intros d Hd. rewrite repeat_length. pose proof (bucket_of_degree_lt d (H d Hd)). lia.
  - fold (bucket_histogram degs) in *. rewrite repeat_length in Hl. split; auto.
    intros j. rewrite Hn. rewrite nth_repeat. auto.
Qed.

Lemma hist_prefix degs i : (forall d, In d degs -> (N.of_nat d < 2 ^ 32)%N) -> i <= num_degree_buckets ->
  nth i (prefix_sum (bucket_histogram degs)) 0 = cnt (fun d => bucket_of_degree d <? i) degs.
Proof.
  intros H Hi. destruct (bucket_histogram_nth degs H) as [Hl Hn].
  rewrite prefix_sum_nth by lia. induction i.
  - rewrite firstn_S_snoc with (d := 0) by lia. simpl. rewrite Hn. symmetry. rewrite (proj2 (cnt_zero _ _)); auto.
  - rewrite firstn_S_snoc with (d := 0) by lia. rewrite list_sum_app, IHi, Hn by lia. simpl. rewrite Nat.add_0_r.
    rewrite <- cnt_orb.
    + apply cnt_ext. intros d _. destruct (Nat.ltb_spec (bucket_of_degree d) i), (Nat.eqb_spec (bucket_of_degree d) i),
        (Nat.ltb_spec (bucket_of_degree d) (S i)); simpl; auto; lia.
    + intros d _ A B. apply Nat.ltb_lt in A. apply Nat.eqb_eq in B. lia.
Qed.

Lemma last_nonzero_spec l : match last_nonzero l with
  | Some i => i < length l /\ nth i l 0 <> 0 /\ forall j, i < j -> nth j l 0 = 0
  | None => forall j, nth j l 0 = 0 end.
Proof.
  induction l as [|x l IH]; simpl; [intros []; auto|].
  destruct (last_nonzero l) as [i|].
  - destruct IH as (H1 & H2 & H3). split; [lia|]. split; auto. intros [|j] Hj; [lia|]. simpl. apply H3; lia.
  - destruct (Nat.eqb_spec x 0).
    + intros [|j]; simpl; auto.
    + split; [lia|]. split; auto. intros [|j] Hj; [lia|]. simpl; auto.
Qed.

(* ---------------------------------------------------------------- isolated nodes *)
Lemma degrees_of_nth xadj u : u < length xadj - 1 -> nth u (degrees_of xadj) 0 = degree_of xadj u.
Proof. intros. unfold degrees_of, degree_of. rewrite nth_map_seq by auto. auto. Qed.
Lemma degrees_of_length xadj : length (degrees_of xadj) = length xadj - 1.
Proof. unfold degrees_of. rewrite map_length, seq_length. auto. Qed.

Lemma degrees_of_cnt xadj (p : nat -> bool) :
  cnt p (degrees_of xadj) = cnt (fun u => p (degree_of xadj u)) (seq 0 (length xadj - 1)).
Proof. unfold degrees_of. rewrite cnt_map. auto. Qed.

Lemma wf_degree_bound xadj adjncy vwgt adjwgt u : wf_csr xadj adjncy vwgt adjwgt -> u < length xadj - 1 ->
  degree_of xadj u <= length adjncy.
Proof. intros H Hu. pose proof (wf_csr_range _ _ _ _ _ H Hu). unfold degree_of. lia. Qed.

Lemma wf_degrees_small xadj adjncy vwgt adjwgt : wf_csr xadj adjncy vwgt adjwgt ->
  (N.of_nat (length adjncy) < 2 ^ 32)%N -> forall d, In d (degrees_of xadj) -> (N.of_nat d < 2 ^ 32)%N.
Proof.
  intros H Hb d Hd. apply in_map_iff in Hd as (u & <- & Hu). apply in_seq in Hu.
  pose proof (wf_degree_bound _ _ _ _ u H ltac:(lia)). unfold degree_of in *. lia.
Qed.

Definition sorted_csr (xadj edges : list nat) (vw ew : list Z) (perm : list nat) : csr_graph :=
  cg_set_permutation perm (cg_make (sa_make xadj) edges (sa_make vw) ew true).

Lemma sorted_isolated_count xadj n' : sorted_by_degree_class xadj n' ->
  cnt (fun u => degree_of xadj u =? 0) (seq 0 (length xadj - 1)) = length xadj - 1 - n'.
Proof.
  intros (Hn & H1 & H2 & _).
  replace (length xadj - 1) with (n' + (length xadj - 1 - n')) at 1 by lia.
  rewrite seq_app, cnt_app. rewrite (proj2 (cnt_zero _ _)), cnt_all, seq_length; [lia| |].
  - intros u Hu. apply in_seq in Hu. apply Nat.eqb_eq, H2. lia.
  - intros u Hu. apply in_seq in Hu. apply Nat.eqb_neq. specialize (H1 u). lia.
Qed.

Lemma count_isolated_sorted xadj edges vw ew perm n' : sorted_by_degree_class xadj n' ->
  count_isolated_nodes (sorted_csr xadj edges vw ew perm) = length xadj - 1 - n'.
Proof. intros H. rewrite <- (sorted_isolated_count xadj n' H). reflexivity. Qed.

Lemma buckets_ge_isolated xadj n' i : sorted_by_degree_class xadj n' ->
  (forall d, In d (degrees_of xadj) -> (N.of_nat d < 2 ^ 32)%N) -> 1 <= i <= num_degree_buckets ->
  length xadj - 1 - n' <= nth i (prefix_sum (bucket_histogram (degrees_of xadj))) 0.
Proof.
  intros H Hb Hi. rewrite hist_prefix by (auto; lia).
  rewrite degrees_of_cnt, <- (sorted_isolated_count xadj n' H). apply cnt_impl.
  intros u _ E. apply Nat.eqb_eq in E. rewrite E, bucket_of_degree_0. apply Nat.ltb_lt. lia.
Qed.

Lemma num_buckets_spec xadj : (forall d, In d (degrees_of xadj) -> (N.of_nat d < 2 ^ 32)%N) -> 0 < length xadj - 1 ->
  exists i, last_nonzero (bucket_histogram (degrees_of xadj)) = Some (S i) /\ i < num_degree_buckets /\
    (exists u, u < length xadj - 1 /\ bucket_of_degree (degree_of xadj u) = i) /\
    forall u, u < length xadj - 1 -> bucket_of_degree (degree_of xadj u) <= i.
Proof.
  intros Hb Hn. destruct (bucket_histogram_nth _ Hb) as [Hl Hh].
  pose proof (last_nonzero_spec (bucket_histogram (degrees_of xadj))) as L.
  destruct (last_nonzero _) as [[|i]|].
  - destruct L as (_ & L & _). rewrite Hh in L. lia.
  - destruct L as (L1 & L2 & L3). exists i. split; auto. split; [lia|]. rewrite Hh, degrees_of_cnt in L2. split.
    + destruct (proj1 (cnt_pos _ _) (ltac:(lia) : 0 < cnt (fun u => bucket_of_degree (degree_of xadj u) =? i) (seq 0 (length xadj - 1)))) as (u & Hu & E).
      exists u. apply in_seq in Hu. apply Nat.eqb_eq in E. split; auto; lia.
    + intros u Hu. destruct (Nat.le_gt_cases (bucket_of_degree (degree_of xadj u)) i); auto.
      specialize (L3 (S (bucket_of_degree (degree_of xadj u))) ltac:(lia)).
      rewrite Hh, degrees_of_cnt in L3. rewrite cnt_zero in L3. specialize (L3 u ltac:(apply in_seq; lia)).
      rewrite Nat.eqb_refl in L3. discriminate.
  - exfalso. specialize (L (S (bucket_of_degree (degree_of xadj 0)))). rewrite Hh, degrees_of_cnt in L.
    rewrite cnt_zero in L. specialize (L 0 ltac:(apply in_seq; lia)). rewrite Nat.eqb_refl in L. discriminate.
Qed.

Lemma isolated_roundtrip xadj edges vw ew perm n' :
  wf_csr xadj edges vw ew -> (N.of_nat (length edges) < 2 ^ 32)%N -> 0 < length xadj - 1 ->
  sorted_by_degree_class xadj n' ->
  let g := sorted_csr xadj edges vw ew perm in
  let k := count_isolated_nodes g in
  cg_integrate_isolated_nodes (cg_remove_isolated_nodes k g) = (k, g).
Proof.
  intros Hwf Hb Hn Hs g k.
  assert (k = length xadj - 1 - n') as Hk by (apply count_isolated_sorted; auto).
  pose proof (wf_degrees_small _ _ _ _ Hwf Hb) as Hd.
  destruct (num_buckets_spec xadj Hd Hn) as (L & HL & HLb & _ & HLm).
  assert (cg_n g = length xadj - 1) as En by reflexivity.
  destruct (bucket_histogram_nth _ Hd) as [Hhl Hh].
  assert (cg_buckets g = prefix_sum (bucket_histogram (degrees_of xadj))) as EB.
  { unfold g, sorted_csr. simpl. rewrite sa_list_make. reflexivity. }
  assert (cg_number_of_buckets g = S L) as ENB.
  { unfold g, sorted_csr. simpl. rewrite sa_list_make, HL. reflexivity. }
  assert (forall bs b0, cg_buckets g = b0 :: bs -> forall b, In b bs -> k <= b) as Hge.
  { intros bs b0 E b Hin. apply In_nth with (d := 0) in Hin as (i & Hi & <-).
    assert (length (b0 :: bs) = S num_degree_buckets) as El by (rewrite <- E, EB, prefix_sum_length; auto).
    simpl in El. replace (nth i bs 0) with (nth (S i) (cg_buckets g) 0) by (rewrite E; auto).
    rewrite EB, Hk. apply buckets_ge_isolated; auto. lia. }
  destruct Hs as (Hn' & _).
  assert (length xadj <> 0) by lia.
  unfold cg_remove_isolated_nodes. destruct (Nat.eqb_spec k 0) as [E0|E0].
  - unfold cg_integrate_isolated_nodes.
    assert (cg_set_arrays (sa_unrestrict (cg_nodes g)) (sa_unrestrict (cg_node_weights g)) g = g) as E1 by reflexivity.
    rewrite E1. replace (cg_n g - cg_n g) with k by lia. f_equal.
    assert (cg_update_total_node_weight g = g) as E2 by reflexivity.
    rewrite E2.
    assert (forall bs nb, bs = cg_buckets g -> nb = cg_number_of_buckets g -> cg_set_buckets bs nb g = g) as E5
      by (intros; subst; reflexivity).
    apply E5; [|rewrite ENB; reflexivity].
    destruct (cg_buckets g) as [|b0 bs]; auto.
    rewrite E0. erewrite map_ext; [rewrite map_id|intros; apply Nat.add_0_r]. reflexivity.
  - set (g1 := cg_set_arrays _ _ g). 
    assert (cg_buckets (cg_update_total_node_weight g1) = cg_buckets g) as EB1 by reflexivity.
    assert (cg_number_of_buckets (cg_update_total_node_weight g1) = S L) as ENB1 by (rewrite <- ENB; reflexivity).
    rewrite EB1, ENB1. unfold cg_integrate_isolated_nodes.
    set (g2 := cg_set_buckets _ _ _).
    assert (cg_n g2 = length xadj - 1 - k) as En2.
    { unfold g2, g1, cg_n; simpl. rewrite <- En. unfold g, sorted_csr, cg_n; simpl. lia. }
    assert (cg_nodes g2 = sa_restrict (cg_n g - k + 1) (cg_nodes g)) as EN2 by reflexivity.
    assert (sa_unrestrict (cg_nodes g2) = cg_nodes g) as EU by reflexivity.
    assert (sa_unrestrict (cg_node_weights g2) = cg_node_weights g) as EV.
    { unfold g2, g1; simpl. destruct (length vw =? 0) eqn:Ev; [|reflexivity]. reflexivity. }
    rewrite EU, EV.
    set (g3 := cg_set_arrays (cg_nodes g) (cg_node_weights g) g2).
    assert (cg_n g3 = length xadj - 1) as En3 by reflexivity.
    rewrite En3, En2. replace (length xadj - 1 - (length xadj - 1 - k)) with k by lia.
    f_equal.
    assert (cg_update_total_node_weight g3 = cg_set_buckets (cg_buckets g2) (cg_number_of_buckets g2) g) as E3 by reflexivity.
    rewrite E3.
    assert (forall b1 n1 b2 n2, cg_set_buckets b1 n1 (cg_set_buckets b2 n2 g) = cg_set_buckets b1 n1 g) as E4 by reflexivity.
    assert (forall bs nb, bs = cg_buckets g -> nb = cg_number_of_buckets g -> cg_set_buckets bs nb g = g) as E5
      by (intros; subst; reflexivity).
    rewrite E4. apply E5.
    + change (cg_buckets (cg_set_buckets (cg_buckets g2) (cg_number_of_buckets g2) g)) with (cg_buckets g2).
      assert (cg_buckets g2 = match cg_buckets g with [] => [] | b0 :: bs => b0 :: map (fun b => b - k) bs end) as EG2 by reflexivity.
      rewrite EG2. clear EG2 E3. destruct (cg_buckets g) as [|b0 bs] eqn:EBs; auto.
      f_equal. rewrite map_map. rewrite <- (map_id bs) at 2. apply map_ext_in. intros b Hbin.
      specialize (Hge bs b0 eq_refl b Hbin). lia.
    + rewrite ENB. simpl. unfold g2. simpl. destruct L; reflexivity.
Qed.

Lemma removed_n xadj edges vw ew perm n' : sorted_by_degree_class xadj n' ->
  let g := sorted_csr xadj edges vw ew perm in
  cg_n (cg_remove_isolated_nodes (count_isolated_nodes g) g) = n'.
Proof.
  intros Hs g. unfold g. rewrite (count_isolated_sorted _ _ _ _ _ _ Hs).
  destruct Hs as (Hn & _).
  unfold cg_remove_isolated_nodes. destruct (Nat.eqb_spec (length xadj - 1 - n') 0).
  - unfold cg_n; simpl. lia.
  - unfold cg_n, sorted_csr; simpl. unfold cg_n; simpl. lia.
Qed.

Lemma firstn_incl {A} n (l : list A) x : In x (firstn n l) -> In x l.
Proof. revert l; induction n; intros [|a l]; simpl; tauto || (intros [->|H]; auto). Qed.

Lemma removed_graph xadj edges vw ew perm n' :
  wf_csr xadj edges vw ew -> sorted_by_degree_class xadj n' ->
  (forall x, In x vw -> (1 <= x)%Z) -> (forall x, In x ew -> (1 <= x)%Z) ->
  let g := sorted_csr xadj edges vw ew perm in
  let g' := cg_remove_isolated_nodes (count_isolated_nodes g) g in
  same_graph (cg_graph g') (prefix_graph n' (user_graph xadj edges vw ew)) /\
  cg_total_node_weight g' = total_weight (prefix_graph n' (user_graph xadj edges vw ew)).
Proof.
  intros Hwf Hs Hw1 Hw2 g g'.
  pose proof (removed_n xadj edges vw ew perm n' Hs) as En. cbv zeta in En. fold g in En. fold g' in En.
  pose proof (count_isolated_sorted xadj edges vw ew perm n' Hs) as Hk. fold g in Hk.
  pose proof Hwf as (HL & _ & _ & _ & _ & Hlv & Hle).
  destruct (cg_make_faithful (sa_make xadj) edges (sa_make vw) ew true xadj vw (full_make _) (full_make _) Hwf Hw1 Hw2)
    as [Eg Hg].
  assert (cg_n g = length xadj - 1) as Eng by reflexivity.
  destruct Hs as (Hn & Hs).
  assert (forall u, cg_adjacent_nodes g' u = cg_adjacent_nodes g u) as Hadj.
  { intros u. unfold g', cg_remove_isolated_nodes. destruct (_ =? 0); reflexivity. }
  assert (cg_total_node_weight g' = total_weight (prefix_graph n' (user_graph xadj edges vw ew))) as HT.
  { unfold total_weight; simpl.
    unfold g', cg_remove_isolated_nodes. rewrite Hk.
    destruct (Nat.eqb_spec (length xadj - 1 - n') 0) as [E|E].
    - simpl. rewrite sa_list_make. destruct vw as [|x vw].
      + simpl. rewrite sumn_const. lia.
      + simpl length. simpl Nat.eqb. cbv iota. destruct Hlv as [|Hlv]; [discriminate|].
        replace n' with (length (x :: vw)) by lia. rewrite sumn_list. auto.
    - unfold cg_n at 1. simpl. destruct vw as [|x vw].
      + simpl. rewrite sumn_const, Z.mul_1_l. unfold cg_n; simpl. f_equal. lia.
      + simpl length. simpl Nat.eqb. cbv iota. destruct Hlv as [|Hlv]; [discriminate|].
        unfold cg_n; simpl. replace (length xadj - 1 - (length xadj - 1 - n')) with n' by lia.
        destruct n' as [|n'].
        * simpl. rewrite sumn_0. lia.
        * simpl Nat.eqb. cbv iota. unfold sa_list; simpl sa_size; simpl sa_data.
          rewrite <- sumn_list. rewrite firstn_length, Nat.min_l by lia.
          apply sumn_ext. intros i Hi. rewrite nth_firstn_lt by lia. reflexivity. }
  split; auto. split; [simpl; auto|]. simpl. rewrite En. intros u Hu.
  destruct (Hg u) as [Ha Hv]; [change (gn _) with (length xadj - 1); lia|]. simpl in Ha, Hv. split.
  - rewrite Hadj. rewrite <- Ha. reflexivity.
  - unfold cg_node_weight, cg_is_node_weighted. rewrite En, HT.
    assert (sa_get 0%Z (cg_node_weights g') u = nth u vw 0%Z) as EW.
    { unfold g', cg_remove_isolated_nodes. destruct (_ =? 0); [reflexivity|]. simpl. destruct (length vw =? 0); reflexivity. }
    rewrite EW. clear HT.
    destruct vw as [|x vw'] eqn:EV.
    + unfold total_weight; simpl. rewrite sumn_const, Z.mul_1_l, Z.eqb_refl. auto.
    + destruct Hlv as [|Hlv]; [discriminate|]. rewrite <- EV in *.
      assert (forall i, i < n' -> gvw (user_graph xadj edges vw ew) i = nth i vw 0%Z) as Hgv.
      { intros i _. simpl. rewrite EV. auto. }
      destruct (Z.eqb_spec (Z.of_nat n') (total_weight (prefix_graph n' (user_graph xadj edges vw ew)))) as [E|E]; auto.
      simpl negb. cbv iota. symmetry.
      unfold total_weight in E. change (gn (prefix_graph n' (user_graph xadj edges vw ew))) with n' in E.
      change (gvw (prefix_graph n' (user_graph xadj edges vw ew))) with (gvw (user_graph xadj edges vw ew)) in E.
      rewrite (sumn_ext n' _ _ Hgv) in E.
      replace (sumn n' (fun i => nth i vw 0%Z)) with (zsum (firstn n' vw)) in E.
      2:{ rewrite <- sumn_list. rewrite firstn_length, Nat.min_l by lia. apply sumn_ext. intros i Hi.
          rewrite <- (firstn_skipn n' vw) at 2. rewrite app_nth1; auto. rewrite firstn_length. lia. }
      assert (nth u vw 0%Z = nth u (firstn n' vw) 0%Z) as ->.
      { rewrite <- (firstn_skipn n' vw) at 1. rewrite app_nth1; auto. rewrite firstn_length; lia. }
      apply nth_ones; [|rewrite firstn_length; lia].
      apply ones_of_sum.
      * intros y Hy. apply Hw1. eapply firstn_incl; eauto.
      * rewrite firstn_length, Nat.min_l by lia. auto.
Qed.

Lemma conn_nonneg g u v : (forall x w, In (x, w) (gadj g u) -> (0 <= w)%Z) -> (0 <= conn g u v)%Z.
Proof.
  intros H. apply zsum_nonneg. intros w Hw. apply in_map_iff in Hw as ([x y] & <- & Hin).
  apply filter_In in Hin as [Hin _]. simpl. eapply H; eauto.
Qed.
Lemma conn_pos g u v w : (forall x w, In (x, w) (gadj g u) -> (1 <= w)%Z) -> In (v, w) (gadj g u) -> (1 <= conn g u v)%Z.
Proof.
  intros H Hin. unfold conn. apply in_split in Hin as (l1 & l2 & E). rewrite E in *.
  rewrite filter_app, map_app, zsum_app. simpl. rewrite Nat.eqb_refl. simpl.
  assert (forall l, (forall x y, In (x, y) l -> (1 <= y)%Z) -> (0 <= zsum (map snd (filter (fun e => Nat.eqb (fst e) v) l)))%Z) as G.
  { intros l Hl. apply zsum_nonneg. intros y Hy. apply in_map_iff in Hy as ([x z] & <- & Hi).
    apply filter_In in Hi as [Hi _]. apply Hl in Hi. simpl; lia. }
  pose proof (G l1 ltac:(intros; eapply H; apply in_or_app; left; eauto)).
  pose proof (G l2 ltac:(intros; eapply H; apply in_or_app; right; right; eauto)).
  pose proof (H v w ltac:(apply in_or_app; right; left; auto)). lia.
Qed.

Lemma user_graph_weights_pos xadj adjncy vw ew u v w : wf_csr xadj adjncy vw ew -> (forall x, In x ew -> (1 <= x)%Z) ->
  u < length xadj - 1 -> In (v, w) (gadj (user_graph xadj adjncy vw ew) u) -> (1 <= w)%Z.
Proof.
  intros Hwf Hw Hu Hin. simpl in Hin. apply in_map_iff in Hin as (e & E & He). injection E as <- <-.
  apply in_seq in He. pose proof (wf_csr_range _ _ _ _ u Hwf Hu). destruct Hwf as (_ & _ & _ & _ & _ & _ & Hl).
  destruct ew as [|x ew]; [lia|]. apply Hw, nth_In. destruct Hl as [|Hl]; [discriminate|]. lia.
Qed.

(** Isolated nodes are nobody's neighbours. *)
Lemma prefix_closed xadj edges vw ew n' :
  wf_csr xadj edges vw ew -> sorted_by_degree_class xadj n' -> (forall x, In x ew -> (1 <= x)%Z) ->
  undirected (user_graph xadj edges vw ew) ->
  closed_graph (prefix_graph n' (user_graph xadj edges vw ew)) /\ undirected (prefix_graph n' (user_graph xadj edges vw ew)).
Proof.
  intros Hwf (Hn & Hs1 & Hs2 & _) Hw Hu. split.
  - intros u v w Hlt Hin.
    change (gadj (prefix_graph n' (user_graph xadj edges vw ew))) with (gadj (user_graph xadj edges vw ew)) in Hin.
    change (gn (prefix_graph n' (user_graph xadj edges vw ew))) with n' in *.
    pose proof (user_graph_closed _ _ _ _ Hwf u v w ltac:(simpl; lia) Hin) as Hv. simpl in Hv.
    destruct (Nat.lt_ge_cases v n'); auto. exfalso.
    assert (1 <= conn (user_graph xadj edges vw ew) u v)%Z as Hc.
    { eapply conn_pos; eauto. intros x y Hxy. apply (user_graph_weights_pos xadj edges vw ew u x y); auto; lia. }
    rewrite Hu in Hc by (simpl; lia). unfold conn in Hc. simpl in Hc.
    specialize (Hs2 v ltac:(lia)). unfold degree_of in Hs2. rewrite Hs2 in Hc. simpl in Hc. lia.
  - intros u v Hu1 Hv1. change (gn (prefix_graph n' (user_graph xadj edges vw ew))) with n' in *. apply (Hu u v); simpl; lia.
Qed.

(* ---------------------------------------------------------------- bucket index *)
Lemma removed_buckets xadj edges vw ew perm n' i :
  wf_csr xadj edges vw ew -> (N.of_nat (length edges) < 2 ^ 32)%N -> sorted_by_degree_class xadj n' ->
  i <= num_degree_buckets ->
  let g := sorted_csr xadj edges vw ew perm in
  let g' := cg_remove_isolated_nodes (count_isolated_nodes g) g in
  nth i (cg_buckets g') 0 = cnt (fun u => bucket_of_degree (degree_of xadj u) <? i) (seq 0 n').
Proof.
  intros Hwf Hb Hs Hi g g'. pose proof (wf_degrees_small _ _ _ _ Hwf Hb) as Hd.
  pose proof (count_isolated_sorted xadj edges vw ew perm n' Hs) as Hk. fold g in Hk.
  assert (cg_buckets g = prefix_sum (bucket_histogram (degrees_of xadj))) as EB.
  { unfold g, sorted_csr. simpl. rewrite sa_list_make. reflexivity. }
  assert (nth i (cg_buckets g) 0 = cnt (fun u => bucket_of_degree (degree_of xadj u) <? i) (seq 0 n') +
            if i =? 0 then 0 else count_isolated_nodes g) as E.
  { rewrite EB, hist_prefix, degrees_of_cnt by auto. rewrite Hk. destruct Hs as (Hn & H1 & H2 & _).
    replace (length xadj - 1) with (n' + (length xadj - 1 - n')) at 1 by lia. rewrite seq_app, cnt_app. f_equal.
    destruct (Nat.eqb_spec i 0).
    - apply cnt_zero. intros u _. apply Nat.ltb_ge. lia.
    - rewrite cnt_all, seq_length; auto. intros u Hu. apply in_seq in Hu. rewrite H2 by lia. apply Nat.ltb_lt.
      rewrite bucket_of_degree_0. lia. }
  assert (length (cg_buckets g) = S num_degree_buckets) as Hl.
  { rewrite EB, prefix_sum_length. apply bucket_histogram_nth; auto. }
  unfold g', cg_remove_isolated_nodes. destruct (Nat.eqb_spec (count_isolated_nodes g) 0) as [E0|E0].
  - rewrite E, E0. destruct (i =? 0); lia.
  - set (k := count_isolated_nodes g) in *.
    match goal with |- nth i (cg_buckets (cg_set_buckets ?b _ _)) 0 = _ => change (nth i b 0 = cnt (fun u => bucket_of_degree (degree_of xadj u) <? i) (seq 0 n')) end.
    change (cg_buckets (cg_update_total_node_weight _)) with (cg_buckets g).
    destruct (cg_buckets g) as [|b0 bs]; [discriminate|]. destruct i as [|i].
    + simpl in *. lia.
    + simpl in E, Hl |- *. rewrite (nth_indep _ 0 (0 - k)) by (rewrite map_length; lia).
      rewrite (map_nth (fun b => b - k)). lia.
Qed.

Lemma cnt_lt_sorted (f : nat -> nat) n b u :
  (forall u v, u <= v < n -> f u <= f v) -> u < n ->
  (cnt (fun x => f x <? b) (seq 0 n) <= u <-> b <= f u).
Proof.
  intros Hm Hu. split.
  - intros Hc. destruct (Nat.le_gt_cases b (f u)); auto. exfalso.
    assert (cnt (fun x => f x <? b) (seq 0 (S u)) = S u) as E.
    { rewrite cnt_all, seq_length; auto. intros x Hx. apply in_seq in Hx. apply Nat.ltb_lt.
      specialize (Hm x u ltac:(lia)). lia. }
    replace n with (S u + (n - S u)) in Hc by lia. rewrite seq_app, cnt_app in Hc. lia.
  - intros Hb. replace n with (u + (n - u)) by lia. rewrite seq_app, cnt_app.
    assert (cnt (fun x => f x <? b) (seq (0 + u) (n - u)) = 0) as ->.
    { apply cnt_zero. intros x Hx. apply in_seq in Hx. apply Nat.ltb_ge. specialize (Hm u x ltac:(lia)). lia. }
    pose proof (cnt_le (fun x => f x <? b) (seq 0 u)). rewrite seq_length in H. lia.
Qed.

Lemma bucket_index_correct xadj edges vw ew perm n' b u :
  wf_csr xadj edges vw ew -> (N.of_nat (length edges) < 2 ^ 32)%N -> sorted_by_degree_class xadj n' ->
  b < 32 -> u < n' ->
  let g := sorted_csr xadj edges vw ew perm in
  let g' := cg_remove_isolated_nodes (count_isolated_nodes g) g in
  (nth (S b) (cg_buckets g') 0 <= u < nth (S (S b)) (cg_buckets g') 0 <-> 2 ^ b <= cg_degree g' u < 2 ^ (S b)).
Proof.
  intros Hwf Hb Hs Hlt Hu g g'.
  unfold g', g. rewrite !(removed_buckets _ _ _ _ _ n') by (auto; unfold num_degree_buckets; lia).
  fold g g'.
  assert (cg_degree g' u = degree_of xadj u) as Hdeg.
  { unfold g', cg_remove_isolated_nodes. destruct (_ =? 0); reflexivity. }
  rewrite Hdeg. pose proof (wf_degrees_small _ _ _ _ Hwf Hb) as Hd.
  destruct Hs as (Hn & Hp & Hz & Hm).
  assert (forall x, x < n' -> (N.of_nat (degree_of xadj x) < 2 ^ 32)%N) as Hd'.
  { intros x Hx. apply Hd. rewrite <- degrees_of_nth by lia. apply nth_In. rewrite degrees_of_length. lia. }
  assert (forall u v, u <= v < n' -> bucket_of_degree (degree_of xadj u) <= bucket_of_degree (degree_of xadj v)) as Hm'.
  { intros x y Hxy. specialize (Hm x y Hxy). rewrite !bucket_of_degree_log2; try lia; try (apply Hp; lia); apply Hd'; lia. }
  rewrite <- bucket_of_degree_class by (try apply Hp; try apply Hd'; lia).
  pose proof (cnt_lt_sorted (fun x => bucket_of_degree (degree_of xadj x)) n' (S b) u Hm' Hu) as A.
  pose proof (cnt_lt_sorted (fun x => bucket_of_degree (degree_of xadj x)) n' (S (S b)) u Hm' Hu) as B.
  simpl in A, B. lia.
Qed.

Lemma bucket_index_bounds xadj edges vw ew perm n' :
  wf_csr xadj edges vw ew -> (N.of_nat (length edges) < 2 ^ 32)%N -> sorted_by_degree_class xadj n' -> 0 < n' ->
  let g := sorted_csr xadj edges vw ew perm in
  let g' := cg_remove_isolated_nodes (count_isolated_nodes g) g in
  nth 0 (cg_buckets g') 0 = 0 /\ nth (cg_number_of_buckets g') (cg_buckets g') 0 = n' /\
  (forall i j, i <= j <= num_degree_buckets -> nth i (cg_buckets g') 0 <= nth j (cg_buckets g') 0).
Proof.
  intros Hwf Hb Hs Hn' g g'. pose proof (wf_degrees_small _ _ _ _ Hwf Hb) as Hd.
  assert (0 < length xadj - 1) as Hn by (destruct Hs; lia).
  destruct (num_buckets_spec xadj Hd Hn) as (L & HL & HLb & _ & HLm).
  assert (cg_number_of_buckets g = S L) as ENB.
  { unfold g, sorted_csr. simpl. rewrite sa_list_make, HL. reflexivity. }
  assert (1 <= L) as HL1.
  { specialize (HLm 0 ltac:(lia)). pose proof Hs as (_ & Hp & _). specialize (Hp 0 Hn').
    rewrite bucket_of_degree_log2 in HLm; try lia. apply Hd. rewrite <- degrees_of_nth by lia. apply nth_In.
    rewrite degrees_of_length; lia. }
  assert (cg_number_of_buckets g' = S L) as ENB'.
  { unfold g', cg_remove_isolated_nodes. destruct (_ =? 0); [auto|].
    match goal with |- cg_number_of_buckets (cg_set_buckets _ ?b _) = _ => change (b = S L) end.
    change (cg_number_of_buckets (cg_update_total_node_weight _)) with (cg_number_of_buckets g).
    rewrite ENB. destruct L; [lia|]. reflexivity. }
  rewrite ENB'. unfold g', g. split; [|split].
  - rewrite (removed_buckets _ _ _ _ _ n') by (auto; lia). apply cnt_zero. intros; apply Nat.ltb_ge; lia.
  - rewrite (removed_buckets _ _ _ _ _ n') by (auto; lia). rewrite cnt_all, seq_length; auto.
    intros u Hu. apply in_seq in Hu. apply Nat.ltb_lt. destruct Hs. specialize (HLm u ltac:(lia)). lia.
  - intros i j Hij. rewrite !(removed_buckets _ _ _ _ _ n') by (auto; lia). apply cnt_impl.
    intros u _ E. apply Nat.ltb_lt in E. apply Nat.ltb_lt. lia.
Qed.
