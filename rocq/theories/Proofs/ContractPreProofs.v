(* Proofs about the preprocessing of contraction (C11). *)
From Verif Require Import Lib.Prelude Lib.Count Spec.Graph Spec.Quotient Model.CsrModel Model.ContractModel Proofs.CsrProofs Proofs.PermProofs Proofs.QuotientProofs.

Lemma flags_nth (clustering order : list nat) : forall (a : list nat) i, length a > i ->
  nth i (fold_left (fun a u => upd (nth u clustering 0) 1 a) order a) 0 =
  if existsb (fun u => nth u clustering 0 =? i) order then 1 else nth i a 0.
Proof.
  induction order as [|u order IH]; intros a i Hi; [reflexivity|]. cbn [fold_left existsb].
  rewrite IH by (rewrite upd_length; exact Hi). rewrite upd_nth.
  destruct (existsb _ order); [rewrite orb_true_r; reflexivity|]. rewrite orb_false_r.
  destruct (Nat.eqb_spec (nth u clustering 0) i) as [->|]; [|reflexivity]. rewrite (proj2 (Nat.ltb_lt _ _)) by lia. reflexivity.
Qed.

Lemma flags_length (clustering order : list nat) : forall a : list nat, length (fold_left (fun a u => upd (nth u clustering 0) 1 a) order a) = length a.
Proof. induction order as [|u o IH]; intros a; [reflexivity|]. cbn [fold_left]. rewrite IH. apply upd_length. Qed.

Lemma cnt_list_sum (p : nat -> bool) n (l : list nat) : length l = n -> (forall i, i < n -> nth i l 0 = if p i then 1 else 0) ->
  forall k, k <= n -> list_sum (firstn k l) = cnt p (seq 0 k).
Proof.
  intros Hl H. induction k as [|k IH]; intros Hk; [reflexivity|].
  rewrite cnt_seq_S. rewrite <- IH by lia. cbn [Nat.add]. rewrite <- H by lia.
  assert (E : firstn (S k) l = firstn k l ++ [nth k l 0]).
  { rewrite <- (firstn_skipn k (firstn (S k) l)), firstn_firstn. replace (Nat.min k (S k)) with k by lia. f_equal.
    rewrite (skipn_cons_nth 0 k) by (rewrite firstn_length; lia). rewrite nth_firstn_lt by lia. f_equal. apply skipn_all2. rewrite firstn_length. lia. }
  rewrite E, list_sum_app. cbn. lia.
Qed.

Lemma cnt_seq_mono p a b : a <= b -> cnt p (seq 0 a) <= cnt p (seq 0 b).
Proof. induction 1 as [|b Hb IH]; [lia|]. rewrite cnt_seq_S. lia. Qed.

Lemma cnt_seq_strict p a b : a < b -> p a = true -> cnt p (seq 0 a) < cnt p (seq 0 b).
Proof. intros H Hp. pose proof (cnt_seq_mono p (S a) b H) as M. rewrite cnt_seq_S in M. cbn [Nat.add] in M. rewrite Hp in M. lia. Qed.

Lemma cnt_seq_find p n c : c < cnt p (seq 0 n) -> exists i, i < n /\ p i = true /\ cnt p (seq 0 i) = c.
Proof.
  induction n as [|n IH]; [cbn; lia|]. rewrite cnt_seq_S. cbn [Nat.add]. intros H.
  destruct (lt_dec c (cnt p (seq 0 n))) as [Hc|Hc].
  - destruct (IH Hc) as (i & Hi & Hp & E). exists i. split; [lia|auto].
  - destruct (p n) eqn:E; [|lia]. exists n. split; [lia|]. split; [exact E|lia].
Qed.

Section Pre.
Variables (n : nat) (clustering order0 : list nat).
Hypothesis Hn : 0 < n.
Hypothesis Ho : Permutation order0 (seq 0 n).
Hypothesis Hcl : forall u, u < n -> nth u clustering 0 < n.

Let is_leader (i : nat) : bool := existsb (fun u => nth u clustering 0 =? i) order0.

Lemma leader_iff i : is_leader i = true <-> exists u, u < n /\ nth u clustering 0 = i.
Proof.
  unfold is_leader. rewrite existsb_exists. split.
  - intros (u & Hu & E). apply (Permutation_in _ Ho) in Hu. apply in_seq in Hu. apply Nat.eqb_eq in E. exists u. split; [lia|exact E].
  - intros (u & Hu & <-). exists u. split; [|apply Nat.eqb_refl]. apply (Permutation_in _ (Permutation_sym Ho)). apply in_seq. lia.
Qed.

Lemma leader_mapping_nth i : i < n -> nth i (fill_leader_mapping n clustering order0) 0 = cnt is_leader (seq 0 (S i)).
Proof.
  intros Hi. unfold fill_leader_mapping. rewrite prefix_sum_nth by (rewrite flags_length, repeat_length; exact Hi).
  apply (cnt_list_sum is_leader n); [rewrite flags_length; apply repeat_length| |lia].
  intros j Hj. rewrite flags_nth by (rewrite repeat_length; exact Hj). rewrite nth_repeat. reflexivity.
Qed.

Lemma mapping_nth u : u < n -> nth u (snd (compute_mapping n clustering order0)) 0 = cnt is_leader (seq 0 (nth u clustering 0)).
Proof.
  intros Hu. unfold compute_mapping. cbn [snd]. rewrite nth_map_seq by exact Hu. cbn [Nat.add].
  rewrite leader_mapping_nth by (apply Hcl, Hu). rewrite cnt_seq_S. cbn [Nat.add].
  assert (L : is_leader (nth u clustering 0) = true) by (apply leader_iff; exists u; auto). rewrite L. lia.
Qed.

Lemma c_n_val : fst (compute_mapping n clustering order0) = cnt is_leader (seq 0 n).
Proof.
  unfold compute_mapping. cbn [fst]. rewrite leader_mapping_nth by lia. replace (S (n - 1)) with n by lia. reflexivity.
Qed.

Lemma mapping_length : length (snd (compute_mapping n clustering order0)) = n.
Proof. unfold compute_mapping. cbn [snd]. rewrite map_length. apply seq_length. Qed.

Lemma mapping_numbers : numbers_clusters n (fst (compute_mapping n clustering order0)) (fun u => nth u clustering 0)
  (fun u => nth u (snd (compute_mapping n clustering order0)) 0).
Proof.
  rewrite c_n_val. repeat split.
  - intros u Hu. rewrite mapping_nth by exact Hu. apply cnt_seq_strict; [apply Hcl, Hu|]. apply leader_iff. exists u. auto.
  - intros c Hc. destruct (cnt_seq_find _ _ _ Hc) as (i & Hi & Hp & E). apply leader_iff in Hp. destruct Hp as (u & Hu & <-).
    exists u. split; [exact Hu|]. rewrite mapping_nth by exact Hu. exact E.
  - rewrite !mapping_nth by assumption. intros E.
    destruct (lt_eq_lt_dec (nth u clustering 0) (nth v clustering 0)) as [[L|L]|L]; [|exact L|]; exfalso.
    + pose proof (cnt_seq_strict is_leader _ _ L (proj2 (leader_iff _) (ex_intro _ u (conj H eq_refl)))). lia.
    + pose proof (cnt_seq_strict is_leader _ _ L (proj2 (leader_iff _) (ex_intro _ v (conj H0 eq_refl)))). lia.
  - intros E. rewrite !mapping_nth by assumption. rewrite E. reflexivity.
Qed.
End Pre.

(** ** Buckets *)
Section Buckets.
Variables (n c_n : nat) (mapping order1 order2 garbage : list nat).
Hypothesis Ho1 : Permutation order1 (seq 0 n).
Hypothesis Ho2 : Permutation order2 (seq 0 n).
Hypothesis Hm : forall u, u < n -> nth u mapping 0 < c_n.
Hypothesis Hg : length garbage = n.
Let f u := nth u mapping 0.
Let N c := cnt (fun u => f u =? c) (seq 0 n).
Let E c := psum N (S c).

Lemma counts_nth (order : list nat) : (forall u, In u order -> f u < c_n) -> forall (a : list nat) c, length a = S c_n ->
  nth c (fold_left (fun a u => upd (nth u mapping 0) (S (nth (nth u mapping 0) a 0)) a) order a) 0 = nth c a 0 + cnt (fun u => f u =? c) order.
Proof.
  induction order as [|u order IH]; intros Hu a c Ha; [cbn; lia|]. cbn [fold_left].
  rewrite IH; [|intros x Hx; apply Hu; right; exact Hx|rewrite upd_length; exact Ha]. rewrite cnt_cons, upd_nth. fold (f u).
  rewrite (proj2 (Nat.ltb_lt _ _)) by (rewrite Ha; specialize (Hu u (or_introl eq_refl)); lia). rewrite andb_true_r.
  destruct (Nat.eqb_spec (f u) c) as [<-|]; lia.
Qed.

Lemma counts_length (order : list nat) : forall a : list nat, length (fold_left (fun a u => upd (nth u mapping 0) (S (nth (nth u mapping 0) a 0)) a) order a) = length a.
Proof. induction order as [|u o IH]; intros a; [reflexivity|]. cbn [fold_left]. rewrite IH. apply upd_length. Qed.

Lemma bucket_counts_spec : bucket_counts c_n mapping order1 = map N (seq 0 (S c_n)).
Proof.
  apply (list_ext 0).
  - unfold bucket_counts. rewrite counts_length, repeat_length, map_length, seq_length. reflexivity.
  - intros c Hc. unfold bucket_counts in *. rewrite counts_length, repeat_length in Hc. rewrite counts_nth.
    + rewrite nth_repeat, nth_map_seq by exact Hc. cbn [Nat.add]. unfold N. apply cnt_perm, Ho1.
    + intros u Hu. apply Hm. apply (Permutation_in _ Ho1) in Hu. apply in_seq in Hu. lia.
    + apply repeat_length.
Qed.

Lemma index0 c : c <= c_n -> nth c (prefix_sum (bucket_counts c_n mapping order1)) 0 = E c.
Proof.
  intros Hc. rewrite bucket_counts_spec. rewrite prefix_sum_nth by (rewrite map_length, seq_length; lia).
  rewrite firstn_map, firstn_seq by lia. reflexivity.
Qed.

Lemma E_total : E c_n = n.
Proof.
  assert (G : forall k, psum N k = cnt (fun u => f u <? k) (seq 0 n)).
  { induction k as [|k IH]; [symmetry; apply cnt_zero; reflexivity|]. rewrite psum_S, IH. unfold N. rewrite <- cnt_orb.
    - apply cnt_ext. intros u _. destruct (Nat.ltb_spec (f u) k), (Nat.eqb_spec (f u) k), (Nat.ltb_spec (f u) (S k)); cbn; lia || reflexivity.
    - intros u _ H1 H2. apply Nat.ltb_lt in H1. apply Nat.eqb_eq in H2. lia. }
  unfold E. rewrite G, cnt_all; [apply seq_length|]. intros u Hu. apply in_seq in Hu. apply Nat.ltb_lt. specialize (Hm u). unfold f. lia.
Qed.

Lemma E_prev c : E c = psum N c + N c. Proof. apply psum_S. Qed.
Lemma E_lt c c' : c < c' -> E c <= psum N c'. Proof. intros H. apply psum_le. lia. Qed.
Lemma E_le_n c : c <= c_n -> E c <= n. Proof. intros H. rewrite <- E_total. apply psum_le. lia. Qed.

Lemma place_inv done : forall todo, order2 = done ++ todo ->
  let '(idx, buckets) := fold_left (place_node mapping) done (prefix_sum (bucket_counts c_n mapping order1), garbage) in
  length idx = S c_n /\ length buckets = n /\
  (forall c, c <= c_n -> nth c idx 0 = E c - cnt (fun u => f u =? c) done) /\
  (forall c j, c < c_n -> j < cnt (fun u => f u =? c) done ->
     nth (E c - 1 - j) buckets 0 = nth j (filter (fun u => f u =? c) done) 0).
Proof.
  induction done as [|u done IH] using rev_ind; intros todo Ht.
  - cbn [fold_left]. repeat split.
    + rewrite prefix_sum_length, bucket_counts_spec, map_length, seq_length. reflexivity.
    + exact Hg.
    + intros c Hc. rewrite index0 by exact Hc. cbn. lia.
    + intros c j _ H. cbn in H. lia.
  - specialize (IH (u :: todo)). rewrite <- app_assoc in Ht. cbn [app] in Ht. specialize (IH Ht). rewrite fold_left_app. cbn [fold_left].
    destruct (fold_left _ done _) as [idx buckets]. destruct IH as (I1 & I2 & I3 & I4).
    assert (Hu : u < n).
    { assert (Hin : In u order2) by (rewrite Ht; apply in_or_app; right; left; reflexivity). apply (Permutation_in _ Ho2) in Hin. apply in_seq in Hin. lia. }
    assert (Hfu := Hm u Hu). fold (f u) in Hfu.
    assert (Hcnt : forall c, cnt (fun x => f x =? c) done + (if f u =? c then 1 else 0) <= N c).
    { intros c. unfold N. rewrite <- (cnt_perm _ _ _ Ho2), Ht, cnt_app, cnt_cons. lia. }
    unfold place_node. fold (f u). repeat split.
    + rewrite upd_length. exact I1.
    + rewrite upd_length. exact I2.
    + intros c Hc. rewrite upd_nth, I1. rewrite cnt_app, cnt_cons. cbn [cnt filter length]. 
      rewrite (proj2 (Nat.ltb_lt (f u) (S c_n))) by lia. rewrite andb_true_r. destruct (Nat.eqb_spec (f u) c) as [->|].
      * rewrite I3 by lia. unfold cnt. cbn. lia.
      * rewrite I3 by exact Hc. unfold cnt. cbn. lia.
    + intros c j Hc Hj. rewrite I3 by lia. rewrite cnt_app, cnt_cons in Hj. rewrite filter_app. cbn [filter].
      assert (H1 := Hcnt (f u)). rewrite Nat.eqb_refl in H1. assert (H2 := E_prev (f u)).
      rewrite upd_nth. rewrite I2. assert (H3 := E_le_n (f u) ltac:(lia)).
      rewrite (proj2 (Nat.ltb_lt (E (f u) - cnt (fun x => f x =? f u) done - 1) n)) by lia. rewrite andb_true_r.
      assert (Hlen : forall c, length (filter (fun x => f x =? c) done) = cnt (fun x => f x =? c) done) by reflexivity.
      destruct (Nat.eqb_spec (f u) c) as [<-|Hne].
      * unfold cnt at 2 in Hj. cbn [filter length] in Hj.
        destruct (Nat.eqb_spec (E (f u) - cnt (fun x => f x =? f u) done - 1) (E (f u) - 1 - j)) as [Ep|Ep].
        -- assert (j = cnt (fun x => f x =? f u) done) by lia. rewrite app_nth2, Hlen by (rewrite Hlen; lia). subst j. rewrite Nat.sub_diag. reflexivity.
        -- assert (j <> cnt (fun x => f x =? f u) done) by lia. rewrite app_nth1 by (rewrite Hlen; lia). apply I4; lia.
      * rewrite app_nil_r. assert (Hj' : j < cnt (fun x => f x =? c) done) by (unfold cnt at 2 in Hj; cbn in Hj; lia).
        assert (H4 := Hcnt c). assert (H5 := E_prev c).
        destruct (Nat.eqb_spec (E (f u) - cnt (fun x => f x =? f u) done - 1) (E c - 1 - j)) as [Ep|Ep]; [|apply I4; assumption].
        exfalso. destruct (lt_eq_lt_dec (f u) c) as [[L|L]|L]; [|lia|]; apply E_lt in L; lia.
Qed.

Lemma buckets_spec c : c < c_n ->
  bucket_of (fill_cluster_buckets c_n mapping order1 order2 garbage) c = rev (filter (fun u => f u =? c) order2).
Proof.
  intros Hc. pose proof (place_inv order2 [] (eq_sym (app_nil_r order2))) as P. unfold fill_cluster_buckets, bucket_of.
  destruct (fold_left _ order2 _) as [idx buckets]. destruct P as (I1 & I2 & I3 & I4). cbn [fst snd].
  assert (HN : forall c, cnt (fun x => f x =? c) order2 = N c) by (intros; apply cnt_perm, Ho2).
  rewrite !I3, !HN by lia. assert (H1 := E_prev c). assert (H2 : E (S c) - N (S c) = E c) by (rewrite E_prev; unfold E; lia). rewrite H2.
  replace (E c - (E c - N c)) with (N c) by lia.
  assert (Hl : length (filter (fun u => f u =? c) order2) = N c) by apply HN.
  apply (list_ext 0).
  - rewrite map_length, seq_length, rev_length. symmetry. exact Hl.
  - intros i Hi. rewrite map_length, seq_length in Hi. rewrite nth_map_seq by exact Hi.
    rewrite rev_nth by (rewrite Hl; exact Hi). rewrite Hl.
    rewrite <- (I4 c (N c - S i)) by (rewrite ?HN; lia). f_equal. lia.
Qed.

Lemma buckets_perm c : c < c_n ->
  Permutation (bucket_of (fill_cluster_buckets c_n mapping order1 order2 garbage) c) (filter (fun u => f u =? c) (seq 0 n)).
Proof.
  intros Hc. rewrite buckets_spec by exact Hc. rewrite <- Permutation_rev. apply Permutation_filter_compat, Ho2.
Qed.
End Buckets.

Lemma mapping_correct n clustering order :
  0 < n -> Permutation order (seq 0 n) -> (forall u, u < n -> nth u clustering 0 < n) ->
  let '(c_n, mapping) := compute_mapping n clustering order in
  length mapping = n /\ numbers_clusters n c_n (fun u => nth u clustering 0) (fun u => nth u mapping 0).
Proof.
  intros Hn Hp Hc. pose proof (mapping_numbers n clustering order Hn Hp Hc) as M. pose proof (mapping_length n clustering order) as L.
  destruct (compute_mapping n clustering order) as [c_n mapping]. cbn [fst snd] in *. auto.
Qed.

Lemma buckets_correct n c_n mapping order1 order2 garbage :
  (forall u, u < n -> nth u mapping 0 < c_n) -> Permutation order1 (seq 0 n) -> Permutation order2 (seq 0 n) -> length garbage = n ->
  forall c, c < c_n ->
    let bucket := bucket_of (fill_cluster_buckets c_n mapping order1 order2 garbage) c in
    NoDup bucket /\ (forall u, In u bucket <-> u < n /\ nth u mapping 0 = c).
Proof.
  intros Hm P1 P2 Hg c Hc bucket.
  assert (P : Permutation bucket (filter (fun u => nth u mapping 0 =? c) (seq 0 n))) by (apply buckets_perm; assumption).
  split.
  - apply (Permutation_NoDup (Permutation_sym P)), NoDup_filter, seq_NoDup.
  - intros u. split.
    + intros H. apply (Permutation_in _ P), filter_In in H. rewrite in_seq in H. destruct H as [H1 H2]. apply Nat.eqb_eq in H2. lia.
    + intros [H1 H2]. apply (Permutation_in _ (Permutation_sym P)), filter_In. rewrite in_seq. split; [lia|apply Nat.eqb_eq, H2].
Qed.
