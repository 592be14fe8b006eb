(* The orders that the ranks compute are permutations. *)
From Verif Require Import Lib.Prelude Lib.Count Model.GridModel Model.CsrModel Model.PermModel Model.DistGraphModel Model.RearrangeModel
  Spec.Graph Proofs.CsrProofs Proofs.PermProofs Proofs.ReplicateProofs Proofs.RearrangeRank.

(** Mutually inverse permutations of 0, ..., n - 1. *)
Definition inverse_orders (n : nat) (o2n n2o : list nat) : Prop :=
  length o2n = n /\ length n2o = n /\ (forall u, u < n -> nth u o2n 0 < n /\ nth (nth u o2n 0) n2o 0 = u) /\
  (forall u, u < n -> nth u n2o 0 < n /\ nth (nth u n2o 0) o2n 0 = u).
Lemma inverse_from n o2n n2o : length o2n = n -> length n2o = n -> (forall u, u < n -> nth u o2n 0 < n /\ nth (nth u o2n 0) n2o 0 = u) -> inverse_orders n o2n n2o.
Proof.
  intros L1 L2 B. split; [exact L1|]. split; [exact L2|]. split; [exact B|]. intros y Hy.
  destruct (inj_surj n (fun u => nth u o2n 0)) with (y := y) as (x & Hx & E).
  - intros u Hu. exact (proj1 (B u Hu)).
  - intros i j Hi Hj E. cbv beta in E. rewrite <- (proj2 (B i Hi)), <- (proj2 (B j Hj)), E. reflexivity.
  - exact Hy.
  - cbv beta in E. rewrite <- E, (proj2 (B x Hx)). split; [exact Hx|reflexivity].
Qed.

(** ** By degree buckets *)
Lemma dist_bucket_lt deg : (N.of_nat deg < 2 ^ 32)%N -> dist_bucket deg < num_degree_buckets.
Proof. intros H. unfold dist_bucket. destruct (Nat.eqb_spec deg 0); [unfold num_degree_buckets; lia|apply bucket_of_degree_lt; exact H]. Qed.
Lemma dist_bucket_log deg : (N.of_nat deg < 2 ^ 32)%N -> dist_bucket deg = if deg =? 0 then 0 else S (Nat.log2 deg).
Proof. intros H. unfold dist_bucket. destruct (Nat.eqb_spec deg 0); [reflexivity|]. apply bucket_of_degree_log2; [lia|exact H]. Qed.
Lemma degree_order_ok conc nodes o2n n2o : 0 < conc -> (forall u, u < length nodes - 1 -> (N.of_nat (degree_of nodes u) < 2 ^ 32)%N) ->
  degree_order conc nodes = (o2n, n2o) -> inverse_orders (length nodes - 1) o2n n2o /\
  forall u v, u <= v -> v < length nodes - 1 -> dist_bucket (degree_of nodes (nth u n2o 0)) <= dist_bucket (degree_of nodes (nth v n2o 0)).
Proof.
  intros Hc Hd E. set (n := length nodes - 1) in *. unfold degree_order in E. fold n in E.
  set (fb := fun u => dist_bucket (nth (S u) nodes 0 - nth u nodes 0)) in *.
  destruct (permutation_is_rank conc n num_degree_buckets fb Hc) as (PL & PN & PI); [intros u Hu; apply dist_bucket_lt; exact (Hd u Hu)|].
  rewrite E in PL, PN, PI. cbn [fst snd] in PL, PN, PI.
  assert (M1 : maps_into n n (fun u => nth u o2n 0)) by (intros u Hu; cbv beta; rewrite PN by exact Hu; apply bucket_rank_lt; exact Hu).
  assert (I1 : injn n (fun u => nth u o2n 0)) by (intros u v Hu Hv Q; cbv beta in Q; rewrite !PN in Q by assumption; apply (bucket_rank_inj fb n); assumption).
  destruct (invert_spec n o2n PL M1 I1) as [L2 V1]. rewrite <- PI in L2, V1.
  assert (I : inverse_orders n o2n n2o) by (apply inverse_from; [exact PL|exact L2|]; intros u Hu; split; [exact (M1 u Hu)|exact (V1 u Hu)]).
  split; [exact I|]. intros u v Huv Hv. destruct I as (_ & _ & _ & B2).
  destruct (B2 u ltac:(lia)) as [Q1 Q2]. destruct (B2 v Hv) as [R1 R2].
  apply (bucket_rank_mono_iff fb n _ _ Q1 R1). rewrite <- !PN by assumption. rewrite Q2, R2. exact Huv.
Qed.

(** ** By colour *)
Section Colors.
Variables (C n : nat) (coloring : list nat).
Let col u := nth u coloring 0.
Hypothesis HL : n <= length coloring.
Hypothesis HC : forall u, u < n -> col u < C.
Definition ctot c := cnt (fun u => col u =? c) (seq 0 n).
Lemma ctot_sum c : psum ctot c = cnt (fun u => col u <? c) (seq 0 n).
Proof.
  induction c as [|c IH].
  - symmetry. apply cnt_zero. reflexivity.
  - rewrite psum_S, IH. unfold ctot. rewrite <- cnt_orb.
    + apply cnt_ext. intros u _. destruct (Nat.ltb_spec (col u) c), (Nat.eqb_spec (col u) c), (Nat.ltb_spec (col u) (S c)); cbn [orb]; try reflexivity; lia.
    + intros u _ A B. apply Nat.ltb_lt in A. apply Nat.eqb_eq in B. lia.
Qed.
Lemma ctot_le c : psum ctot c <= n.
Proof. rewrite ctot_sum. etransitivity; [apply cnt_le|]. rewrite seq_length. lia. Qed.
Lemma col_error u : u < n -> nth_error coloring u = Some (col u).
Proof. intros H. apply nth_error_nth'. lia. Qed.

Lemma count_colors_ok us : forall sizes, (forall u, In u us -> u < n) -> length sizes = C + 1 ->
  exists s, count_colors coloring us sizes = Some s /\ length s = C + 1 /\ forall c, nth c s 0 = nth c sizes 0 + cnt (fun u => col u =? c) us.
Proof.
  induction us as [|u t IH]; intros sizes Hu L; cbn [count_colors].
  - exists sizes. split; [reflexivity|]. split; [exact L|]. intros c. rewrite cnt_nil. lia.
  - pose proof (Hu u (or_introl eq_refl)) as Hun. rewrite (col_error u Hun). cbn [bind]. pose proof (HC u Hun) as Hc.
    rewrite (nth_error_nth' sizes 0) by lia. cbn [bind].
    destruct (IH (upd (col u) (S (nth (col u) sizes 0)) sizes)) as (s & E & Ls & N); [intros x Hx; apply Hu; right; exact Hx|rewrite upd_length; exact L|].
    exists s. split; [exact E|]. split; [exact Ls|]. intros c. rewrite N, upd_nth, cnt_cons.
    destruct (Nat.eqb_spec (col u) c) as [Q|Q]; cbn [andb]; [|lia]. subst c. assert (X : (col u <? length sizes) = true) by (apply Nat.ltb_lt; lia). rewrite X. lia.
Qed.

(** The slots of a colour. *)
Lemma slot_color i c c' : psum ctot c <= i < psum ctot (S c) -> psum ctot c' <= i < psum ctot (S c') -> c = c'.
Proof.
  intros A B. destruct (Nat.lt_trichotomy c c') as [H|[H|H]]; [|exact H|].
  - pose proof (psum_le ctot (S c) c' H). lia.
  - pose proof (psum_le ctot (S c') c H). lia.
Qed.
Definition inv (done : list nat) (s : placed) : Prop :=
  length (pl_sizes s) = C + 1 /\ length (pl_o2n s) = n /\ length (pl_n2o s) = n /\
  (forall c, c <= C -> nth c (pl_sizes s) 0 + cnt (fun u => col u =? c) done = psum ctot (S c)) /\
  forall u, In u done -> nth (col u) (pl_sizes s) 0 <= nth u (pl_o2n s) 0 < psum ctot (S (col u)) /\ nth (nth u (pl_o2n s) 0) (pl_n2o s) 0 = u.
Lemma place_nodes_ok us : forall done s, NoDup (done ++ us) -> (forall u, In u (done ++ us) -> u < n) ->
  (forall c, cnt (fun u => col u =? c) (done ++ us) <= ctot c) -> inv done s ->
  exists s', place_nodes coloring us s = Some s' /\ inv (done ++ us) s'.
Proof.
  induction us as [|u t IH]; intros done s ND Hin Hcnt I; cbn [place_nodes].
  - exists s. split; [reflexivity|]. rewrite app_nil_r. exact I.
  - pose proof (Hin u ltac:(apply in_or_app; right; left; reflexivity)) as Hun. rewrite (col_error u Hun). cbn [bind].
    pose proof (HC u Hun) as Hc. destruct I as (I1 & I2 & I3 & I4 & I5). rewrite (nth_error_nth' (pl_sizes s) 0) by lia. cbn [bind].
    pose proof (I4 (col u) ltac:(lia)) as Q. pose proof (Hcnt (col u)) as K. rewrite cnt_app, cnt_cons, Nat.eqb_refl in K.
    rewrite psum_S in Q. destruct (nth (col u) (pl_sizes s) 0) as [|i] eqn:Ei; [lia|].
    assert (Hi : psum ctot (col u) <= i < psum ctot (S (col u))) by (rewrite psum_S; lia).
    assert (Hin' : i < n) by (pose proof (ctot_le (S (col u))); lia).
    unfold store. rewrite (proj2 (Nat.ltb_lt u (length (pl_o2n s)))) by lia. rewrite (proj2 (Nat.ltb_lt i (length (pl_n2o s)))) by lia. cbn [bind].
    assert (Eapp : done ++ u :: t = (done ++ [u]) ++ t) by (rewrite <- app_assoc; reflexivity).
    rewrite Eapp in *. apply IH; [exact ND|exact Hin|exact Hcnt|].
    assert (Nu : ~ In u done). { rewrite <- Eapp in ND. apply NoDup_remove_2 in ND. intros X. apply ND. apply in_or_app. left. exact X. }
    split; [cbn [pl_sizes]; rewrite upd_length; exact I1|]. split; [cbn [pl_o2n]; rewrite upd_length; exact I2|]. split; [cbn [pl_n2o]; rewrite upd_length; exact I3|].
    cbn [pl_sizes pl_o2n pl_n2o]. split.
    + intros c Hcc. rewrite upd_nth, cnt_app, cnt_cons, cnt_nil. pose proof (I4 c Hcc) as Q'. destruct (Nat.eqb_spec (col u) c) as [X|X]; cbn [andb].
      * subst c. rewrite (proj2 (Nat.ltb_lt (col u) (length (pl_sizes s)))) by lia. rewrite Ei in Q'. lia.
      * lia.
    + intros v Hv. apply in_app_or in Hv. destruct Hv as [Hv|[Hv|[]]].
      * destruct (I5 v Hv) as [V1 V2]. assert (Hvu : u <> v) by (intros X; subst v; exact (Nu Hv)).
        assert (Hvn : v < n) by (apply Hin; apply in_or_app; left; apply in_or_app; left; exact Hv).
        rewrite (upd_nth_other u v) by exact Hvu.
        assert (Slot : i <> nth v (pl_o2n s) 0).
        { intros X. assert (Y : col v = col u).
          { apply (slot_color i); [|exact Hi]. rewrite X. split; [|exact (proj2 V1)]. pose proof (I4 (col v) ltac:(pose proof (HC v Hvn); lia)) as Q'. pose proof (Hcnt (col v)) as K'. rewrite !cnt_app in K'. rewrite psum_S in Q'. lia. }
          rewrite Y, Ei in V1. lia. }
        rewrite (upd_nth_other i) by exact Slot. split; [|exact V2]. split; [|exact (proj2 V1)]. rewrite upd_nth.
        destruct (Nat.eqb_spec (col u) (col v)) as [X|X]; cbn [andb]; [|exact (proj1 V1)]. rewrite (proj2 (Nat.ltb_lt (col u) (length (pl_sizes s)))) by lia. rewrite <- X, Ei in V1. lia.
      * subst v. rewrite !upd_nth_same by lia. split; [lia|reflexivity].
Qed.
Theorem color_order_ok order1 order2 : Permutation order1 (seq 0 n) -> Permutation order2 (seq 0 n) ->
  exists s, color_order C n coloring order1 order2 = Some s /\ inverse_orders n (pl_o2n s) (pl_n2o s) /\ length (pl_sizes s) = C + 1 /\
    (forall c, c <= C -> nth c (pl_sizes s) 0 = cnt (fun u => col u <? c) (seq 0 n)) /\
    forall u, u < n -> nth (col u) (pl_sizes s) 0 <= nth u (pl_o2n s) 0 < nth (S (col u)) (pl_sizes s) 0.
Proof.
  intros P1 P2. unfold color_order.
  destruct (count_colors_ok order1 (repeat 0 (C + 1))) as (cn & E & L & N); [intros u Hu; apply (Permutation_in _ P1), in_seq in Hu; lia|apply repeat_length|].
  rewrite E. cbn [bind].
  assert (N' : forall c, nth c cn 0 = ctot c).
  { intros c. rewrite N, nth_repeat. cbn [Nat.add]. apply cnt_perm. exact P1. }
  destruct (place_nodes_ok order2 [] (Placed (prefix_sum cn) (repeat 0 n) (repeat 0 n))) as (s & E2 & I).
  - exact (Permutation_NoDup (Permutation_sym P2) (seq_NoDup n 0)).
  - intros u Hu. apply (Permutation_in _ P2), in_seq in Hu. lia.
  - intros c. cbn [app]. unfold ctot. rewrite (cnt_perm _ _ _ P2). lia.
  - unfold inv. cbn [pl_sizes pl_o2n pl_n2o]. rewrite prefix_sum_length, !repeat_length. split; [exact L|]. split; [reflexivity|]. split; [reflexivity|]. split; [|intros u []].
    intros c Hc. rewrite cnt_nil, prefix_sum_nth by lia. rewrite Nat.add_0_r. unfold psum.
    assert (X : firstn (S c) cn = map ctot (seq 0 (S c))).
    { apply (list_ext 0); [rewrite firstn_length, map_length, seq_length; lia|]. intros i Hi. rewrite firstn_length in Hi. rewrite nth_firstn_lt by lia. rewrite nth_map_seq by lia. apply N'. }
    rewrite X. reflexivity.
  - exists s. split; [exact E2|]. cbn [app] in I. destruct I as (I1 & I2 & I3 & I4 & I5).
    assert (S0 : forall c, c <= C -> nth c (pl_sizes s) 0 = psum ctot c).
    { intros c Hc. pose proof (I4 c Hc) as Q. rewrite (cnt_perm _ _ _ P2), psum_S in Q. fold (ctot c) in Q. lia. }
    assert (Hin : forall u, u < n -> In u order2) by (intros u Hu; apply (Permutation_in _ (Permutation_sym P2)); apply in_seq; lia).
    split; [|split; [exact I1|split]].
    + apply inverse_from; [exact I2|exact I3|]. intros u Hu. destruct (I5 u (Hin u Hu)) as [A B]. split; [|exact B]. pose proof (ctot_le (S (col u))). lia.
    + intros c Hc. rewrite S0 by exact Hc. apply ctot_sum.
    + intros u Hu. destruct (I5 u (Hin u Hu)) as [A B]. pose proof (HC u Hu). rewrite (S0 (S (col u))) by lia. exact A.
Qed.
End Colors.
