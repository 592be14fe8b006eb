(* Numbering of clusters and sorting of nodes by cluster in Model/InitialCoarsenModel.v. *)
From Verif Require Import Lib.Prelude Lib.Count Spec.Graph Spec.Quotient Spec.RatingMap Model.RatingMapModel Model.VarintModel
  Model.InitialCoarsenModel Proofs.RatingMapProofs Proofs.PermProofs Proofs.InitialCoarsenBase.

Section Map.
Variables (limit : Z) (n : nat) (w : nat -> Z) (cl : list cluster) (moves : nat).
Hypothesis C : cinv limit n w (fun _ => True) cl moves.

Lemma num_leaders : length (filter (fun v => lead cl v =? v) (seq 0 n)) = n - moves.
Proof.
  pose proof (cnt_negb (fun v => lead cl v =? v) (seq 0 n)) as H. rewrite seq_length in H. rewrite <- (ci_moves _ _ _ _ _ _ C) in H. unfold cnt in H. lia.
Qed.

Record minv (u : nat) (ls lm mapping sizes : list nat) : Prop := mkMinv {
  mi_lm : length lm = n;
  mi_map : length mapping = u;
  mi_sizes : length sizes = n;
  mi_nodup : NoDup ls;
  mi_ls : forall L, In L ls -> L < n /\ lead cl L = L /\ exists x, x < u /\ lead cl x = L;
  mi_in : forall i, i < length ls -> nth (nth i ls 0) lm 0 = S i;
  mi_out : forall L, L < n -> ~ In L ls -> nth L lm 0 = 0;
  mi_f : forall x, x < u -> nth x mapping 0 < length ls /\ nth (nth x mapping 0) ls 0 = lead cl x;
  mi_cnt : forall c, c < n -> nth c sizes 0 = cnt (fun x => nth x mapping 0 =? c) (seq 0 u) }.

Lemma minv_bound u ls lm mapping sizes : minv u ls lm mapping sizes -> length ls <= n - moves.
Proof.
  intros I. rewrite <- num_leaders. apply NoDup_incl_length; [exact (mi_nodup _ _ _ _ _ I)|]. intros L HL.
  destruct (mi_ls _ _ _ _ _ I L HL) as (A & B & _). apply filter_In. split; [apply in_seq; lia|]. apply Nat.eqb_eq, B.
Qed.

Lemma map_node_ok u ls lm mapping sizes : u < n -> minv u ls lm mapping sizes ->
  exists ls' lm' mapping' sizes',
    map_node (n - moves) cl (Some (lm, map (fun L => wgt cl L) ls, mapping, sizes)) u
      = Some (lm', map (fun L => wgt cl L) ls', mapping', sizes') /\ minv (S u) ls' lm' mapping' sizes'.
Proof.
  intros Hu I. pose proof I as [I1 I2 I3 I4 I5 I6 I7 I8 I9]. unfold map_node.
  rewrite (nth_error_nth' cl dcl) by (pose proof (ci_len _ _ _ _ _ _ C); lia).
  destruct (ci_lead _ _ _ _ _ _ C u Hu) as [L1 L2]. remember (lead cl u) as L eqn:EL.
  rewrite I1, (proj2 (Nat.ltb_lt L n) L1). cbn [negb]. rewrite map_length.
  assert (Hcnt : forall (ls' : list nat) c s, length ls' <= n -> s < length ls' -> c < n ->
     nth c (upd s (S (nth s sizes 0)) sizes) 0 = cnt (fun x => nth x (mapping ++ [s]) 0 =? c) (seq 0 (S u))).
  { intros ls' c s Hl Hs Hc. rewrite cnt_seq_S. cbn [Nat.add]. rewrite app_nth2, I2, Nat.sub_diag by lia. cbn [nth].
    rewrite (cnt_ext _ (fun x => nth x mapping 0 =? c) (seq 0 u)) by (intros x Hx; apply in_seq in Hx; rewrite app_nth1 by lia; reflexivity).
    rewrite upd_nth, I3, (proj2 (Nat.ltb_lt s n)) by lia. rewrite andb_true_r.
    destruct (Nat.eqb_spec s c) as [->|]; rewrite I9 by lia; lia. }
  assert (Hmap : forall s x, x < u -> nth x (mapping ++ [s]) 0 = nth x mapping 0) by (intros; apply app_nth1; lia).
  assert (Hlast : forall s, nth u (mapping ++ [s]) 0 = s) by (intros; rewrite app_nth2 by lia; rewrite I2, Nat.sub_diag; reflexivity).
  destruct (in_dec Nat.eq_dec L ls) as [Hin|Hout].
  - destruct (In_nth ls L 0 Hin) as (i & Hi & Ei). pose proof (I6 i Hi) as Hlm. rewrite Ei in Hlm. rewrite Hlm. cbn [Nat.eqb]. rewrite Hlm.
    exists ls, lm, (mapping ++ [i]), (upd i (S (nth i sizes 0)) sizes). replace (S i - 1) with i by lia. split; [reflexivity|].
    pose proof (minv_bound u ls lm mapping sizes I).
    constructor; auto.
    + rewrite app_length. cbn. lia.
    + rewrite upd_length. exact I3.
    + intros L' HL'. destruct (I5 L' HL') as (A & B & x & Hx & Ex). repeat split; auto. exists x. split; [lia|exact Ex].
    + intros x Hx. destruct (Nat.eq_dec x u) as [->|].
      * rewrite Hlast. split; [exact Hi|congruence].
      * rewrite Hmap by lia. apply I8. lia.
    + intros c Hc. apply (Hcnt ls); auto; lia.
  - rewrite (I7 L L1 Hout). cbn [Nat.eqb].
    assert (Hb : length (ls ++ [L]) <= n - moves).
    { rewrite <- num_leaders. apply NoDup_incl_length; [apply nodup_snoc; assumption|]. intros x Hx. apply in_app_or in Hx.
      apply filter_In. destruct Hx as [Hx|[<-|[]]]; [destruct (I5 x Hx) as (A & B & _)|]; (split; [apply in_seq; lia|apply Nat.eqb_eq; assumption]). }
    rewrite app_length in Hb. cbn [length] in Hb. rewrite (proj2 (Nat.ltb_lt (length ls) (n - moves))) by lia.
    rewrite upd_nth_same by lia. replace (S (length ls) - 1) with (length ls) by lia.
    exists (ls ++ [L]), (upd L (S (length ls)) lm), (mapping ++ [length ls]), (upd (length ls) (S (nth (length ls) sizes 0)) sizes).
    split; [rewrite map_app; reflexivity|].
    constructor.
    + rewrite upd_length. exact I1.
    + rewrite app_length. cbn. lia.
    + rewrite upd_length. exact I3.
    + apply nodup_snoc; assumption.
    + intros L' HL'. apply in_app_or in HL'. destruct HL' as [HL'|[<-|[]]].
      * destruct (I5 L' HL') as (A & B & x & Hx & Ex). repeat split; auto. exists x. split; [lia|exact Ex].
      * repeat split; auto. exists u. split; [lia|congruence].
    + intros i Hi. rewrite app_length in Hi. cbn [length] in Hi. destruct (Nat.eq_dec i (length ls)) as [->|].
      * rewrite app_nth2, Nat.sub_diag by lia. cbn [nth]. apply upd_nth_same. lia.
      * rewrite app_nth1 by lia. rewrite upd_nth_other; [apply I6; lia|]. intros Ex. apply Hout. rewrite Ex. apply nth_In. lia.
    + intros L' HL' Hn. rewrite upd_nth_other; [apply I7; [exact HL'|]|]; intros X; apply Hn, in_or_app; [left; exact X|right; left; congruence].
    + intros x Hx. rewrite app_length. cbn [length]. destruct (Nat.eq_dec x u) as [->|].
      * rewrite Hlast. split; [lia|]. rewrite app_nth2, Nat.sub_diag by lia. cbn. congruence.
      * rewrite Hmap by lia. destruct (I8 x ltac:(lia)) as [A B]. split; [lia|]. rewrite app_nth1 by exact A. exact B.
    + intros c Hc. apply (Hcnt (ls ++ [L])); rewrite ?app_length; cbn [length]; lia.
Qed.

Lemma map_nodes_run : forall u, u <= n -> exists ls lm mapping sizes,
  fold_left (map_node (n - moves) cl) (seq 0 u) (Some (repeat 0 n, [], [], repeat 0 n))
    = Some (lm, map (fun L => wgt cl L) ls, mapping, sizes) /\ minv u ls lm mapping sizes.
Proof.
  induction u as [|u IH]; intros Hu.
  - exists [], (repeat 0 n), [], (repeat 0 n). split; [reflexivity|].
    constructor; try (cbn; intros; lia); try apply repeat_length; try constructor; cbn; try contradiction; intros; apply nth_repeat.
  - destruct (IH ltac:(lia)) as (ls & lm & mapping & sizes & E & I). rewrite seq_snoc, fold_left_app, E. cbn [fold_left Nat.add].
    destruct (map_node_ok u ls lm mapping sizes ltac:(lia) I) as (ls' & lm' & mapping' & sizes' & E' & I'). exists ls', lm', mapping', sizes'. auto.
Qed.

Lemma map_nodes_ok : exists ls lm mapping sizes,
  map_nodes n (n - moves) cl = Some (lm, map (fun L => wgt cl L) ls, mapping, sizes) /\
  length ls = n - moves /\ length mapping = n /\ length sizes = n /\
  (forall L, In L ls -> L < n /\ lead cl L = L) /\ NoDup ls /\
  (forall x, x < n -> nth x mapping 0 < n - moves /\ nth (nth x mapping 0) ls 0 = lead cl x) /\
  (forall c, c < n - moves -> exists x, x < n /\ nth x mapping 0 = c) /\
  (forall c, c < n -> nth c sizes 0 = cnt (fun x => nth x mapping 0 =? c) (seq 0 n)).
Proof.
  destruct (map_nodes_run n (le_n n)) as (ls & lm & mapping & sizes & E & I). exists ls, lm, mapping, sizes.
  assert (Hlen : length ls = n - moves).
  { apply Nat.le_antisymm; [apply (minv_bound _ _ _ _ _ I)|]. rewrite <- num_leaders. apply NoDup_incl_length.
    - apply NoDup_filter, seq_NoDup.
    - intros v Hv. apply filter_In in Hv. destruct Hv as [Hv Ev]. apply in_seq in Hv. apply Nat.eqb_eq in Ev.
      destruct (mi_f _ _ _ _ _ I v ltac:(lia)) as [A B]. rewrite Ev in B. rewrite <- B. apply nth_In, A. }
  split; [exact E|]. split; [exact Hlen|]. split; [apply (mi_map _ _ _ _ _ I)|]. split; [apply (mi_sizes _ _ _ _ _ I)|].
  split; [intros L HL; destruct (mi_ls _ _ _ _ _ I L HL) as (A & B & _); auto|]. split; [apply (mi_nodup _ _ _ _ _ I)|].
  split; [rewrite <- Hlen; apply (mi_f _ _ _ _ _ I)|]. split; [|apply (mi_cnt _ _ _ _ _ I)].
  intros c Hc. rewrite <- Hlen in Hc. destruct (mi_ls _ _ _ _ _ I (nth c ls 0) (nth_In _ _ Hc)) as (_ & _ & x & Hx & Ex). exists x. split; [exact Hx|].
  destruct (mi_f _ _ _ _ _ I x Hx) as [A B]. rewrite Ex in B. apply (NoDup_nth ls 0) in B; auto. apply (mi_nodup _ _ _ _ _ I).
Qed.
End Map.

Lemma exchange_sum_nth : forall sizes k c, c < length sizes -> nth c (exchange_sum k sizes) 0 = k + list_sum (firstn c sizes).
Proof.
  induction sizes as [|x sizes IH]; intros k c Hc; [cbn in Hc; lia|]. cbn [exchange_sum]. destruct c as [|c]; [cbn; lia|].
  cbn [nth firstn]. cbn in Hc. rewrite IH by lia. cbn [list_sum fold_right]. unfold list_sum. lia.
Qed.
Lemma exchange_sum_length : forall sizes k, length (exchange_sum k sizes) = length sizes.
Proof. induction sizes as [|x sizes IH]; intros k; [reflexivity|]. cbn. rewrite IH. reflexivity. Qed.

Section Place.
Variables (n c_n : nat) (mapping sizes nodes0 : list nat).
Let f u := nth u mapping 0.
Notation bkt c := (filter (fun u => nth u mapping 0 =? c) (seq 0 n)).
Let N c := cnt (fun u => nth u mapping 0 =? c) (seq 0 n).
Hypothesis Hcn : c_n <= n.
Hypothesis Hs : length sizes = n.
Hypothesis Hf : forall x, x < n -> f x < c_n.
Hypothesis Hsz : forall c, c < n -> nth c sizes 0 = N c.
Hypothesis Hn0 : n <= length nodes0.

Lemma psum_N k : psum N k = cnt (fun u => f u <? k) (seq 0 n).
Proof.
  induction k as [|k IH]; [symmetry; apply cnt_zero; reflexivity|]. rewrite psum_S, IH. unfold N. rewrite <- cnt_orb.
  - apply cnt_ext. intros u _. unfold f. destruct (Nat.ltb_spec (nth u mapping 0) k), (Nat.eqb_spec (nth u mapping 0) k), (Nat.ltb_spec (nth u mapping 0) (S k)); cbn; lia || reflexivity.
  - intros u _ H1 H2. apply Nat.ltb_lt in H1. apply Nat.eqb_eq in H2. unfold f in H1. lia.
Qed.
Lemma psum_N_total : psum N c_n = n.
Proof. rewrite psum_N, cnt_all; [apply seq_length|]. intros u Hu. apply in_seq in Hu. apply Nat.ltb_lt, Hf. lia. Qed.
Lemma psum_N_le c : c <= c_n -> psum N c <= n. Proof. intros H. rewrite <- psum_N_total. apply psum_le, H. Qed.

Lemma first0 c : c < n -> nth c (exchange_sum 0 sizes) 0 = psum N c.
Proof.
  intros Hc. rewrite exchange_sum_nth by lia. unfold psum. cbn [Nat.add]. f_equal. apply (list_ext 0).
  - rewrite firstn_length, map_length, seq_length. lia.
  - intros i Hi. rewrite firstn_length in Hi. rewrite nth_firstn_lt, nth_map_seq by lia. cbn [Nat.add]. apply Hsz. lia.
Qed.

Lemma put_run : forall u, u <= n -> exists first nodes,
  fold_left (put_node mapping) (seq 0 u) (Some (exchange_sum 0 sizes, nodes0)) = Some (first, nodes) /\
  length first = n /\ length nodes = length nodes0 /\
  (forall c, c < n -> nth c first 0 = psum N c + cnt (fun x => nth x mapping 0 =? c) (seq 0 u)) /\
  (forall c j, c < c_n -> j < cnt (fun x => nth x mapping 0 =? c) (seq 0 u) ->
     nth (psum N c + j) nodes 0 = nth j (filter (fun x => nth x mapping 0 =? c) (seq 0 u)) 0).
Proof.
  induction u as [|u IH]; intros Hu.
  - exists (exchange_sum 0 sizes), nodes0. split; [reflexivity|]. split; [rewrite exchange_sum_length; exact Hs|]. split; [reflexivity|]. split.
    + intros c Hc. rewrite first0 by exact Hc. cbn. lia.
    + intros c j _ H. cbn in H. lia.
  - destruct (IH ltac:(lia)) as (first & nodes & E & I1 & I2 & I3 & I4). rewrite seq_snoc, fold_left_app, E. cbn [fold_left Nat.add].
    unfold put_node. assert (Hfu := Hf u ltac:(lia)). unfold f in Hfu. remember (nth u mapping 0) as d eqn:Ed.
    assert (Hlt : forall c, cnt (fun x => nth x mapping 0 =? c) (seq 0 u) + (if d =? c then 1 else 0) <= N c).
    { intros c. unfold N. assert (En : n = S u + (n - S u)) by lia. rewrite En, (seq_app (S u)), cnt_app, cnt_seq_S. cbn [Nat.add]. rewrite <- Ed. lia. }
    assert (Hcs : forall c, cnt (fun x => nth x mapping 0 =? c) (seq 0 u ++ [u]) = cnt (fun x => nth x mapping 0 =? c) (seq 0 u) + (if d =? c then 1 else 0))
      by (intros c; rewrite cnt_app, cnt_cons, cnt_nil, <- Ed; lia).
    rewrite I3 by lia. pose proof (Hlt d) as Hd. rewrite Nat.eqb_refl in Hd. pose proof (psum_S N d) as Hps. pose proof (psum_N_le (S d) ltac:(lia)) as Hpn.
    rewrite I2. rewrite (proj2 (Nat.ltb_lt _ (length nodes0))) by lia.
    eexists. eexists. split; [reflexivity|]. rewrite !upd_length. split; [exact I1|]. split; [exact I2|]. split.
    + intros c Hc. rewrite upd_nth, I1, (proj2 (Nat.ltb_lt d n)) by lia. rewrite andb_true_r, Hcs.
      destruct (Nat.eqb_spec d c) as [<-|]; [lia|]. rewrite I3 by exact Hc. lia.
    + intros c j Hc Hj. rewrite Hcs in Hj.
      rewrite filter_app. cbn [filter]. rewrite <- Ed.
      rewrite upd_nth, I2, (proj2 (Nat.ltb_lt _ (length nodes0))) by lia. rewrite andb_true_r.
      assert (Hlen : forall c, length (filter (fun x => nth x mapping 0 =? c) (seq 0 u)) = cnt (fun x => nth x mapping 0 =? c) (seq 0 u)) by reflexivity.
      destruct (Nat.eqb_spec d c) as [<-|Hne].
      * destruct (Nat.eqb_spec (psum N d + cnt (fun x => nth x mapping 0 =? d) (seq 0 u)) (psum N d + j)) as [Ep|Ep].
        -- rewrite app_nth2 by (rewrite Hlen; lia). rewrite Hlen. replace (j - _) with 0 by lia. reflexivity.
        -- rewrite app_nth1 by (rewrite Hlen; lia). apply I4; lia.
      * rewrite app_nil_r. destruct (Nat.eqb_spec (psum N d + cnt (fun x => nth x mapping 0 =? d) (seq 0 u)) (psum N c + j)) as [Ep|Ep]; [|apply I4; lia].
        exfalso. pose proof (Hlt c) as Hc'. pose proof (psum_S N c) as Hpc.
        destruct (lt_eq_lt_dec d c) as [[L|L]|L]; [|lia|].
        -- pose proof (psum_le N (S d) c ltac:(lia)). lia.
        -- pose proof (psum_le N (S c) d ltac:(lia)). lia.
Qed.

Lemma put_nodes_ok : exists first nodes, put_nodes n mapping sizes nodes0 = Some (first, nodes) /\ length nodes = length nodes0 /\
  firstn n nodes = flat_map (fun c => bkt c) (seq 0 c_n).
Proof.
  destruct (put_run n (le_n n)) as (first & nodes & E & I1 & I2 & I3 & I4). exists first, nodes. split; [exact E|]. split; [exact I2|].
  assert (G : forall k, k <= c_n -> firstn (psum N k) nodes = flat_map (fun c => bkt c) (seq 0 k)).
  { induction k as [|k IH]; intros Hk; [reflexivity|]. rewrite seq_snoc, flat_map_app. rewrite <- IH by lia. cbn [flat_map Nat.add]. rewrite app_nil_r.
    rewrite psum_S. pose proof (psum_N_le (S k) Hk) as Hle. rewrite psum_S in Hle.
    assert (Hl : length (bkt k) = N k) by reflexivity.
    apply (list_ext 0).
    - rewrite app_length, !firstn_length, Hl. lia.
    - intros i Hi. rewrite firstn_length in Hi. rewrite nth_firstn_lt by lia.
      destruct (le_lt_dec (psum N k) i).
      + rewrite app_nth2; rewrite firstn_length; [|lia]. replace (Nat.min (psum N k) (length nodes)) with (psum N k) by lia.
        assert (Hj : i - psum N k < N k) by lia. rewrite <- (I4 k (i - psum N k) ltac:(lia) Hj). f_equal. lia.
      + rewrite app_nth1 by (rewrite firstn_length; lia). rewrite nth_firstn_lt by lia. reflexivity. }
  rewrite <- psum_N_total at 1. apply G. lia.
Qed.
End Place.
