From Verif Require Import Lib.Prelude Model.MathModel.
Local Open Scope N_scope.

Lemma div_ceil_spec x y : 0 < y -> y * (div_ceil x y) >= x /\ (forall z, y * z >= x -> div_ceil x y <= z).
Proof.
  intros Hy. unfold div_ceil. split.
  - pose proof (N.div_mod x y ltac:(lia)) as D. pose proof (N.mod_lt x y ltac:(lia)) as M.
    revert D M. generalize (x / y) (x mod y). intros q r D M.
    destruct (N.eqb_spec r 0); lia.
  - intros z Hz. destruct (N.eqb_spec (x mod y) 0) as [E|E].
    + rewrite N.add_0_r. apply N.div_le_upper_bound; lia.
    + assert (x / y < z); [|lia]. apply N.div_lt_upper_bound; [lia|].
      destruct (N.eq_dec x (y*z)) as [->|]; [|lia].
      rewrite N.mul_comm, N.mod_mul in E; lia.
Qed.

Lemma size_log2 x : x <> 0 -> N.size x = N.log2 x + 1.
Proof. intros. rewrite N.size_log2; lia. Qed.

Lemma log2_lt_w x w : x <> 0 -> x < 2 ^ w -> N.log2 x < w.
Proof. intros Hx H. apply N.log2_lt_pow2; lia. Qed.

Lemma floor_log2_some w x : 0 < x -> x < 2 ^ w -> floor_log2 w x = Some (N.log2 x).
Proof.
  intros Hx Hw. unfold floor_log2, clz. destruct (N.eqb_spec x 0); [lia|].
  rewrite size_log2 by lia. pose proof (log2_lt_w x w). f_equal. lia.
Qed.

Lemma land_pred_pow2_iff x : 0 < x -> (N.land x (N.pred x) = 0 <-> x = 2 ^ N.log2 x).
Proof.
  intros Hx. pose proof (N.log2_spec x Hx) as [Hl Hu].
  set (l := N.log2 x) in *.
  split.
  - intros H. destruct (N.eq_dec x (2 ^ l)) as [E|E]; auto. exfalso.
    assert (N.testbit x l = true) as B1 by (apply N.bit_log2; lia).
    assert (N.log2 (N.pred x) = l) as L2.
    { apply N.log2_unique; lia. }
    assert (N.testbit (N.pred x) l = true) as B2.
    { rewrite <- L2. apply N.bit_log2. intros Z0.
      assert (x = 1) by lia. subst x. unfold l in E. simpl in E. lia. }
    assert (N.testbit (N.land x (N.pred x)) l = true) as B.
    { rewrite N.land_spec, B1, B2; auto. }
    rewrite H, N.bits_0 in B. discriminate.
  - intros E. rewrite E. apply N.bits_inj_0. intros i. rewrite N.land_spec.
    rewrite N.pow2_bits_eqb. destruct (N.eqb_spec l i) as [->|Hne]; auto.
    rewrite <- N.ones_equiv. rewrite N.ones_spec_high; auto. lia.
Qed.

Lemma is_power_of_2_spec x : is_power_of_2 x = true <-> exists e, x = 2 ^ e.
Proof.
  unfold is_power_of_2. destruct (N.eqb_spec x 0) as [->|Hx]; simpl.
  - split; [discriminate|]. intros [e He]. pose proof (N.pow_nonzero 2 e). lia.
  - rewrite N.eqb_eq. rewrite land_pred_pow2_iff by lia. split.
    + intros E. eauto.
    + intros [e ->]. rewrite N.log2_pow2; lia.
Qed.

Lemma ceil_log2_some w x : 0 < x -> x < 2 ^ w -> ceil_log2 w x = Some (N.log2_up x).
Proof.
  intros Hx Hw. unfold ceil_log2. rewrite floor_log2_some by auto.
  f_equal. pose proof (land_pred_pow2_iff x Hx) as I.
  destruct (N.eqb_spec (N.land x (N.pred x)) 0) as [E|E].
  - apply I in E. rewrite E at 2. rewrite N.log2_up_pow2; lia.
  - pose proof (N.log2_spec x Hx) as [Hl Hu].
    assert (2 ^ N.log2 x < x).
    { destruct (N.eq_dec x (2 ^ N.log2 x)) as [E2|]; [apply I in E2; lia|lia]. }
    symmetry. apply N.log2_up_unique; try lia.
    replace (N.pred (N.log2 x + 1 - 0)) with (N.log2 x) by lia.
    replace (N.log2 x + 1 - 0) with (N.succ (N.log2 x)) by lia. lia.
Qed.

Lemma int_one_shl_32 s : s < 32 -> int_one_shl 32 s = Some (2 ^ s).
Proof.
  intros H. unfold int_one_shl. destruct (N.ltb_spec s 31) as [H31|H31].
  - rewrite N.mod_small; auto. apply N.pow_lt_mono_r; lia.
  - assert (s = 31) by lia. subst. reflexivity.
Qed.

Lemma floor2_32_some x : 0 < x -> x < 2 ^ 32 -> floor2 32 x = Some (2 ^ N.log2 x).
Proof.
  intros Hx Hw. unfold floor2. rewrite floor_log2_some by auto.
  apply int_one_shl_32. apply log2_lt_w; lia.
Qed.

Lemma log2_up_le_pow x e : 0 < x -> x <= 2 ^ e -> N.log2_up x <= e.
Proof. intros. apply N.log2_up_le_pow2; auto. Qed.

Lemma ceil2_32_some x : 0 < x -> x <= 2 ^ 31 -> ceil2 32 x = Some (2 ^ N.log2_up x).
Proof.
  intros Hx Hw. unfold ceil2. rewrite ceil_log2_some; [|lia|].
  - apply int_one_shl_32. pose proof (log2_up_le_pow x 31 Hx Hw). lia.
  - eapply N.le_lt_trans; [exact Hw|]. reflexivity.
Qed.

Lemma log2_up_covers x : 0 < x -> x <= 2 ^ N.log2_up x.
Proof. intros H. destruct (N.eq_dec x 1) as [->|]; [reflexivity|]. apply N.log2_up_spec; lia. Qed.

Lemma byte_width_spec i : i < 256 ^ byte_width i /\ forall b, 1 <= b -> i < 256 ^ b -> byte_width i <= b.
Proof.
  unfold byte_width. destruct (N.eqb_spec i 0) as [->|Hi].
  - split; [reflexivity|]. lia.
  - pose proof (div_ceil_spec (N.size i) 8 ltac:(lia)) as [H1 H2]. split.
    + replace 256 with (2 ^ 8) by reflexivity. rewrite <- N.pow_mul_r.
      eapply N.lt_le_trans; [|apply N.pow_le_mono_r with (b := N.size i); lia].
      rewrite size_log2 by auto. rewrite N.add_1_r. apply N.log2_spec; lia.
    + intros b Hb H. apply H2. rewrite size_log2 by auto.
      replace 256 with (2 ^ 8) in H by reflexivity. rewrite <- N.pow_mul_r in H.
      apply N.log2_lt_pow2 in H; lia.
Qed.

Lemma split_integral_spec v :
  let (a, b) := split_integral v in a + b = v /\ b <= a /\ a <= b + 1.
Proof. unfold split_integral. repeat split; dlia. Qed.

(** ** Local ranges *)
Lemma rank_chunk_le n size rank : 0 < size -> rank <= size ->
  rank * (n / size) + N.min rank (n mod size) <= n.
Proof.
  intros Hs Hr. pose proof (N.div_mod n size ltac:(lia)) as D.
  assert (rank * (n / size) <= size * (n / size)) by (apply N.mul_le_mono_r; lia). lia.
Qed.

Definition lr_from (n size rank : N) : N := rank * (n / size) + N.min rank (n mod size).

Lemma lr_unfold n size rank : 0 < size -> rank < size ->
  compute_local_range n size rank = (lr_from n size rank, lr_from n size (rank + 1)).
Proof.
  intros Hs Hr. unfold compute_local_range. fold (lr_from n size rank). f_equal.
  pose proof (rank_chunk_le n size (rank + 1) Hs ltac:(lia)) as Hle.
  fold (lr_from n size (rank + 1)) in Hle.
  assert (lr_from n size rank + (if rank <? n mod size then n / size + 1 else n / size)
          = lr_from n size (rank + 1)) as E.
  { unfold lr_from. generalize (n / size) (n mod size). intros c m.
    destruct (N.ltb_spec rank m); lia. }
  rewrite E. lia.
Qed.

Lemma lr_from_0 n size : lr_from n size 0 = 0.
Proof. unfold lr_from. lia. Qed.

Lemma lr_from_size n size : 0 < size -> lr_from n size size = n.
Proof.
  intros Hs. unfold lr_from. pose proof (N.div_mod n size ltac:(lia)).
  pose proof (N.mod_lt n size ltac:(lia)). lia.
Qed.

Lemma lr_from_step n size r :
  lr_from n size (r + 1) = lr_from n size r + n / size
  \/ lr_from n size (r + 1) = lr_from n size r + n / size + 1.
Proof. unfold lr_from. generalize (n / size) (n mod size). intros c m. lia. Qed.

Lemma lr_from_mono n size r1 r2 : r1 <= r2 -> lr_from n size r1 <= lr_from n size r2.
Proof. unfold lr_from. generalize (n / size) (n mod size). intros c m H.
       assert (r1 * c <= r2 * c) by (apply N.mul_le_mono_r; auto). lia. Qed.

Lemma wsub_small w a b : b <= a -> a < 2 ^ w -> wsub w a b = a - b.
Proof.
  intros H1 H2. unfold wsub.
  replace (a + 2 ^ w - b) with (a - b + 1 * 2 ^ w) by lia.
  rewrite N.mod_add by (apply N.pow_nonzero; lia). apply N.mod_small. lia.
Qed.

Lemma rank_of_element w n size e :
  0 < size -> n < 2 ^ w -> e < n ->
  let r := compute_local_range_rank w n size e in
  r < size /\ lr_from n size r <= e < lr_from n size (r + 1).
Proof.
  intros Hs Hw He. unfold compute_local_range_rank.
  pose proof (N.div_mod n size ltac:(lia)) as D.
  pose proof (N.mod_lt n size ltac:(lia)) as M.
  destruct (N.leb_spec n size) as [Hns|Hns].
  - cbn zeta. split; [lia|]. unfold lr_from.
    destruct (N.eq_dec n size) as [->|Hne].
    + rewrite N.div_same, N.mod_same by lia. lia.
    + rewrite N.div_small, N.mod_small by lia. lia.
  - set (c := n / size) in *. set (m := n mod size) in *.
    assert (0 < c) as Hc.
    { unfold c. apply N.div_str_pos. lia. }
    unfold lr_from. fold c m.
    assert (forall r, r < m -> e / (c+1) = r -> r < size /\ r * c + N.min r m <= e < (r + 1) * c + N.min (r + 1) m) as G1.
    { intros r Hr E. pose proof (N.div_mod e (c+1) ltac:(lia)) as D1.
      pose proof (N.mod_lt e (c+1) ltac:(lia)) as M1. rewrite E in D1.
      split; [lia|]. rewrite !N.min_l by lia. lia. }
    assert (forall r, m <= e -> m <= r -> (e - m) / c = r -> r < size /\ r * c + N.min r m <= e < (r + 1) * c + N.min (r + 1) m) as G2.
    { intros r Hm Hr E. pose proof (N.div_mod (e-m) c ltac:(lia)) as D1.
      pose proof (N.mod_lt (e-m) c ltac:(lia)) as M1. rewrite E in D1.
      split; [|rewrite !N.min_r by lia; lia].
      apply N.mul_lt_mono_pos_l with (p := c); lia. }
    cbn zeta. destruct (N.ltb_spec e m) as [Hem|Hem]; simpl.
    + apply G1; auto. apply N.le_lt_trans with e; auto.
      apply N.div_le_upper_bound; [lia|]. rewrite N.mul_add_distr_r. lia.
    + rewrite wsub_small by lia.
      destruct (N.ltb_spec ((e - m) / c) m) as [Hq|Hq].
      * apply G1; auto. apply N.div_lt_upper_bound; [lia|].
        pose proof (N.div_mod (e-m) c ltac:(lia)) as D1.
        pose proof (N.mod_lt (e-m) c ltac:(lia)) as M1.
        assert (c * ((e - m) / c) + c <= c * m).
        { rewrite <- N.mul_succ_r. apply N.mul_le_mono_l. lia. }
        lia.
      * apply G2; auto.
Qed.

Lemma local_range_rank_iff w n size e r :
  0 < size -> n < 2 ^ w -> e < n ->
  (compute_local_range_rank w n size e = r <->
   r < size /\ fst (compute_local_range n size r) <= e < snd (compute_local_range n size r)).
Proof.
  intros Hs Hw He. pose proof (rank_of_element w n size e Hs Hw He) as [H1 H2].
  cbn zeta in *. split.
  - intros <-. split; auto. rewrite lr_unfold by auto. exact H2.
  - intros [Hr H]. rewrite lr_unfold in H by auto. simpl in H.
    set (r' := compute_local_range_rank w n size e) in *.
    destruct (N.lt_trichotomy r r') as [L|[E|L]]; auto; exfalso.
    + pose proof (lr_from_mono n size (r + 1) r' ltac:(lia)). lia.
    + pose proof (lr_from_mono n size (r' + 1) r ltac:(lia)). lia.
Qed.

Lemma local_ranges_tile n size :
  0 < size ->
  fst (compute_local_range n size 0) = 0 /\
  snd (compute_local_range n size (size - 1)) = n /\
  (forall r, r + 1 < size ->
     snd (compute_local_range n size r) = fst (compute_local_range n size (r + 1))) /\
  (forall r, r < size ->
     let (from, to) := compute_local_range n size r in
     from <= to /\ (to - from = n / size \/ to - from = n / size + 1)).
Proof.
  intros Hs. split; [|split; [|split]].
  - rewrite lr_unfold by lia. apply lr_from_0.
  - rewrite lr_unfold by lia. simpl. replace (size - 1 + 1) with size by lia.
    apply lr_from_size; auto.
  - intros r Hr. rewrite !lr_unfold by lia. reflexivity.
  - intros r Hr. rewrite lr_unfold by lia. destruct (lr_from_step n size r) as [E|E]; rewrite E;
      generalize (lr_from n size r) (n / size); intros; (split; [lia|]); [left|right]; lia.
Qed.

Lemma find_in_distribution_spec value d :
  (forall i j, (i <= j < length d)%nat -> nth i d 0 <= nth j d 0) ->
  (1 <= length d)%nat -> nth 0 d 0 <= value < last d 0 ->
  let i := find_in_distribution value d in
  (S i < length d)%nat /\ nth i d 0 <= value < nth (S i) d 0.
Proof.
  intros Hs Hl [H0 Hlast]. unfold find_in_distribution.
  destruct d as [|x t]; simpl in Hl; [lia|]. simpl tl. simpl in H0.
  replace (1 + upper_bound value t - 1)%nat with (upper_bound value t) by lia.
  assert (forall t y, y <= value -> value < last (y :: t) 0 ->
     (S (upper_bound value t) < length (y :: t))%nat /\
     nth (upper_bound value t) (y :: t) 0 <= value < nth (S (upper_bound value t)) (y :: t) 0) as G.
  { clear. induction t as [|z t IH]; intros y Hy Hlast; simpl upper_bound.
    - simpl in Hlast. lia.
    - destruct (N.ltb_spec value z); simpl.
      + split; [lia|]. lia.
      + specialize (IH z H). assert (value < last (z :: t) 0) as L by exact Hlast.
        specialize (IH L). simpl in IH. split; [lia|]. apply IH. }
  cbn zeta. apply G; auto.
Qed.

(** ** Round robin *)
Lemma round_robin_witness :
  distribute_round_robin 64 4 3 1 = 2 /\ distribute_round_robin 64 4 3 3 = 2.
Proof. vm_compute. auto. Qed.

Lemma square_from q s r : 0 < s -> lr_from (q * (s * s)) s r = r * (q * s).
Proof.
  intros Hs. unfold lr_from. replace (q * (s * s)) with (q * s * s) by lia.
  rewrite N.div_mul, N.mod_mul by lia. lia.
Qed.

Lemma round_robin_square w q s e :
  0 < s -> q * (s * s) < 2 ^ w -> e < q * (s * s) ->
  let o := e / (q * s) in let l := e mod (q * s) in
  distribute_round_robin w (q * (s * s)) s e = (l mod s) * (q * s) + (l / s) * s + o
  /\ o < s /\ l < q * s.
Proof.
  intros Hs Hw He. cbn zeta.
  pose proof (rank_of_element w _ s e Hs Hw He) as [H1 H2]. cbn zeta in *.
  unfold distribute_round_robin.
  set (o := compute_local_range_rank w (q * (s * s)) s e) in *. clearbody o.
  rewrite (lr_unfold (q * (s * s)) s o) by auto. cbn [fst].
  rewrite !square_from in * by auto.
  assert (0 < q) as Hq by (destruct (N.eq_dec q 0) as [->|]; lia).
  assert (0 < q * s) as Hqs by (apply N.mul_pos_pos; lia).
  assert (o = e / (q * s)) as Eo.
  { apply N.div_unique with (r := e - o * (q * s)); lia. }
  assert (e - o * (q * s) = e mod (q * s)) as El.
  { apply N.mod_unique with (q := o); lia. }
  rewrite El, <- Eo.
  pose proof (N.mod_lt e (q * s) ltac:(lia)).
  rewrite lr_unfold by (auto; apply N.mod_lt; lia). cbn [fst]. rewrite square_from by auto.
  auto.
Qed.

Lemma round_robin_square_inj w q s e1 e2 :
  0 < s -> q * (s * s) < 2 ^ w -> e1 < q * (s * s) -> e2 < q * (s * s) ->
  distribute_round_robin w (q * (s * s)) s e1 = distribute_round_robin w (q * (s * s)) s e2 ->
  e1 = e2.
Proof.
  intros Hs Hw H1 H2 E.
  pose proof (round_robin_square w q s e1 Hs Hw H1) as (E1 & O1 & L1).
  pose proof (round_robin_square w q s e2 Hs Hw H2) as (E2 & O2 & L2).
  cbn zeta in *. rewrite E1, E2 in E. clear E1 E2.
  assert (0 < q) as Hq by (destruct (N.eq_dec q 0) as [->|]; lia).
  assert (0 < q * s) as Hqs by (apply N.mul_pos_pos; lia).
  assert (e1 = (q * s) * (e1 / (q * s)) + e1 mod (q * s)) as D1 by (apply N.div_mod; lia).
  assert (e2 = (q * s) * (e2 / (q * s)) + e2 mod (q * s)) as D2 by (apply N.div_mod; lia).
  set (o1 := e1 / (q * s)) in *. set (o2 := e2 / (q * s)) in *.
  set (l1 := e1 mod (q * s)) in *. set (l2 := e2 mod (q * s)) in *.
  clearbody o1 o2 l1 l2.
  assert (l1 = s * (l1 / s) + l1 mod s) as F1 by (apply N.div_mod; lia).
  assert (l2 = s * (l2 / s) + l2 mod s) as F2 by (apply N.div_mod; lia).
  assert (l1 / s < q) as G1 by (apply N.div_lt_upper_bound; lia).
  assert (l2 / s < q) as G2 by (apply N.div_lt_upper_bound; lia).
  set (a1 := l1 / s) in *. set (a2 := l2 / s) in *.
  set (b1 := l1 mod s) in *. set (b2 := l2 mod s) in *. clearbody a1 a2 b1 b2.
  assert (forall b a o, a < q -> o < s -> (b * (q * s) + a * s + o) / s = b * q + a) as K1.
  { intros. symmetry. apply N.div_unique with (r := o); lia. }
  assert (forall b a o, a < q -> o < s -> (b * (q * s) + a * s + o) mod s = o) as K2.
  { intros. symmetry. apply N.mod_unique with (q := b * q + a); lia. }
  assert (o1 = o2) by (rewrite <- (K2 b1 a1 o1), <- (K2 b2 a2 o2) by auto; rewrite E; auto).
  assert (b1 * q + a1 = b2 * q + a2) as E3
    by (rewrite <- (K1 b1 a1 o1), <- (K1 b2 a2 o2) by auto; rewrite E; auto).
  assert (forall b a, a < q -> (b * q + a) / q = b) as K3.
  { intros. symmetry. apply N.div_unique with (r := a); lia. }
  assert (b1 = b2) by (rewrite <- (K3 b1 a1), <- (K3 b2 a2) by auto; rewrite E3; auto).
  subst. lia.
Qed.

Lemma round_robin_square_range w q s e :
  0 < s -> q * (s * s) < 2 ^ w -> e < q * (s * s) ->
  distribute_round_robin w (q * (s * s)) s e < q * (s * s).
Proof.
  intros Hs Hw He.
  pose proof (round_robin_square w q s e Hs Hw He) as (E & O & L). cbn zeta in *.
  rewrite E. clear E.
  set (o := e / (q * s)) in *. set (l := e mod (q * s)) in *. clearbody o l.
  assert (0 < q) as Hq by (destruct (N.eq_dec q 0) as [->|]; lia).
  assert (l = s * (l / s) + l mod s) as F1 by (apply N.div_mod; lia).
  assert (l / s < q) as G1 by (apply N.div_lt_upper_bound; lia).
  pose proof (N.mod_lt l s ltac:(lia)) as M.
  set (a := l / s) in *. set (b := l mod s) in *. clearbody a b.
  assert (a * s + s <= q * s) by (rewrite <- N.mul_succ_l; apply N.mul_le_mono_r; lia).
  assert ((b + 1) * (q * s) <= s * (q * s)) by (apply N.mul_le_mono_r; lia). lia.
Qed.

(** ** Grid positions and degree buckets *)
Lemma grid_decode_encode row col c : col < c ->
  decode_grid_position (encode_grid_position row col c) c = (row, col).
Proof.
  intros H. unfold decode_grid_position, encode_grid_position. f_equal.
  - symmetry. apply N.div_unique with (r := col); lia.
  - symmetry. apply N.mod_unique with (q := row); lia.
Qed.

Lemma grid_encode_decode pos c : 0 < c ->
  let (row, col) := decode_grid_position pos c in
  encode_grid_position row col c = pos /\ col < c.
Proof.
  intros H. unfold decode_grid_position, encode_grid_position.
  pose proof (N.div_mod pos c ltac:(lia)). pose proof (N.mod_lt pos c ltac:(lia)). split; lia.
Qed.

Lemma degree_bucket_spec d :
  d < 2 ^ 30 ->
  exists b lo hi, degree_bucket 32 d = Some b /\ lowest_degree_in_bucket b = Some lo
    /\ lowest_degree_in_bucket (b + 1) = Some hi /\ (d = 0 /\ b = 0 \/ lo <= d < hi /\ b > 0).
Proof.
  intros H. unfold degree_bucket. destruct (N.eqb_spec d 0) as [->|Hd].
  - exists 0, 0, 1. repeat split; auto.
  - rewrite floor_log2_some; [|lia|eapply N.lt_trans; [exact H|reflexivity]].
    pose proof (N.log2_spec d ltac:(lia)) as [H1 H2].
    assert (N.log2 d < 30) as L by (apply N.log2_lt_pow2; lia).
    assert (forall l, l <= 30 -> lowest_degree_in_bucket (l + 1) = Some (2 ^ l)) as G.
    { intros l Hl. unfold lowest_degree_in_bucket. destruct (N.ltb_spec (l + 1) 32); [|lia].
      rewrite N.mod_small by (apply N.pow_lt_mono_r; lia).
      rewrite N.add_1_r, N.pow_succ_r'. rewrite N.mul_comm, N.div_mul by lia. auto. }
    exists (N.log2 d + 1), (2 ^ N.log2 d), (2 ^ (N.log2 d + 1)).
    split; [reflexivity|]. split; [apply G; lia|]. split; [apply G; lia|].
    right. rewrite N.add_1_r. lia.
Qed.

Lemma pow2_rounding_64_witness :
  (exists x, 0 < x < 2 ^ 64 /\ floor2 64 x <> Some (2 ^ N.log2 x) /\ floor2 64 x <> None) /\
  (exists x, 0 < x < 2 ^ 64 /\ floor2 64 x = None) /\
  (exists x, 0 < x < 2 ^ 32 /\ ceil2 32 x = None).
Proof.
  split; [|split].
  - exists 2147483648. vm_compute. repeat split; discriminate.
  - exists 4294967296. vm_compute. repeat split.
  - exists 2147483649. vm_compute. repeat split.
Qed.

Lemma round_robin_collision :
  exists n size e1 e2, 0 < size /\ e1 < n /\ e2 < n /\ e1 <> e2 /\
    distribute_round_robin 64 n size e1 = distribute_round_robin 64 n size e2.
Proof. exists 4, 3, 1, 3. vm_compute. repeat split; discriminate. Qed.

Lemma floor_log2_bounds w x : 0 < x -> x < 2 ^ w ->
  exists l, floor_log2 w x = Some l /\ 2 ^ l <= x < 2 ^ (l + 1).
Proof.
  intros H1 H2. exists (N.log2 x). split; [apply floor_log2_some; auto|].
  rewrite N.add_1_r. apply N.log2_spec; auto.
Qed.

Lemma ceil_log2_bounds w x : 0 < x -> x < 2 ^ w ->
  exists c, ceil_log2 w x = Some c /\ x <= 2 ^ c /\ forall e, x <= 2 ^ e -> c <= e.
Proof.
  intros H1 H2. exists (N.log2_up x). split; [apply ceil_log2_some; auto|].
  split; [apply log2_up_covers; auto|]. intros; apply log2_up_le_pow; auto.
Qed.

Lemma round_robin_square_perm w q s :
  0 < s -> q * (s * s) < 2 ^ w ->
  (forall e, e < q * (s * s) -> distribute_round_robin w (q * (s * s)) s e < q * (s * s)) /\
  (forall e1 e2, e1 < q * (s * s) -> e2 < q * (s * s) ->
     distribute_round_robin w (q * (s * s)) s e1 = distribute_round_robin w (q * (s * s)) s e2 ->
     e1 = e2).
Proof.
  intros H1 H2; split.
  - intros; apply round_robin_square_range; auto.
  - intros; eapply round_robin_square_inj; eauto.
Qed.
