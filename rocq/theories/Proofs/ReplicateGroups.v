(* Copies of a distributed graph for groups of ranks: the case of groups of equal size. *)
From Coq Require Import Sorting.Sorted.
From Verif Require Import Lib.Prelude Model.GridModel Model.MathModel Model.DistGraphModel Model.ReplicateModel Spec.Graph Spec.DistGraphSpec Spec.ReplicateSpec
  Proofs.GridBase Proofs.GridTopo Proofs.ImportProofs Proofs.DistViewProofs Proofs.ExchangeProofs Proofs.DistMetricsProofs Proofs.DistSystemProofs
  Proofs.ReplicateProofs Proofs.ReplicateAll Proofs.ReplicateBest.

Section Even.
Variables (P R Q : nat).
Hypothesis HRp : 0 < R.
Hypothesis HPQ : P = R * Q.

Lemma split_rank r : r = R * (r / R) + r mod R /\ r mod R < R.
Proof. split; [apply Nat.div_mod; lia|apply Nat.mod_upper_bound; lia]. Qed.
Lemma div_lt r : r < P -> r / R < Q.
Proof. intros H. apply Nat.div_lt_upper_bound; lia. Qed.
Lemma div_of q c : c < R -> (q * R + c) / R = q.
Proof. intros H. rewrite Nat.add_comm, Nat.div_add by lia. rewrite Nat.div_small by exact H. lia. Qed.
Lemma mod_of q c : c < R -> (q * R + c) mod R = c.
Proof. intros H. rewrite Nat.add_comm, Nat.mod_add by lia. apply Nat.mod_small. exact H. Qed.
Lemma rank_lt q c : q < Q -> c < R -> q * R + c < P.
Proof. clear - HPQ. intros H1 H2. subst P. assert (S q * R <= Q * R) by (apply Nat.mul_le_mono_r; lia). cbn in H. lia. Qed.
Lemma group_is r : r < P -> group P R r = map (fun q => q * R + r mod R) (seq 0 Q).
Proof.
  intros Hr. unfold group. apply comm_split_is; [auto|apply (sorted_map_seq 1 Nat.lt_0_1); intros i j _ H _; apply Nat.add_lt_mono_r, Nat.mul_lt_mono_pos_r; assumption|]. intros x. rewrite in_map_iff. split.
  - intros (q & <- & Hq). apply in_seq in Hq. destruct (split_rank r) as [_ M]. rewrite mod_of by exact M. split; [apply rank_lt; [lia|exact M]|reflexivity].
  - intros [Hx Hm]. exists (x / R). split; [rewrite <- Hm; destruct (split_rank x); lia|apply in_seq; split; [apply Nat.le_0_l|exact (div_lt x Hx)]].
Qed.
Lemma group_nodup c : NoDup (map (fun q => q * R + c) (seq 0 Q)).
Proof. apply FinFun.Injective_map_NoDup; [intros i j H; apply (Nat.mul_cancel_r i j R); lia|apply seq_NoDup]. Qed.
Lemma new_rank_is r : r < P -> new_rank P R r = r / R.
Proof.
  intros Hr. unfold new_rank. rewrite group_is by exact Hr. pose proof (div_lt r Hr) as Hq.
  assert (E : nth (r / R) (map (fun q => q * R + r mod R) (seq 0 Q)) 0 = r) by (rewrite nth_map_seq by exact Hq; destruct (split_rank r); cbn [Nat.add]; lia).
  pose proof (index_of_nth (map (fun q => q * R + r mod R) (seq 0 Q)) (r / R) (group_nodup _)) as X. rewrite map_length, seq_length, E in X. rewrite X by exact Hq. reflexivity.
Qed.
Lemma new_size_is r : r < P -> new_size P R r = Q.
Proof. intros Hr. unfold new_size. rewrite group_is by exact Hr. rewrite map_length, seq_length. reflexivity. Qed.
Lemma primary_is r : r < P -> primary P R r = seq (R * (r / R)) R.
Proof.
  intros Hr. unfold primary. apply comm_split_is; [auto| |].
  - rewrite <- (map_id (seq _ _)). apply (sorted_map_seq 1 Nat.lt_0_1). intros i j _ H _. exact H.
  - intros x. rewrite in_seq. rewrite (new_rank_is r Hr). pose proof (div_lt r Hr) as Hq. split.
    + intros H. assert (Hx : x < P) by nia. split; [exact Hx|]. rewrite new_rank_is by exact Hx. symmetry. apply (Nat.div_unique x R (r / R) (x - R * (r / R))); lia.
    + intros [Hx E]. rewrite new_rank_is in E by exact Hx. destruct (split_rank x) as [E1 M]. rewrite E in E1. lia.
Qed.
Lemma no_participant r : participant P R r = false.
Proof. unfold participant. rewrite HPQ, Nat.mul_comm, Nat.mod_mul by lia. reflexivity. Qed.
Lemma index_primary r : r < P -> index_of r (primary P R r) = Some (r mod R).
Proof.
  intros Hr. rewrite primary_is by exact Hr. destruct (split_rank r) as [E M]. pose proof (index_of_nth (seq (R * (r / R)) R) (r mod R) (seq_NoDup _ _)) as X. rewrite seq_length, seq_nth, <- E in X by exact M. apply X. exact M.
Qed.

(** Adding an offset to a range. *)
Lemma add_range o mid : forall pre post,
  fold_left (fun acc u => bind acc (fun l => bind (nth_error l u) (fun x => Some (upd u (x + o) l)))) (seq (length pre) (length mid)) (Some (pre ++ mid ++ post)) =
  Some (pre ++ map (fun x => x + o) mid ++ post).
Proof.
  induction mid as [|m t IH]; intros pre post; [reflexivity|]. cbn [length seq fold_left bind]. rewrite nth_error_app2, Nat.sub_diag by lia. cbn [app nth_error bind].
  assert (E : upd (length pre) (m + o) (pre ++ m :: t ++ post) = (pre ++ [m + o]) ++ t ++ post) by (rewrite upd_app_r by lia; rewrite Nat.sub_diag; cbn; rewrite <- app_assoc; reflexivity).
  rewrite E. replace (S (length pre)) with (length (pre ++ [m + o])) by (rewrite app_length; cbn; lia). rewrite IH. cbn [map]. rewrite <- app_assoc. reflexivity.
Qed.

Variables (G : graph) (dist edist : list nat) (d : nat -> dcsr).
Hypothesis HX : distributed P G dist edist d.
Notation ds := (map d (seq 0 P)).
Notation from r := (nth r dist 0).
Notation cnt r := (nth (S r) dist 0 - nth r dist 0).
Notation HD := (x_dist P G dist edist d HX).
Notation HV := (x_lv P G dist edist d HX).
Notation HA := (x_csr P G dist edist d HX).
Notation HN := (x_own P G dist edist d HX).

Definition lo q := from (R * q).
Definition num q := from (R * q + R) - from (R * q).
(** The new distributions. *)
Lemma nd_nth l pe : length l = P + 1 -> pe <= Q -> nth pe (new_distribution P R Q l) 0 = nth (R * pe) l 0.
Proof.
  intros Hl Hp. unfold new_distribution. rewrite nth_map_seq by lia. cbn [Nat.add]. destruct (Nat.eqb_spec pe Q) as [->|Ne]; [rewrite (last_nth l P Hl), HPQ; reflexivity|].
  rewrite Nat.min_r; [reflexivity|]. subst P. apply Nat.mul_le_mono_l. exact Hp.
Qed.
Notation dist' := (new_distribution P R Q dist).
Notation edist' := (new_distribution P R Q edist).
Lemma ld : length dist = P + 1. Proof. apply HD. Qed.
Lemma le_ : length edist = P + 1. Proof. apply (x_edist P G dist edist d HX). Qed.
Lemma nd_lo q : q <= Q -> nth q dist' 0 = lo q.
Proof. intros H. apply nd_nth; [exact ld|exact H]. Qed.
Lemma nd_hi q : q < Q -> nth (S q) dist' 0 = from (R * q + R).
Proof. intros H. rewrite nd_nth by (try exact ld; lia). f_equal. lia. Qed.
Lemma mul_le q : q < Q -> R * q + R <= P.
Proof. intros H. subst P. replace (R * q + R) with (R * S q) by lia. apply Nat.mul_le_mono_l. exact H. Qed.
Lemma nd_distribution : distribution Q (gn G) dist'.
Proof.
  split; [unfold new_distribution; rewrite map_length, seq_length; reflexivity|]. split; [rewrite nd_lo by lia; unfold lo; rewrite Nat.mul_0_r; apply HD|].
  split; [rewrite nd_lo by lia; unfold lo; rewrite <- HPQ; apply HD|]. intros q Hq. rewrite nd_hi, nd_lo by lia. pose proof (mul_le q Hq). apply (from_mono P G dist HD); lia.
Qed.
Lemma num_is q : q < Q -> num q = nth (S q) dist' 0 - nth q dist' 0.
Proof. intros H. rewrite nd_hi, nd_lo by lia. reflexivity. Qed.
Hypothesis HY : weights_everywhere P d.
Lemma members q : q < Q -> members_of ds (seq (R * q) R) = Some (map d (seq (R * q) R)).
Proof. intros Hq. unfold members_of. apply traverse_ok. intros x Hx. apply in_seq in Hx. rewrite nth_error_map_seq by nia. reflexivity. Qed.
Lemma sum_counts a len : a + len <= P -> list_sum (map dn (map d (seq a len))) = from (a + len) - from a.
Proof.
  intros H. rewrite map_map. pose proof (telescope_map P G dist HD (fun u => u) a len H) as T. apply (f_equal (@length nat)) in T. rewrite length_concat, map_map, map_length, seq_length in T. rewrite <- T. f_equal.
  apply map_ext_in. intros r Hr. apply in_seq in Hr. rewrite map_length, seq_length. apply (n_of P G dist d HV). lia.
Qed.
Lemma sum_edges a len : a + len <= P -> list_sum (map (fun d => length (dc_edges d)) (map d (seq a len))) = off G (from a) (from (a + len) - from a).
Proof.
  intros H. rewrite map_map. pose proof (telescope P G dist HD (gadj G) a len H) as T. apply (f_equal (@length _)) in T. rewrite length_concat, map_map in T. fold (off G (from a) (from (a + len) - from a)) in T. rewrite <- T. f_equal.
  apply map_ext_in. intros r Hr. apply in_seq in Hr. apply (m_of P G dist d HV HA). lia.
Qed.
Lemma firstn_map_seq {X} (h : nat -> X) a n i : i <= n -> firstn i (map h (seq a n)) = map h (seq a i).
Proof. intros H. rewrite firstn_map. f_equal. replace n with (i + (n - i)) by lia. rewrite seq_app, firstn_app, seq_length, Nat.sub_diag. cbn [firstn]. rewrite app_nil_r. apply firstn_all2. rewrite seq_length. lia. Qed.
Lemma nth_error_map_from {X} (h : nat -> X) a n i : i < n -> nth_error (map h (seq a n)) i = Some (h (a + i)).
Proof. intros H. rewrite <- (map_shift h a n). rewrite nth_error_map_seq by exact H. reflexivity. Qed.
Lemma disp_n q i : q < Q -> i <= R -> nth_error (displs (map dn (map d (seq (R * q) R)))) i = Some (from (R * q + i) - from (R * q)).
Proof. intros Hq Hi. rewrite displs_nth by (rewrite !map_length, seq_length; exact Hi). rewrite firstn_map, firstn_map_seq, sum_counts by nia. reflexivity. Qed.
Lemma disp_e q i : q < Q -> i <= R -> nth_error (displs (map (fun d => length (dc_edges d)) (map d (seq (R * q) R)))) i = Some (off G (from (R * q)) (from (R * q + i) - from (R * q))).
Proof. intros Hq Hi. rewrite displs_nth by (rewrite !map_length, seq_length; exact Hi). rewrite firstn_map, firstn_map_seq, sum_edges by nia. reflexivity. Qed.
Lemma gather_group {X} (h : nat -> list X) cnts dis rest q junk : q < Q ->
  (forall i, i < R -> nth_error cnts i = Some (length (flat_map h (seq (from (R * q + i)) (cnt (R * q + i))))) /\ nth_error dis i = Some (length (flat_map h (seq (from (R * q)) (from (R * q + i) - from (R * q)))))) ->
  length junk = length (flat_map h (seq (lo q) (num q))) ->
  allgatherv (map (fun r => flat_map h (seq (from r) (cnt r))) (seq (R * q) R)) cnts dis (junk ++ rest) = Some (flat_map h (seq (lo q) (num q)) ++ rest).
Proof. intros Hq H J. apply (gather_pieces P G dist edist HD d HV HA (x_names P G dist edist d HX) (x_edist P G dist edist d HX) HN (proj1 HY) (proj2 HY) h (R * q) R cnts dis rest ltac:(nia) H junk J). Qed.
Lemma gather_group_nodes {X} (h : nat -> X) rest q junk : q < Q -> length junk = num q ->
  allgatherv (map (fun r => map h (seq (from r) (cnt r))) (seq (R * q) R)) (map dn (map d (seq (R * q) R))) (displs (map dn (map d (seq (R * q) R)))) (junk ++ rest) = Some (map h (seq (lo q) (num q)) ++ rest).
Proof.
  intros Hq J. pose proof (gather_group (fun u => [h u]) (map dn (map d (seq (R * q) R))) (displs (map dn (map d (seq (R * q) R)))) rest q junk Hq) as X0. rewrite single in X0. apply X0; [|rewrite map_length, seq_length; exact J].
  intros i Hi. rewrite !single, !map_length, !seq_length, disp_n by lia. split; [|reflexivity]. rewrite map_map, nth_error_map_from by exact Hi. f_equal. apply (n_of P G dist d HV). nia.
Qed.
Lemma gather_group_edges {X} (h : nat * Z -> X) q junk : q < Q -> length junk = off G (lo q) (num q) ->
  allgatherv (map (fun r => flat_map (fun u => map h (gadj G u)) (seq (from r) (cnt r))) (seq (R * q) R)) (map (fun d => length (dc_edges d)) (map d (seq (R * q) R)))
    (displs (map (fun d => length (dc_edges d)) (map d (seq (R * q) R)))) junk = Some (flat_map (fun u => map h (gadj G u)) (seq (lo q) (num q))).
Proof.
  intros Hq J. pose proof (gather_group (fun u => map h (gadj G u)) (map (fun d => length (dc_edges d)) (map d (seq (R * q) R))) (displs (map (fun d => length (dc_edges d)) (map d (seq (R * q) R)))) [] q junk Hq) as X0.
  rewrite !app_nil_r in X0. apply X0; [|rewrite off_map; exact J].
  intros i Hi. rewrite !off_map, disp_e by lia. split; [|reflexivity]. rewrite map_map, nth_error_map_from by exact Hi. f_equal. apply (m_of P G dist d HV HA). nia.
Qed.
Notation wnb := (wn P d).
Notation web := (we P d).

(** The loop that shifts the nodes. *)
Definition pieces q a len := flat_map (fun r => map (off G (from r)) (seq 0 (cnt r))) (seq (R * q + a) len).
Lemma shift_group q p : q < Q -> p <= R ->
  fold_left (fun acc p => bind acc (fun nodes =>
          bind (nth_error (displs (map (fun d => length (dc_edges d)) (map d (seq (R * q) R)))) p) (fun o =>
          bind (nth_error (displs (map dn (map d (seq (R * q) R)))) p) (fun a => bind (nth_error (displs (map dn (map d (seq (R * q) R)))) (p + 1)) (fun b =>
          fold_left (fun acc u => bind acc (fun l => bind (nth_error l u) (fun x => Some (upd u (x + o) l)))) (seq a (b - a)) (Some nodes))))))
    (seq 0 p) (Some (pieces q 0 R)) = Some (map (off G (lo q)) (seq 0 (from (R * q + p) - lo q)) ++ pieces q p (R - p)).
Proof.
  intros Hq. unfold lo. induction p as [|p IH]; intros Hp; [rewrite Nat.add_0_r, !Nat.sub_diag, Nat.sub_0_r; reflexivity|].
  rewrite seq_S, fold_left_app, IH by lia. cbn [fold_left bind Nat.add]. rewrite disp_e, !disp_n by lia. cbn [bind].
  pose proof (from_mono P G dist HD (R * q) (R * q + p) ltac:(lia) ltac:(nia)) as M1. pose proof (from_mono P G dist HD (R * q + p) (S (R * q + p)) ltac:(lia) ltac:(nia)) as M2.
  replace (R * q + (p + 1)) with (S (R * q + p)) by lia. replace (R * q + S p) with (S (R * q + p)) by lia.
  set (A := from (R * q)) in *. set (B := from (R * q + p)) in *. set (C := from (S (R * q + p))) in *.
  replace (C - A - (B - A)) with (C - B) by lia.
  assert (E : pieces q p (R - p) = map (off G B) (seq 0 (C - B)) ++ pieces q (S p) (R - S p)).
  { unfold pieces. replace (R - p) with (S (R - S p)) by lia. cbn [seq flat_map]. replace (R * q + S p) with (S (R * q + p)) by lia. reflexivity. }
  rewrite E. pose proof (add_range (off G A (B - A)) (map (off G B) (seq 0 (C - B))) (map (off G A) (seq 0 (B - A))) (pieces q (S p) (R - S p))) as X0. rewrite !map_length, !seq_length in X0. rewrite X0. f_equal.
  replace (C - A) with ((B - A) + (C - B)) by lia. rewrite seq_app, map_app, <- app_assoc. f_equal. f_equal. cbn [Nat.add]. rewrite <- (map_shift (off G A) (B - A)). rewrite map_map. apply map_ext. intros i. rewrite off_add. replace (A + (B - A)) with B by lia. lia.
Qed.
Lemma flatten_pieces q : concat (map (fun r => map (off G (from r)) (seq 0 (cnt r))) (seq (R * q) R)) = pieces q 0 R.
Proof. unfold pieces. rewrite flat_map_concat_map, Nat.add_0_r. reflexivity. Qed.

Lemma primary_data_ok r : r < P -> primary_data P R ds r = Some (map (off G (lo (r / R))) (seq 0 (num (r / R))), c_edges G (lo (r / R)) (num (r / R)), c_ew G web (lo (r / R)) (num (r / R))).
Proof.
  intros Hr. unfold primary_data. rewrite primary_is by exact Hr. pose proof (div_lt r Hr) as Hq. set (q := r / R) in *. rewrite members by exact Hq. cbn [bind].
  rewrite (traverse_of_map (fun d => slice (dc_nodes d) 0 (dn d))), (traverse_of_map (fun d => global_edges d (repeat 0 (length (dc_edges d))))).
  rewrite (traverse_ok _ (fun r => map (off G (from r)) (seq 0 (cnt r)))) by (intros x Hx; apply in_seq in Hx; rewrite <- (n_of P G dist d HV) by nia; apply (rk_slice P G); [nia|apply HV; nia|apply HA; nia]). cbn [bind].
  rewrite (traverse_ok _ (fun r => flat_map (fun u => map fst (gadj G u)) (seq (from r) (cnt r)))) by (intros x Hx; apply in_seq in Hx; rewrite <- (n_of P G dist d HV) by nia; apply (rk_edges P G); [nia|apply HV; nia|apply HA; nia]). cbn [bind].
  rewrite sum_counts, sum_edges by nia. fold (num q). fold (lo q).
  rewrite (map_ext_in (fun r => map (off G (from r)) (seq 0 (cnt r))) (fun r => map (local_off G dist) (seq (from r) (cnt r)))) by (intros x Hx; apply in_seq in Hx; apply (local_nodes P G dist edist HD d HV HA (x_names P G dist edist d HX) (x_edist P G dist edist d HX) HN (proj1 HY) (proj2 HY)); nia).
  rewrite <- (app_nil_r (repeat 0 (num q))). rewrite gather_group_nodes by (try exact Hq; apply repeat_length). cbn [bind]. rewrite app_nil_r.
  rewrite gather_group_edges by (try exact Hq; apply repeat_length). cbn [bind]. fold (web).
  assert (M : (if web then bind (traverse (fun d => slice (dc_ew d) 0 (length (dc_edges d))) (map d (seq (R * q) R))) (fun p => allgatherv p (map (fun d => length (dc_edges d)) (map d (seq (R * q) R))) (displs (map (fun d => length (dc_edges d)) (map d (seq (R * q) R)))) (repeat 0%Z (off G (lo q) (num q)))) else Some []) = Some (c_ew G web (lo q) (num q))).
  { pose proof (flags P G dist edist d HV HA (x_names P G dist edist d HX) (x_edist P G dist edist d HX) HN (proj1 HY) (proj2 HY) dc_ew) as F. fold web in F. destruct web; [|reflexivity]. rewrite traverse_of_map. rewrite (traverse_ok _ (fun r => flat_map (fun u => map snd (gadj G u)) (seq (from r) (cnt r)))).
    - cbn [bind]. apply gather_group_edges; [exact Hq|apply repeat_length].
    - intros x Hx. apply in_seq in Hx. rewrite <- (n_of P G dist d HV) by nia. apply (rk_ew P G); [nia|apply HV; nia|apply HA; nia|]. destruct (proj2 HY F x ltac:(nia)) as [W|W]; [left; exact W|right]. rewrite (n_of P G dist d HV) by nia. rewrite <- (m_of P G dist d HV HA) by nia. rewrite W. reflexivity. }
  rewrite M. cbn [bind]. rewrite map_length, seq_length.
  assert (N0 : map (local_off G dist) (seq (lo q) (num q)) = pieces q 0 R).
  { unfold lo, num. rewrite <- (telescope_map P G dist HD) by nia. rewrite <- flatten_pieces. f_equal. apply map_ext_in. intros x Hx. apply in_seq in Hx. symmetry. apply (local_nodes P G dist edist HD d HV HA (x_names P G dist edist d HX) (x_edist P G dist edist d HX) HN (proj1 HY) (proj2 HY)). nia. }
  rewrite N0, (shift_group q R Hq (le_n _)). cbn [bind]. rewrite Nat.sub_diag. unfold pieces. cbn [seq flat_map]. rewrite app_nil_r. reflexivity.
Qed.

Lemma ne_nth q : q <= Q -> nth q edist' 0 = off G 0 (lo q).
Proof.
  intros H. rewrite nd_nth by (try exact le_; exact H). unfold lo. apply (edist_off P G dist edist HD d HV HA (x_names P G dist edist d HX) (x_edist P G dist edist d HX) HN (proj1 HY) (proj2 HY)). subst P. apply Nat.mul_le_mono_l. exact H.
Qed.
Lemma num_le q : q < Q -> lo q + num q <= gn G.
Proof.
  intros H. pose proof (mul_le q H) as M. pose proof (from_mono P G dist HD (R * q) (R * q + R) ltac:(lia) M). pose proof (from_last P G dist HD (R * q + R) M). unfold lo, num. lia.
Qed.
Lemma unit_n q : q < Q -> wnb = false -> forall u, u < num q -> gvw G (lo q + u) = 1%Z.
Proof. intros Hq E u Hu. pose proof (num_le q Hq). apply (unit_nodes P G dist edist HD d HV HA (x_names P G dist edist d HX) (x_edist P G dist edist d HX) HN (proj1 HY) (proj2 HY) E). lia. Qed.
Lemma unit_e q : q < Q -> web = false -> forall u v w, u < num q -> In (v, w) (gadj G (lo q + u)) -> w = 1%Z.
Proof. intros Hq E u v w Hu. pose proof (num_le q Hq). apply (unit_edges P G dist edist HD d HV HA (x_names P G dist edist d HX) (x_edist P G dist edist d HX) HN (proj1 HY) (proj2 HY) E). lia. Qed.
Lemma new_arrays q : q < Q -> rank_arrays G dist' q (c_nodes G (lo q) (num q)) (c_edges G (lo q) (num q)) (c_nw G wnb (lo q) (num q)) (c_ew G web (lo q) (num q)).
Proof.
  intros Hq. unfold rank_arrays. rewrite <- num_is, nd_lo by lia. assert (L : length (c_nodes G (lo q) (num q)) = num q + 1) by (unfold c_nodes; rewrite map_length, seq_length; reflexivity).
  split; [exact L|]. split; [rewrite c_nth by lia; reflexivity|]. split; [intros i Hi; rewrite !c_nth by lia; apply off_mono; lia|].
  split; [rewrite c_nth by lia; unfold c_edges; rewrite off_map; reflexivity|].
  split; [destruct wnb; [right|left; reflexivity]; cbn [c_nw]; rewrite map_length, seq_length; reflexivity|].
  split; [destruct web; [right|left; reflexivity]; cbn [c_ew]; unfold c_edges; rewrite !off_map; reflexivity|].
  intros u Hu. destruct (canonical G wnb web (lo q) (num q) (unit_n q Hq) (unit_e q Hq) u Hu) as [E1 E2]. split; symmetry; assumption.
Qed.

Lemma zsum_cons x l : zsum (x :: l) = (x + zsum l)%Z.
Proof. reflexivity. Qed.
Lemma fit_exists : exists bits, weights_fit bits G.
Proof.
  assert (Zs : forall l x, In x l -> (Z.abs x <= zsum (map Z.abs l))%Z).
  { induction l as [|y t IH]; intros x Hx; [destruct Hx|]. rewrite map_cons, zsum_cons. pose proof (Z.abs_nonneg y).
    assert (N : (0 <= zsum (map Z.abs t))%Z) by (clear; induction t as [|z t IH]; [reflexivity|rewrite map_cons, zsum_cons; lia]).
    destruct Hx as [->|Hx]; [lia|]. specialize (IH x Hx). lia. }
  set (all := flat_map (fun u => gvw G u :: map snd (gadj G u)) (seq 0 (gn G))). set (b := zsum (map Z.abs all)).
  assert (B0 : (0 <= b)%Z) by (unfold b; generalize all; intros l; induction l as [|z t IH]; [reflexivity|rewrite map_cons, zsum_cons; lia]).
  assert (Pw : (b < 2 ^ (b + 1))%Z) by (pose proof (Z.pow_gt_lin_r 2 (b + 1) ltac:(lia) ltac:(lia)); lia).
  exists (b + 2)%Z. split; [lia|]. replace (b + 2 - 1)%Z with (b + 1)%Z by lia.
  assert (F : forall x, In x all -> (- 2 ^ (b + 1) <= x < 2 ^ (b + 1))%Z) by (intros x Hx; specialize (Zs all x Hx); fold b in Zs; lia).
  intros u Hu. split; [apply F, in_flat_map; exists u; split; [apply in_seq; lia|left; reflexivity]|].
  intros v w Hin. apply F, in_flat_map. exists u. split; [apply in_seq; lia|right]. apply (in_map snd _ (v, w)). exact Hin.
Qed.
Lemma narrow_fit bits l : weights_fit bits G -> (forall x, In x l -> exists u v, u < gn G /\ In (v, x) (gadj G u)) -> map (narrow bits) l = l.
Proof.
  intros (B & F) H. rewrite <- (map_id l) at 2. apply map_ext_in. intros x Hx. destruct (H x Hx) as (u & v & Hu & Hin). destruct (F u Hu) as [_ W]. apply narrow_fits; [exact B|]. apply (W v x Hin).
Qed.

Lemma all_data_ok wg wl r : r < P -> all_data P R ds wg wl r = Some (map (off G (lo (r / R))) (seq 0 (num (r / R))), c_edges G (lo (r / R)) (num (r / R)), c_ew G web (lo (r / R)) (num (r / R))).
Proof. intros Hr. unfold all_data. rewrite primary_data_ok by exact Hr. cbn [bind]. rewrite no_participant. reflexivity. Qed.
Lemma new_from_ok r : r < P -> new_from P R r (d r) (map d (seq (R * (r / R)) R)) = Some (lo (r / R)).
Proof.
  intros Hr. unfold new_from. rewrite index_primary by exact Hr. cbn [bind]. destruct (x_names P G dist edist d HX r Hr) as [-> _]. pose proof ld as Ld. rewrite (nth_error_nth' dist 0) by lia. cbn [bind].
  pose proof (div_lt r Hr) as Hq. destruct (split_rank r) as [E M]. rewrite disp_n by (try exact Hq; apply Nat.lt_le_incl; exact M). cbn [bind]. rewrite <- E. f_equal. unfold lo.
  assert (from (R * (r / R)) <= from r); [|lia]. apply (from_mono P G dist HD); [|apply Nat.lt_le_incl; exact Hr]. rewrite E at 2. apply Nat.le_add_r.
Qed.
Lemma new_weights_ok r k : r < P -> new_weights P R ds r k = Some (if wnb then map (gvw G) (seq (lo (r / R)) (num (r / R))) ++ repeat 0%Z k else []).
Proof.
  intros Hr. unfold new_weights. fold wnb. pose proof (flags P G dist edist d HV HA (x_names P G dist edist d HX) (x_edist P G dist edist d HX) HN (proj1 HY) (proj2 HY) dc_nw) as F. fold wnb in F.
  destruct wnb; [|reflexivity]. rewrite primary_is by exact Hr. pose proof (div_lt r Hr) as Hq. set (q := r / R) in *. rewrite members by exact Hq. cbn [bind]. rewrite traverse_of_map.
  pose proof (mul_le q Hq) as M. rewrite (traverse_ok _ (fun r => map (gvw G) (seq (from r) (cnt r)))).
  - cbn [bind]. rewrite sum_counts by exact M. fold (num q). rewrite repeat_app. rewrite gather_group_nodes by (try exact Hq; apply repeat_length). reflexivity.
  - intros x Hx. apply in_seq in Hx. rewrite <- (n_of P G dist d HV) by lia. apply (rk_nw P G); [lia|intros u Hu; apply HN; lia|apply (proj1 HY F); lia].
Qed.

Lemma outcome_ok wg wl r d' : closed_graph G -> r < P -> replicate_outcome P R ds wg wl r d' ->
  let q := r / R in
  local_view G dist' q (dn d') (dghost_n d') (dlocal_to_global d') (dglobal_to_local d') (dghost_owner d') (dcontains d') (dadj d') /\
  (forall u, u < dn d' -> dnode_weight (dc_nw d') u = Some (gvw G (nth q dist' 0 + u))) /\
  dc_rank d' = q /\ dc_dist d' = dist' /\ dc_edist d' = edist' /\ dc_nodes d' = c_nodes G (lo q) (num q) /\ length (dc_edges d') = off G (lo q) (num q) /\ dc_ew d' = c_ew G web (lo q) (num q) /\
  (wnb = true -> length (dc_nw d') = dn d' + dghost_n d') /\ (wnb = false -> dc_nw d' = []).
Proof.
  intros HC Hr O q. assert (Eq : r / R = q) by reflexivity. clearbody q. destruct O as (d0 & ms & data & n0 & junk & sched & s & order & gh & nw & E1 & E2 & E3 & E4 & J & Run & Fin & Ord & Fz & Nw & ->).
  pose proof (div_lt r Hr) as Hq. rewrite Eq in Hq. rewrite nth_error_map_seq in E1 by exact Hr. injection E1 as <-. cbn [Nat.add] in *.
  rewrite primary_is, Eq in E2 by exact Hr. rewrite members in E2 by exact Hq. injection E2 as <-. rewrite all_data_ok, Eq in E3 by exact Hr. injection E3 as <-. rewrite <- Eq in E4. rewrite new_from_ok, Eq in E4 by exact Hr. injection E4 as <-.
  cbn [fst snd] in *. destruct (x_names P G dist edist d HX r Hr) as [Ed Ee]. rewrite Ed, Ee in *. rewrite (new_size_is r Hr) in *. rewrite (new_rank_is r Hr), Eq in *.
  rewrite map_length, seq_length in Run. rewrite nd_hi in Run, Fz by exact Hq. rewrite nd_lo in Run, Fz by lia.
  assert (Eh : lo q + num q = from (R * q + R)) by (pose proof (mul_le q Hq); pose proof (from_mono P G dist HD (R * q) (R * q + R) ltac:(lia) ltac:(lia)); unfold lo, num; lia).
  rewrite Eh in Run. rewrite new_weights_ok in Nw by exact Hr. rewrite Eq in Nw. injection Nw as <-.
  destruct fit_exists as (bits & Fit).
  destruct (import_view Q G dist' q (c_nodes G (lo q) (num q)) (c_edges G (lo q) (num q)) (c_nw G wnb (lo q) (num q)) (c_ew G web (lo q) (num q)) bits nd_distribution Hq (new_arrays q Hq) Fit HC junk sched s J) with (order := order) (fresh := fun _ : nat => 0%Z) (edist := edist') as (di & Ei & V & _).
  { rewrite nd_hi, nd_lo by lia. exact Run. } { exact Fin. } { exact Ord. }
  unfold import_graph in Ei. assert (Ld' : length dist' = Q + 1) by apply nd_distribution. rewrite !(nth_error_nth' dist' 0) in Ei by lia. cbn [bind] in Ei. replace (q + 1) with (S q) in Ei by lia.
  assert (Lc : length (c_nodes G (lo q) (num q)) = num q + 1) by (unfold c_nodes; rewrite map_length, seq_length; reflexivity).
  rewrite <- num_is in Ei by exact Hq. rewrite (nth_error_nth' _ 0) in Ei by lia. cbn [bind] in Ei. unfold slice in Ei at 1. rewrite Lc, Nat.leb_refl in Ei. cbn [bind skipn] in Ei. rewrite firstn_all2 in Ei by lia.
  rewrite c_nth in Ei by lia. assert (Lw : web = true -> length (c_ew G web (lo q) (num q)) = off G (lo q) (num q)) by (intros ->; cbn [c_ew]; apply off_map).
  assert (Ew : (match c_ew G web (lo q) (num q) with [] => Some [] | _ :: _ => slice (c_ew G web (lo q) (num q)) 0 (off G (lo q) (num q)) end) = Some (c_ew G web (lo q) (num q))).
  { destruct (c_ew G web (lo q) (num q)) as [|w0 ws] eqn:Ec; [reflexivity|]. assert (Eb : web = true) by (destruct web; [reflexivity|discriminate Ec]). specialize (Lw Eb). unfold slice. rewrite (proj2 (Nat.leb_le _ _)) by lia. cbn [skipn]. rewrite <- Lw, firstn_all. reflexivity. }
  rewrite Ew in Ei. cbn [bind] in Ei.
  match type of Ei with bind ?t _ = _ => destruct t as [nw0|] eqn:En; [|discriminate] end. cbn [bind] in Ei.
  assert (En' : num q = from (R * q + R) - lo q) by reflexivity. rewrite En' in Ei at 1. rewrite Fz in Ei. cbn [bind] in Ei. injection Ei as <-.
  rewrite (narrow_fit bits) in V.
  2: exact Fit.
  2: { intros x Hx. destruct web; [|destruct Hx]. cbn [c_ew] in Hx. apply in_flat_map in Hx. destruct Hx as (u & Hu & Hx). apply in_seq in Hu. apply in_map_iff in Hx. destruct Hx as ([v w] & <- & Hin). exists u, v. split; [pose proof (num_le q Hq); lia|exact Hin]. }
  assert (Nodes : map (off G (lo q)) (seq 0 (num q)) ++ [length (c_edges G (lo q) (num q))] = c_nodes G (lo q) (num q)).
  { unfold c_nodes, c_edges. rewrite off_map, seq_app, map_app. reflexivity. }
  rewrite Nodes. cbn [dc_rank dc_dist dc_edist dc_nodes dc_edges dc_nw dc_ew].
  split; [exact V|]. split; [|split; [reflexivity|split; [reflexivity|split; [reflexivity|split; [reflexivity|split; [|split; [reflexivity|split]]]]]]].
  - unfold dn. cbn [dc_nodes]. rewrite Lc. intros u Hu. rewrite nd_lo by lia. pose proof (unit_n q Hq) as Un. destruct wnb.
    + unfold dnode_weight. destruct (map (gvw G) (seq (lo q) (num q)) ++ _) as [|y ys] eqn:Ey.
      * apply app_eq_nil in Ey. destruct Ey as [Ey _]. apply (f_equal (@length _)) in Ey. rewrite map_length, seq_length in Ey. cbn in Ey. lia.
      * rewrite <- Ey. rewrite nth_error_app1 by (rewrite map_length, seq_length; lia). rewrite nth_error_map_from by lia. reflexivity.
    + cbn [dnode_weight]. rewrite Un by (try reflexivity; lia). reflexivity.
  - destruct (import_result (nth q dist' 0) (nth (S q) dist' 0) (c_edges G (lo q) (num q)) junk sched s J) as (_ & Le & _); [rewrite nd_hi, nd_lo by lia; exact Run|exact Fin|]. rewrite Le. unfold c_edges. apply off_map.
  - intros ->. rewrite app_length, map_length, seq_length, repeat_length. unfold dn, dghost_n. cbn [dc_nodes dc_ghosts]. rewrite Lc. lia.
  - intros ->. reflexivity.
Qed.
End Even.
