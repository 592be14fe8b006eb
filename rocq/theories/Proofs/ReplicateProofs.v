(* Gathering the arrays of the ranks. *)
From Verif Require Import Lib.Prelude Model.GridModel Model.DistGraphModel Model.ReplicateModel Spec.Graph Spec.DistGraphSpec
  Proofs.GridBase Proofs.ImportProofs Proofs.DistViewProofs Proofs.ExchangeProofs Proofs.DistMetricsProofs.

Lemma flat_map_seq_split {A} (h : nat -> list A) a n m : flat_map h (seq a (n + m)) = flat_map h (seq a n) ++ flat_map h (seq (a + n) m).
Proof. rewrite seq_app, flat_map_app. reflexivity. Qed.
Lemma flat_map_shift {A} (h : nat -> list A) a n : flat_map (fun u => h (a + u)) (seq 0 n) = flat_map h (seq a n).
Proof. revert a. induction n as [|n IH]; intros a; [reflexivity|]. cbn [seq flat_map]. f_equal; [f_equal; lia|]. rewrite <- (IH (S a)). rewrite <- seq_shift, flat_map_concat_map, map_map, <- flat_map_concat_map. apply flat_map_ext. intros x. f_equal. lia. Qed.
Lemma map_shift {A} (h : nat -> A) a n : map (fun u => h (a + u)) (seq 0 n) = map h (seq a n).
Proof. revert a. induction n as [|n IH]; intros a; [reflexivity|]. cbn [seq map]. f_equal; [f_equal; lia|]. rewrite <- (IH (S a)). rewrite <- seq_shift, map_map. apply map_ext. intros x. f_equal. lia. Qed.
Lemma traverse_length {A B} (f : A -> option B) l r : traverse f l = Some r -> length r = length l.
Proof. revert r. induction l as [|x t IH]; intros r; cbn [traverse]; [intros [= <-]; reflexivity|]. destruct (f x); [|discriminate]. cbn [bind]. destruct (traverse f t); [|discriminate]. cbn [bind]. intros [= <-]. cbn [length]. f_equal. apply IH. reflexivity. Qed.

Lemma nth_error_skipn {A} (l : list A) a i : nth_error (skipn a l) i = nth_error l (a + i).
Proof. revert l. induction a as [|a IH]; intros [|x l]; cbn; [reflexivity|reflexivity|destruct i; reflexivity|apply IH]. Qed.

Lemma store_all_ok vs : forall pre junk post, length junk = length vs -> store_all (length pre) vs (pre ++ junk ++ post) = Some (pre ++ vs ++ post).
Proof.
  induction vs as [|v t IH]; intros pre junk post H; [destruct junk; [reflexivity|discriminate]|]. destruct junk as [|x junk]; [discriminate|]. cbn [store_all].
  rewrite store_ok by (rewrite app_length; cbn [length app]; rewrite app_length; lia). cbn [bind].
  assert (E : upd (length pre) v (pre ++ (x :: junk) ++ post) = (pre ++ [v]) ++ junk ++ post).
  { rewrite upd_app_r by lia. rewrite Nat.sub_diag. cbn. rewrite <- app_assoc. reflexivity. }
  rewrite E. replace (S (length pre)) with (length (pre ++ [v])) by (rewrite app_length; cbn [length]; lia). rewrite IH by (cbn in H; lia). rewrite <- app_assoc. reflexivity.
Qed.

(** Everybody's pieces one after the other. *)
Lemma allgatherv_ok {X} (pieces : list (list X)) cnts dis buf : (forall r, r < length pieces -> nth_error cnts r = Some (length (nth r pieces [])) /\ nth_error dis r = Some (length (concat (firstn r pieces)))) ->
  length (concat pieces) <= length buf -> allgatherv pieces cnts dis buf = Some (concat pieces ++ skipn (length (concat pieces)) buf).
Proof.
  intros H L. unfold allgatherv.
  assert (Q : forall n, n <= length pieces -> fold_left (fun acc r => bind acc (fun b => bind (nth_error pieces r) (fun p => bind (nth_error cnts r) (fun c => bind (nth_error dis r) (fun s => if length p =? c then put b s p else None)))))
    (seq 0 n) (Some buf) = Some (concat (firstn n pieces) ++ skipn (length (concat (firstn n pieces))) buf)).
  { induction n as [|n IH]; intros Hn; [reflexivity|]. rewrite seq_S, fold_left_app, IH by lia. cbn [fold_left Nat.add bind]. destruct (H n ltac:(lia)) as [Hc Hd].
    rewrite (nth_error_nth' pieces []) by lia. cbn [bind]. rewrite Hc, Hd. cbn [bind]. rewrite Nat.eqb_refl.
    assert (E : firstn (S n) pieces = firstn n pieces ++ [nth n pieces []]).
    { clear - Hn. revert n Hn. induction pieces as [|x t IHt]; intros [|n] Hn; cbn in *; try lia; [reflexivity|]. f_equal. apply IHt. lia. }
    assert (T : concat pieces = concat (firstn (S n) pieces) ++ concat (skipn (S n) pieces)) by (rewrite <- concat_app, firstn_skipn; reflexivity).
    rewrite T, app_length, E, concat_app, app_length in L. cbn [concat] in L. rewrite app_nil_r in L.
    rewrite put_next by (rewrite skipn_length; lia). rewrite E, concat_app. cbn [concat]. rewrite app_nil_r. f_equal. f_equal. rewrite app_length, skipn_skipn'. reflexivity. }
  specialize (Q (length pieces) (le_n _)). rewrite firstn_all in Q. exact Q.
Qed.

Section Whole.
Variables (P : nat) (G : graph) (dist : list nat).
Hypothesis HD : distribution P (gn G) dist.
Notation from r := (nth r dist 0).
Notation cnt r := (nth (S r) dist 0 - nth r dist 0).

(** The number of edges of the [i] nodes from [f] on. *)
Definition off (f i : nat) : nat := length (flat_map (gadj G) (seq f i)).
Lemma off_S f i : off f (S i) = off f i + length (gadj G (f + i)).
Proof. unfold off. rewrite seq_S, flat_map_app, app_length. cbn [flat_map]. rewrite app_nil_r. reflexivity. Qed.
Lemma off_add f i j : off f (i + j) = off f i + off (f + i) j.
Proof. unfold off. rewrite flat_map_seq_split, app_length. reflexivity. Qed.
Lemma off_map {A} (h : nat * Z -> A) f i : length (flat_map (fun u => map h (gadj G u)) (seq f i)) = off f i.
Proof. unfold off. rewrite !flat_map_concat_map, !length_concat, !map_map. f_equal. apply map_ext. intros u. apply map_length. Qed.

Lemma from_mono r q : r <= q -> q <= P -> from r <= from q.
Proof. intros H. induction H as [|q H IH]; intros Hq; [lia|]. destruct HD as (_ & _ & _ & M). specialize (M q ltac:(lia)). specialize (IH ltac:(lia)). lia. Qed.
Lemma from_last r : r <= P -> from r <= gn G.
Proof. intros Hr. pose proof (from_mono r P Hr (le_n _)). destruct HD as (_ & _ & E & _). lia. Qed.

(** What consecutive ranks have is what their nodes have together. *)
Lemma telescope {A} (h : nat -> list A) a len : a + len <= P ->
  concat (map (fun r => flat_map h (seq (from r) (cnt r))) (seq a len)) = flat_map h (seq (from a) (from (a + len) - from a)).
Proof.
  induction len as [|len IH]; intros H; [rewrite Nat.add_0_r, Nat.sub_diag; reflexivity|]. rewrite seq_S, map_app, concat_app, IH by lia. cbn [map concat]. rewrite app_nil_r.
  pose proof (from_mono a (a + len) ltac:(lia) ltac:(lia)). pose proof (from_mono (a + len) (S (a + len)) ltac:(lia) ltac:(lia)).
  replace (a + S len) with (S (a + len)) by lia. replace (from (S (a + len)) - from a) with ((from (a + len) - from a) + cnt (a + len)) by lia. rewrite flat_map_seq_split. f_equal. f_equal. f_equal. lia.
Qed.
Lemma telescope_map {A} (h : nat -> A) a len : a + len <= P ->
  concat (map (fun r => map h (seq (from r) (cnt r))) (seq a len)) = map h (seq (from a) (from (a + len) - from a)).
Proof.
  intros H. pose proof (telescope (fun u => [h u]) a len H) as T.
  assert (F : forall l, flat_map (fun u => [h u]) l = map h l) by (induction l as [|x t IHl]; cbn; [reflexivity|rewrite IHl; reflexivity]).
  rewrite F in T. rewrite <- T. reflexivity.
Qed.

(** The arrays of one rank. *)
Definition csr_arrays (d : dcsr) : Prop :=
  0 < length (dc_nodes d) /\ nth 0 (dc_nodes d) 0 = 0 /\ (forall i, i < dn d -> nth i (dc_nodes d) 0 <= nth (S i) (dc_nodes d) 0) /\
  nth (dn d) (dc_nodes d) 0 = length (dc_edges d) /\ (dc_ew d = [] \/ length (dc_ew d) = length (dc_edges d)).

Section Rank.
Variables (r : nat) (d : dcsr).
Hypothesis Hr : r < P.
Hypothesis HV : local_view G dist r (dn d) (dghost_n d) (dlocal_to_global d) (dglobal_to_local d) (dghost_owner d) (dcontains d) (dadj d).
Hypothesis HA : csr_arrays d.

Lemma rk_n : dn d = cnt r.
Proof. exact (proj1 HV). Qed.
Lemma rk_row u : u < dn d -> exists nbs, dadj d u = Some nbs /\ traverse (fun x => dlocal_to_global d (fst x)) nbs = Some (map fst (gadj G (from r + u))) /\
  map snd nbs = map snd (gadj G (from r + u)) /\ nth (S u) (dc_nodes d) 0 = nth u (dc_nodes d) 0 + length (gadj G (from r + u)).
Proof.
  intros Hu. destruct HV as (_ & _ & _ & _ & _ & _ & _ & V8). destruct (V8 u Hu) as (nbs & E & M). exists nbs. split; [exact E|].
  assert (L : length nbs = length (gadj G (from r + u))) by (rewrite <- (map_length (fun e => (dlocal_to_global d (fst e), snd e)) nbs), M, map_length; reflexivity).
  split; [|split].
  - clear E L. revert M. generalize (gadj G (from r + u)). induction nbs as [|x t IH]; intros [|y l] M; try discriminate; [reflexivity|]. cbn [map] in M. injection M as E1 E2 M.
    cbn [traverse]. rewrite E1. cbn [bind]. rewrite (IH l M). reflexivity.
  - clear E L. revert M. generalize (gadj G (from r + u)). induction nbs as [|x t IH]; intros [|y l] M; try discriminate; [reflexivity|]. cbn [map] in M. injection M as E1 E2 M. cbn [map]. f_equal; [exact E2|apply IH; exact M].
  - unfold dadj in E. destruct HA as (A0 & A1 & A2 & A3 & A4). assert (Ln : length (dc_nodes d) = dn d + 1) by (unfold dn; lia).
    rewrite (nth_error_nth' (dc_nodes d) 0) in E by lia. cbn [bind] in E. rewrite (nth_error_nth' (dc_nodes d) 0) in E by lia. cbn [bind] in E. apply traverse_length in E. rewrite seq_length in E.
    replace (u + 1) with (S u) in E by lia. specialize (A2 u Hu). lia.
Qed.
Lemma rk_off i : i <= dn d -> nth i (dc_nodes d) 0 = off (from r) i.
Proof.
  induction i as [|i IH]; intros Hi; [destruct HA as (_ & A1 & _); exact A1|]. destruct (rk_row i ltac:(lia)) as (nbs & _ & _ & _ & E). rewrite E, IH, off_S by lia. reflexivity.
Qed.
Lemma rk_m : length (dc_edges d) = off (from r) (dn d).
Proof. destruct HA as (_ & _ & _ & E & _). rewrite <- E. apply rk_off. lia. Qed.
Lemma rk_nodes : dc_nodes d = map (off (from r)) (seq 0 (dn d + 1)).
Proof.
  destruct HA as (A0 & _). assert (Ln : length (dc_nodes d) = dn d + 1) by (unfold dn; lia). apply (nth_ext _ _ 0 (off (from r) 0)); [rewrite map_length, seq_length; exact Ln|].
  intros i Hi. rewrite (map_nth (off (from r))), seq_nth by lia. apply rk_off. lia.
Qed.
Lemma rk_slice : slice (dc_nodes d) 0 (dn d) = Some (map (off (from r)) (seq 0 (dn d))).
Proof.
  unfold slice. assert (Ln : length (dc_nodes d) = dn d + 1) by (destruct HA as (A0 & _); unfold dn; lia). rewrite (proj2 (Nat.leb_le _ _)) by lia. cbn [skipn]. rewrite rk_nodes, seq_app, map_app.
  rewrite firstn_app, map_length, seq_length, Nat.sub_diag. cbn [firstn]. rewrite app_nil_r, firstn_all2 by (rewrite map_length, seq_length; lia). reflexivity.
Qed.
Lemma rk_edges : global_edges d (repeat 0 (length (dc_edges d))) = Some (flat_map (fun u => map fst (gadj G u)) (seq (from r) (dn d))).
Proof.
  unfold global_edges. set (h := fun u => map fst (gadj G u)).
  assert (Q : forall n, n <= dn d -> fold_left (fun acc u => bind acc (global_row d u)) (seq 0 n) (Some (repeat 0 (length (dc_edges d)))) =
    Some (flat_map h (seq (from r) n) ++ repeat 0 (length (dc_edges d) - off (from r) n))).
  { induction n as [|n IH]; intros Hn; [cbn; rewrite Nat.sub_0_r; reflexivity|]. rewrite seq_S, fold_left_app, IH by lia. cbn [fold_left Nat.add bind]. unfold global_row.
    assert (Ln : length (dc_nodes d) = dn d + 1) by (destruct HA as (A0 & _); unfold dn; lia). rewrite (nth_error_nth' (dc_nodes d) 0) by lia. cbn [bind].
    destruct (rk_row n ltac:(lia)) as (nbs & E & T & _ & _). rewrite E. cbn [bind]. rewrite T. cbn [bind]. rewrite rk_off by lia. rewrite <- (off_map fst (from r) n). fold h.
    assert (B : off (from r) (S n) <= length (dc_edges d)).
    { rewrite rk_m. replace (dn d) with (S n + (dn d - S n)) by lia. rewrite off_add. lia. }
    rewrite off_S in B.
    replace (length (dc_edges d) - length (flat_map h (seq (from r) n))) with (length (h (from r + n)) + (length (dc_edges d) - off (from r) (S n))).
    2: { unfold h at 2. rewrite (off_map fst), off_S. unfold h. rewrite map_length. lia. }
    rewrite repeat_app. rewrite store_all_ok by apply repeat_length. f_equal. rewrite seq_S, flat_map_app. cbn [flat_map]. rewrite app_nil_r, <- app_assoc. reflexivity. }
  rewrite Q by lia. rewrite rk_m, Nat.sub_diag. cbn [repeat]. rewrite app_nil_r. reflexivity.
Qed.
Lemma rk_weight u e : u < dn d -> e < length (gadj G (from r + u)) ->
  match dc_ew d with [] => Some 1%Z | _ => nth_error (dc_ew d) (off (from r) u + e) end = Some (snd (nth e (gadj G (from r + u)) (0, 0%Z))).
Proof.
  intros Hu He. destruct (rk_row u Hu) as (nbs & E & _ & S & _). unfold dadj in E.
  assert (Ln : length (dc_nodes d) = dn d + 1) by (destruct HA as (A0 & _); unfold dn; lia).
  rewrite (nth_error_nth' (dc_nodes d) 0) in E by lia. cbn [bind] in E. rewrite (nth_error_nth' (dc_nodes d) 0) in E by lia. cbn [bind] in E. replace (u + 1) with (Datatypes.S u) in E by lia.
  rewrite !rk_off, off_S in E by lia. replace (off (from r) u + length (gadj G (from r + u)) - off (from r) u) with (length (gadj G (from r + u))) in E by lia.
  assert (N : nth_error nbs e = dedge d (off (from r) u + e)).
  { pose proof (traverse_length _ _ _ E) as L. rewrite seq_length in L. clear S. revert e He nbs E L. generalize (off (from r) u). induction (length (gadj G (from r + u))) as [|n IH]; intros o e He nbs E L; [lia|]. cbn [seq traverse] in E.
    destruct (dedge d o) as [x|] eqn:Ed; [|discriminate]. cbn [bind] in E. destruct (traverse (dedge d) (seq (Datatypes.S o) n)) as [l|] eqn:El; [|discriminate]. cbn [bind] in E. injection E as <-. destruct e as [|e]; [cbn [nth_error]; rewrite Nat.add_0_r, Ed; reflexivity|]. cbn [nth_error].
    replace (o + Datatypes.S e) with (Datatypes.S o + e) by lia. apply (IH (Datatypes.S o) e ltac:(lia) l El). cbn [length] in L. lia. }
  assert (Sn : nth_error (map snd nbs) e = Some (snd (nth e (gadj G (from r + u)) (0, 0%Z)))).
  { rewrite S, nth_error_map, (nth_error_nth' _ (0, 0%Z)) by exact He. reflexivity. }
  rewrite nth_error_map, N in Sn. unfold dedge in Sn. destruct (nth_error (dc_edges d) (off (from r) u + e)); [|discriminate]. cbn [bind] in Sn.
  destruct (dc_ew d) as [|w0 ws]; [cbn in Sn; exact Sn|]. destruct (nth_error (w0 :: ws) (off (from r) u + e)); [|discriminate]. cbn in Sn. exact Sn.
Qed.
Lemma rk_ew : dc_ew d <> [] \/ off (from r) (dn d) = 0 -> slice (dc_ew d) 0 (length (dc_edges d)) = Some (flat_map (fun u => map snd (gadj G u)) (seq (from r) (dn d))).
Proof.
  intros Hw. destruct HA as (_ & _ & _ & _ & A4). unfold slice. rewrite rk_m.
  destruct (nil_dec (dc_ew d)) as [En|En].
  - destruct Hw as [Hw|Hw]; [contradiction|]. rewrite Hw. cbn. f_equal. symmetry. apply length_zero_iff_nil. rewrite (off_map snd). exact Hw.
  - destruct A4 as [A4|A4]; [contradiction|]. rewrite rk_m in A4. rewrite (proj2 (Nat.leb_le _ _)) by lia. cbn [skipn]. rewrite <- A4 at 1. rewrite firstn_all. f_equal.
    assert (Q : forall n, n <= dn d -> firstn (off (from r) n) (dc_ew d) = flat_map (fun u => map snd (gadj G u)) (seq (from r) n)).
    { induction n as [|n IH]; intros Hn; [reflexivity|]. rewrite seq_S, flat_map_app, off_S. cbn [flat_map]. rewrite app_nil_r, <- IH by lia.
      rewrite <- (firstn_skipn (off (from r) n) (dc_ew d)) at 1. rewrite firstn_app.
      assert (Lo : off (from r) (S n) <= length (dc_ew d)) by (rewrite A4; replace (dn d) with (S n + (dn d - S n)) by lia; rewrite off_add; lia). rewrite off_S in Lo.
      rewrite firstn_length, Nat.min_l by lia. rewrite firstn_all2 by (rewrite firstn_length; lia). f_equal.
      replace (off (from r) n + length (gadj G (from r + n)) - off (from r) n) with (length (gadj G (from r + n))) by lia.
      rewrite (firstn_of_nth _ _ (fun e => snd (nth e (gadj G (from r + n)) (0, 0%Z)))).
      - rewrite <- (map_map (fun e => nth e (gadj G (from r + n)) (0, 0%Z)) snd), map_nth_seq. reflexivity.
      - intros e He. rewrite nth_error_skipn. pose proof (rk_weight n e ltac:(lia) He) as W. destruct (dc_ew d); [contradiction|exact W]. }
    specialize (Q (dn d) (le_n _)). rewrite <- A4, firstn_all in Q. exact Q.
Qed.
Lemma rk_unit : dc_ew d = [] -> forall u v w, u < dn d -> In (v, w) (gadj G (from r + u)) -> w = 1%Z.
Proof.
  intros E u v w Hu Hin. apply (In_nth _ _ (0, 0%Z)) in Hin. destruct Hin as (e & He & En). pose proof (rk_weight u e Hu He) as W. rewrite E in W. rewrite En in W. cbn in W. congruence.
Qed.
Lemma rk_nw : (forall u, u < dn d -> dnode_weight (dc_nw d) u = Some (gvw G (from r + u))) -> dc_nw d <> [] \/ dn d = 0 ->
  slice (dc_nw d) 0 (dn d) = Some (map (gvw G) (seq (from r) (dn d))).
Proof.
  intros Hw Hn. unfold slice. destruct (nil_dec (dc_nw d)) as [En|En].
  - destruct Hn as [Hn|Hn]; [contradiction|]. rewrite Hn. reflexivity.
  - assert (Q : forall u, u < dn d -> nth_error (dc_nw d) u = Some (gvw G (from r + u))) by (intros u Hu; specialize (Hw u Hu); destruct (dc_nw d); [contradiction|exact Hw]).
    assert (L : dn d <= length (dc_nw d)). { destruct (Nat.le_gt_cases (dn d) (length (dc_nw d))) as [|C]; [assumption|]. assert (X : nth_error (dc_nw d) (length (dc_nw d)) <> None) by (rewrite (Q _ C); discriminate). apply nth_error_Some in X. lia. }
    rewrite (proj2 (Nat.leb_le _ _)) by lia. cbn [skipn]. rewrite (firstn_of_nth _ _ _ Q), map_shift. reflexivity.
Qed.
End Rank.
End Whole.
