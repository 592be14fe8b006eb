(* The arrays of one rank after reordering. *)
From Verif Require Import Lib.Prelude Lib.Count Model.GridModel Model.CsrModel Model.PermModel Model.DistGraphModel Model.RearrangeModel
  Spec.Graph Proofs.CsrProofs Proofs.PermProofs Proofs.DistMetricsProofs Proofs.ReplicateProofs.

Lemma traverse_fun {A B} (f : A -> option B) (g : A -> B) l : (forall x, In x l -> f x = Some (g x)) -> traverse f l = Some (map g l).
Proof.
  induction l as [|a t IH]; intros H; [reflexivity|]. cbn [traverse map]. rewrite (H a (or_introl eq_refl)). cbn [bind].
  rewrite IH by (intros x Hx; apply H; right; exact Hx). reflexivity.
Qed.
Lemma monotone_le (l : list nat) n : (forall i, i < n -> nth i l 0 <= nth (S i) l 0) -> forall i j, i <= j -> j <= n -> nth i l 0 <= nth j l 0.
Proof. intros M i j Hij. induction Hij as [|j Hij IH]; intros Hj; [lia|]. specialize (M j ltac:(lia)). specialize (IH ltac:(lia)). lia. Qed.

(** The neighbours of a node, read from the arrays. *)
Definition weight_at (ew : list Z) (e : nat) : Z := match ew with [] => 1%Z | _ => nth e ew 0%Z end.
Definition row_at (nodes edges : list nat) (ew : list Z) (u : nat) : list (nat * Z) :=
  map (fun e => (nth e edges 0, weight_at ew e)) (seq (nth u nodes 0) (nth (S u) nodes 0 - nth u nodes 0)).
Lemma dadj_row d u : csr_arrays d -> u < dn d -> dadj d u = Some (row_at (dc_nodes d) (dc_edges d) (dc_ew d) u).
Proof.
  intros (A0 & A1 & A2 & A3 & A4) Hu. unfold dadj. unfold dn in Hu.
  rewrite (nth_error_nth' (dc_nodes d) 0 (n := u)) by lia. rewrite (nth_error_nth' (dc_nodes d) 0 (n := u + 1)) by lia. cbn [bind].
  rewrite Nat.add_1_r. unfold row_at. apply traverse_fun. intros e He. apply in_seq in He.
  assert (Hm : nth (S u) (dc_nodes d) 0 <= length (dc_edges d)) by (rewrite <- A3; apply (monotone_le _ (dn d) A2); unfold dn; lia).
  unfold dedge. rewrite (nth_error_nth' (dc_edges d) 0) by lia. cbn [bind]. unfold weight_at. destruct (dc_ew d) as [|w t] eqn:E; [reflexivity|].
  destruct A4 as [A4|A4]; [discriminate|]. rewrite (nth_error_nth' (w :: t) 0%Z) by lia. reflexivity.
Qed.

Section Rank.
Variables (nodes edges : list nat) (nw ew : list Z) (o2n n2o : list nat) (je : list nat) (jn jw : list Z).
Let n := length nodes - 1.
Hypothesis A0 : 0 < length nodes.
Hypothesis A1 : nth 0 nodes 0 = 0.
Hypothesis A2 : forall i, i < n -> nth i nodes 0 <= nth (S i) nodes 0.
Hypothesis A3 : nth n nodes 0 = length edges.
Hypothesis A4 : ew = [] \/ length ew = length edges.
Hypothesis L1 : length o2n = n.
Hypothesis L2 : length n2o = n.
Hypothesis B1 : forall u, u < n -> nth u o2n 0 < n /\ nth (nth u o2n 0) n2o 0 = u.
Hypothesis B2 : forall u, u < n -> nth u n2o 0 < n /\ nth (nth u n2o 0) o2n 0 = u.
Hypothesis Hj : length je = length edges.
Hypothesis Hjw : length jw = length ew.

Definition ptarget v := if v <? n then nth v o2n 0 else v.
Definition pdeg u := degree_of nodes (nth u n2o 0).
Let seg u := map (fun e => ptarget (nth e edges 0)) (seq (nth (nth u n2o 0) nodes 0) (pdeg u)).
Let segw u := map (fun e => nth e ew 0%Z) (seq (nth (nth u n2o 0) nodes 0) (pdeg u)).
Lemma pdeg_sum : psum pdeg n = length edges.
Proof.
  unfold pdeg. rewrite (psum_perm (degree_of nodes) (fun u => nth u n2o 0) n).
  - unfold degree_of. rewrite (psum_nodes (fun u => nth u nodes 0)); [exact A3|exact A1|exact A2].
  - intros u Hu. exact (proj1 (B2 u Hu)).
  - intros i j Hi Hjj E. rewrite <- (proj2 (B2 i Hi)), <- (proj2 (B2 j Hjj)). cbv beta in E. rewrite E. reflexivity.
Qed.
Let weighted := length ew =? length edges.
Definition pnodes := map (psum pdeg) (seq 0 (S n)).
Definition pedges := flat_map (fun u => rev (seg u)) (seq 0 n).
Definition pew := if weighted then flat_map (fun u => rev (segw u)) (seq 0 n) else jw.
Definition pnw := if length nodes <=? length nw + 1 then map (fun u => nth (nth u n2o 0) nw 0%Z) (seq 0 n) ++ skipn n jn else jn.
Lemma build_part : build_permuted_part nodes edges nw ew o2n n2o je jn jw = (pnodes, pedges, pnw, pew).
Proof.
  unfold build_permuted_part. fold n. cbv zeta.
  change (map (fun u => nth (S (nth u n2o 0)) nodes 0 - nth (nth u n2o 0) nodes 0) (seq 0 n)) with (map pdeg (seq 0 n)).
  match goal with |- context [fold_left ?f (seq 0 n) ?st] => change (fold_left f (seq 0 n) st) with
    (fold_left (fun '(ns, es, ws) u =>
        let '(p, es') := copy_backwards (seg u) (nth u ns 0) es in
        let ws' := if weighted then snd (copy_backwards (segw u) (nth u ns 0) ws) else ws in
        (upd u p ns, es', ws')) (seq 0 n) st) end.
  pose proof pdeg_sum as HP.
  rewrite (fill_loop_spec weighted seg segw pdeg n je jw).
  - rewrite skipn_all2 by (rewrite prefix_sum_length, map_length, seq_length; auto). rewrite app_nil_r, HP.
    rewrite (skipn_all2 je) by lia. rewrite app_nil_r.
    assert (E1 : map (psum pdeg) (seq 0 n) ++ [last (prefix_sum (map pdeg (seq 0 n))) 0] = pnodes).
    { unfold pnodes. rewrite seq_snoc, map_app. cbn [map Nat.add]. f_equal. f_equal. rewrite last_prefix_sum. reflexivity. }
    assert (E2 : (if weighted then flat_map (fun u => rev (segw u)) (seq 0 n) ++ skipn (length edges) jw else jw) = pew).
    { unfold pew. destruct weighted eqn:Ew; [|reflexivity]. unfold weighted in Ew. apply Nat.eqb_eq in Ew. rewrite skipn_all2, app_nil_r; [reflexivity|lia]. }
    rewrite E1, E2. reflexivity.
  - intros u Hu. unfold seg. rewrite map_length, seq_length. reflexivity.
  - intros u Hu. unfold segw. rewrite map_length, seq_length. reflexivity.
  - lia.
  - intros Ew. unfold weighted in Ew. apply Nat.eqb_eq in Ew. lia.
  - lia.
Qed.
Lemma pnodes_length : length pnodes = S n. Proof. unfold pnodes. rewrite map_length, seq_length. reflexivity. Qed.
Lemma pnodes_nth u : u <= n -> nth u pnodes 0 = psum pdeg u.
Proof. intros Hu. unfold pnodes. rewrite nth_map_seq by lia. reflexivity. Qed.
Lemma seg_length u : length (rev (seg u)) = pdeg u. Proof. unfold seg. rewrite rev_length, map_length, seq_length. reflexivity. Qed.
Lemma segw_length u : length (rev (segw u)) = pdeg u. Proof. unfold segw. rewrite rev_length, map_length, seq_length. reflexivity. Qed.
Lemma pedges_length : length pedges = length edges.
Proof. unfold pedges. rewrite length_flat_map_list_sum, <- pdeg_sum. unfold psum. f_equal. apply map_ext. exact seg_length. Qed.
Lemma pew_ok : (pew = [] \/ length pew = length pedges) /\ (ew = [] -> pew = []) /\ (ew <> [] -> pew <> []) /\ length pew = length ew.
Proof.
  rewrite pedges_length. unfold pew.
  assert (F : length (flat_map (fun u => rev (segw u)) (seq 0 n)) = length edges).
  { rewrite length_flat_map_list_sum, <- pdeg_sum. unfold psum. f_equal. apply map_ext. exact segw_length. }
  destruct weighted eqn:Ew.
  - unfold weighted in Ew. apply Nat.eqb_eq in Ew. split; [right; exact F|]. split; [|split; [|lia]].
    + intros C. apply length_zero_iff_nil. rewrite F, <- Ew, C. reflexivity.
    + intros C H. apply C. apply length_zero_iff_nil. rewrite Ew, <- F, H. reflexivity.
  - unfold weighted in Ew. apply Nat.eqb_neq in Ew. destruct A4 as [->|C]; [|congruence]. destruct jw as [|x t]; [|discriminate]. repeat split; auto.
Qed.
(** The row of a node in the new arrays. *)
Lemma prow u : u < n -> row_at pnodes pedges pew u = rev (map (fun e => (ptarget (fst e), snd e)) (row_at nodes edges ew (nth u n2o 0))).
Proof.
  intros Hu. unfold row_at. rewrite !pnodes_nth by lia. rewrite psum_S. replace (psum pdeg u + pdeg u - psum pdeg u) with (pdeg u) by lia.
  rewrite map_map. cbn [fst snd]. fold (degree_of nodes (nth u n2o 0)). fold (pdeg u).
  destruct (B2 u Hu) as [Ho _]. set (o := nth u n2o 0) in *.
  assert (Hrange : nth o nodes 0 + pdeg u <= length edges).
  { unfold pdeg, degree_of. fold o. pose proof (A2 o Ho). pose proof (monotone_le nodes n A2 (S o) n ltac:(lia) ltac:(lia)). lia. }
  rewrite <- map_rev. apply (list_ext (0, 0%Z)); [rewrite !map_length, rev_length, !seq_length; reflexivity|].
  intros i Hi. rewrite map_length, seq_length in Hi. rewrite nth_map_seq by exact Hi. symmetry.
  set (F := fun x => (ptarget (nth x edges 0), weight_at ew x)).
  rewrite nth_indep with (d' := F 0) by (rewrite map_length, rev_length, seq_length; exact Hi).
  rewrite map_nth. rewrite rev_nth by (rewrite seq_length; exact Hi). rewrite seq_length, seq_nth by lia.
  set (e := nth o nodes 0 + (pdeg u - S i)). unfold F.
  assert (Hrev : forall {A} (g : nat -> A) (dd : A), nth i (rev (map g (seq (nth o nodes 0) (pdeg u)))) dd = g e).
  { intros A g dd. rewrite rev_nth by (rewrite map_length, seq_length; exact Hi). rewrite map_length, seq_length. rewrite nth_map_seq by lia. reflexivity. }
  f_equal.
  - unfold pedges. rewrite (flat_map_nth (fun u => rev (seg u)) pdeg n 0 u i); [|intros; apply seg_length|exact Hu|exact Hi].
    unfold seg. fold o. rewrite Hrev. reflexivity.
  - destruct pew_ok as (_ & C1 & C2 & _). unfold weight_at. destruct (list_eq_dec Z.eq_dec ew []) as [E|E].
    + rewrite (C1 E), E. reflexivity.
    + assert (X : forall (l : list Z) (a b : Z), l <> [] -> match l with [] => a | _ :: _ => b end = b) by (intros [|? ?] ? ? ?; congruence).
      rewrite (X _ _ _ E), (X _ _ _ (C2 E)). unfold pew. destruct weighted eqn:Ew.
      * rewrite (flat_map_nth (fun u => rev (segw u)) pdeg n 0%Z u i); [|intros; apply segw_length|exact Hu|exact Hi].
        unfold segw. fold o. rewrite Hrev. reflexivity.
      * unfold weighted in Ew. apply Nat.eqb_neq in Ew. destruct A4 as [C|C]; congruence.
Qed.
Lemma pcsr : 0 < length pnodes /\ nth 0 pnodes 0 = 0 /\ (forall i, i < n -> nth i pnodes 0 <= nth (S i) pnodes 0) /\ nth n pnodes 0 = length pedges.
Proof.
  split; [rewrite pnodes_length; lia|]. split; [reflexivity|]. split.
  - intros i Hi. rewrite !pnodes_nth by lia. apply psum_le. lia.
  - rewrite pnodes_nth, pedges_length by lia. exact pdeg_sum.
Qed.
Lemma pdegree u : u < n -> degree_of pnodes u = pdeg u.
Proof. intros Hu. unfold degree_of. rewrite !pnodes_nth by lia. rewrite psum_S. lia. Qed.
End Rank.
