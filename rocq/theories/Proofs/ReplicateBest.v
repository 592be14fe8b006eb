(* The replicated graph and the best partition of it. *)
From Verif Require Import Lib.Prelude Model.GridModel Model.DistGraphModel Model.ReplicateModel Spec.Graph Spec.DistGraphSpec Spec.ReplicateSpec
  Proofs.GridBase Proofs.ImportProofs Proofs.DistViewProofs Proofs.ExchangeProofs Proofs.DistMetricsProofs Proofs.ReplicateProofs Proofs.ReplicateAll.

Lemma c_wf G wn we : closed_graph G -> wf_csr (c_nodes G 0 (gn G)) (c_edges G 0 (gn G)) (c_nw G wn 0 (gn G)) (c_ew G we 0 (gn G)).
Proof.
  intros HC. assert (L : length (c_nodes G 0 (gn G)) = gn G + 1) by (unfold c_nodes; rewrite map_length, seq_length; reflexivity). unfold wf_csr. rewrite L.
  split; [lia|]. split; [rewrite c_nth by lia; reflexivity|]. split; [intros i Hi; rewrite !c_nth by lia; apply off_mono; lia|].
  split; [rewrite (last_nth _ (gn G) L), c_nth by lia; unfold c_edges; rewrite off_map; reflexivity|]. split.
  - intros v Hv. unfold c_edges in Hv. apply in_flat_map in Hv. destruct Hv as (u & Hu & Hv). apply in_seq in Hu. apply in_map_iff in Hv. destruct Hv as ([v' w] & <- & Hin). cbn [fst]. specialize (HC u v' w ltac:(lia) Hin). lia.
  - split; [destruct wn; [right|left; reflexivity]; cbn [c_nw]; rewrite map_length, seq_length; lia|destruct we; [right|left; reflexivity]; cbn [c_ew]; unfold c_edges; rewrite !off_map; reflexivity].
Qed.

Section System.
Variables (P : nat) (G : graph) (dist edist : list nat) (d : nat -> dcsr).
Hypothesis HX : distributed P G dist edist d.
Lemma x_dist : distribution P (gn G) dist. Proof. apply HX. Qed.
Lemma x_lv r : r < P -> local_view G dist r (dn (d r)) (dghost_n (d r)) (dlocal_to_global (d r)) (dglobal_to_local (d r)) (dghost_owner (d r)) (dcontains (d r)) (dadj (d r)).
Proof. intros Hr. destruct HX as (_ & _ & _ & H). apply (H r Hr). Qed.
Lemma x_csr r : r < P -> csr_arrays (d r).
Proof. intros Hr. destruct HX as (_ & _ & _ & H). destruct (H r Hr) as (_ & _ & _ & _ & _ & _ & A1 & A2 & A3 & A4 & A5). unfold csr_arrays. repeat split; try assumption; lia. Qed.
Lemma x_names r : r < P -> dc_dist (d r) = dist /\ dc_edist (d r) = edist.
Proof. intros Hr. destruct HX as (_ & _ & _ & H). destruct (H r Hr) as (_ & _ & _ & A1 & A2 & _). auto. Qed.
Lemma x_edist : length edist = P + 1 /\ nth 0 edist 0 = 0 /\ forall r, r < P -> nth (S r) edist 0 = nth r edist 0 + length (dc_edges (d r)).
Proof. destruct HX as (_ & L & Z0 & H). split; [exact L|]. split; [exact Z0|]. intros r Hr. apply (H r Hr). Qed.
Lemma x_own r u : r < P -> u < dn (d r) -> dnode_weight (dc_nw (d r)) u = Some (gvw G (nth r dist 0 + u)).
Proof. intros Hr. destruct HX as (_ & _ & _ & H). apply (H r Hr). Qed.

Theorem everywhere_correct : weights_everywhere P d -> closed_graph G -> exists c, wf_csr (cs_nodes c) (cs_edges c) (cs_nw c) (cs_ew c) /\
  same_graph (user_graph (cs_nodes c) (cs_edges c) (cs_nw c) (cs_ew c)) G /\
  forall r chunks, r < P -> ranges_of (gn G) chunks -> replicate_everywhere (map d (seq 0 P)) r chunks = Some c.
Proof.
  intros HY HC. exists (Csr (c_nodes G 0 (gn G)) (c_edges G 0 (gn G)) (c_nw G (wn P d) 0 (gn G)) (c_ew G (we P d) 0 (gn G))). cbn [cs_nodes cs_edges cs_nw cs_ew]. split; [apply c_wf; exact HC|].
  assert (E : gn (user_graph (c_nodes G 0 (gn G)) (c_edges G 0 (gn G)) (c_nw G (wn P d) 0 (gn G)) (c_ew G (we P d) 0 (gn G))) = gn G) by (cbn [user_graph gn]; unfold c_nodes; rewrite map_length, seq_length; lia).
  split.
  - split; [exact E|]. rewrite E. apply (everywhere_graph P G dist edist x_dist d x_lv x_csr x_names x_edist x_own (proj1 HY) (proj2 HY)).
  - intros r chunks Hr Hc. apply (everywhere_ok P G dist edist x_dist d x_lv x_csr x_names x_edist x_own (proj1 HY) (proj2 HY) r chunks Hr Hc).
Qed.

Lemma minloc_ok l : l <> [] -> forall i, exists m b, minloc i l = Some (m, i + b) /\ nth_error l b = Some m /\ (forall x, In x l -> (m <= x)%Z) /\ forall c, c < b -> (m < nth c l 0)%Z.
Proof.
  induction l as [|x t IH]; [congruence|]. intros _ i. cbn [minloc]. destruct t as [|y t].
  - cbn [minloc]. exists x, 0. rewrite Nat.add_0_r. split; [reflexivity|]. split; [reflexivity|]. split; [intros z [<-|[]]; lia|intros c Hc; lia].
  - destruct (IH ltac:(discriminate) (S i)) as (m & b & E & N & M & F). rewrite E. destruct (Z.ltb_spec m x) as [L|L].
    + exists m, (S b). replace (i + S b) with (S i + b) by lia. split; [reflexivity|]. split; [exact N|]. split; [intros z [<-|Hz]; [lia|apply M; exact Hz]|]. intros [|c] Hc; cbn [nth]; [exact L|apply F; lia].
    + exists x, 0. rewrite Nat.add_0_r. split; [reflexivity|]. split; [reflexivity|]. split; [intros z [<-|Hz]; [lia|specialize (M z Hz); lia]|intros c Hc; lia].
Qed.
Lemma traverse_checked bits l : (forall x, In x l -> - 2 ^ (bits - 1) <= x < 2 ^ (bits - 1))%Z -> traverse (checked bits) l = Some l.
Proof.
  intros H. rewrite (traverse_ok _ (fun x => x)), map_id; [reflexivity|]. intros x Hx. specialize (H x Hx). unfold checked. rewrite (proj2 (Z.leb_le _ _)), (proj2 (Z.ltb_lt _ _)) by lia. reflexivity.
Qed.

Theorem best_correct bits (parts : nat -> list nat) : 0 < P ->
  (forall r, r < P -> length (parts r) = gn G) ->
  (forall r, r < P -> (- 2 ^ (bits - 1) <= cut_weight G (fun u => nth u (parts r) 0%nat) < 2 ^ (bits - 1))%Z) ->
  exists b, b < P /\ (forall r, r < P -> (cut_weight G (fun u => nth u (parts b) 0%nat) <= cut_weight G (fun u => nth u (parts r) 0%nat))%Z) /\
    forall r, r < P -> exists blocks,
      best_partition bits (map (fun q => cut_weight G (fun u => nth u (parts q) 0)) (seq 0 P)) (map parts (seq 0 P)) (d r) = Some blocks /\
      length blocks = dn (d r) + dghost_n (d r) /\ forall l g, dlocal_to_global (d r) l = Some g -> nth_error blocks l = nth_error (parts b) g /\ g < gn G.
Proof.
  intros HP HL HB. set (cut := fun q => cut_weight G (fun u => nth u (parts q) 0)). destruct (minloc_ok (map cut (seq 0 P))) with (i := 0) as (m & b & E & N & M & _); [destruct P; [lia|discriminate]|].
  assert (Hb : b < P) by (assert (X : nth_error (map cut (seq 0 P)) b <> None) by (rewrite N; discriminate); apply nth_error_Some in X; rewrite map_length, seq_length in X; exact X).
  rewrite nth_error_map_seq in N by exact Hb. injection N as N. exists b. split; [exact Hb|]. split.
  - intros r Hr. change (cut b <= cut r)%Z. cbn [Nat.add] in N. rewrite N. apply M. apply in_map. apply in_seq. lia.
  - intros r Hr. unfold best_partition. rewrite traverse_checked by (intros x Hx; apply in_map_iff in Hx; destruct Hx as (q & <- & Hq); apply in_seq in Hq; apply HB; lia). cbn [bind]. fold cut. rewrite E. cbn [bind snd Nat.add].
    rewrite nth_error_map_seq by exact Hb. cbn [bind Nat.add]. destruct (x_names r Hr) as [Ed _]. rewrite Ed. assert (Ld : length dist = P + 1) by apply x_dist. rewrite (last_nth dist P Ld), (from_P P G dist x_dist).
    unfold slice. rewrite HL by exact Hb. rewrite Nat.leb_refl. cbn [bind skipn]. rewrite firstn_all2 by (rewrite HL by exact Hb; lia).
    pose proof (x_lv r Hr) as V. destruct V as (V1 & V2 & V3 & V4 & _).
    assert (Q : forall l, l < dn (d r) + dghost_n (d r) -> exists g, dlocal_to_global (d r) l = Some g /\ g < gn G).
    { intros l Hl. destruct (Nat.lt_ge_cases l (dn (d r))) as [L|L].
      - exists (nth r dist 0 + l). split; [apply V2; exact L|]. apply (owns_lt P (gn G) dist x_dist r); [exact Hr|]. unfold owns. lia.
      - destruct (V3 l ltac:(lia)) as (g & q & Eg & _ & _ & O). exists g. split; [exact Eg|]. assert (Hq : q < P).
        { destruct (Nat.lt_ge_cases q P) as [C|C]; [exact C|]. unfold owns in O. rewrite (nth_overflow dist 0 (n := S q)) in O by lia. lia. }
        apply (owns_lt P (gn G) dist x_dist q g Hq O). }
    destruct (traverse_map (fun u => bind (dlocal_to_global (d r) u) (nth_error (parts b))) (seq 0 (dn (d r) + dghost_n (d r)))) as (bl & Eb & Lb & Nb).
    { intros u Hu. apply in_seq in Hu. destruct (Q u ltac:(lia)) as (g & Eg & Hg). rewrite Eg. cbn [bind]. exists (nth g (parts b) 0). apply nth_error_nth'. rewrite HL by exact Hb. exact Hg. }
    exists bl. split; [exact Eb|]. rewrite seq_length in Lb. split; [exact Lb|]. intros l g Hl.
    assert (Hr2 : l < dn (d r) + dghost_n (d r)) by (destruct (Nat.lt_ge_cases l (dn (d r) + dghost_n (d r))) as [C|C]; [exact C|rewrite (V4 l C) in Hl; discriminate]).
    destruct (Q l Hr2) as (g' & Eg & Hg). rewrite Eg in Hl. injection Hl as ->. split; [|exact Hg]. destruct (Nb l l) as (y & Ny & By); [rewrite (nth_error_nth' _ 0), seq_nth by (rewrite ?seq_length; exact Hr2); reflexivity|].
    rewrite Ny. rewrite Eg in By. cbn [bind] in By. symmetry. exact By.
Qed.
End System.
