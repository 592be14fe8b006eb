(* The graph that every rank gets for the initial partitioning. *)
From Verif Require Import Lib.Prelude Model.GridModel Model.DistGraphModel Model.ReplicateModel Spec.Graph Spec.DistGraphSpec
  Proofs.GridBase Proofs.ImportProofs Proofs.DistViewProofs Proofs.ExchangeProofs Proofs.DistMetricsProofs Proofs.ReplicateProofs.

Section Canonical.
Variable G : graph.
Lemma nth_flat {A} (h : nat * Z -> A) dflt f n u e : u < n -> e < length (gadj G (f + u)) ->
  nth (off G f u + e) (flat_map (fun v => map h (gadj G v)) (seq f n)) dflt = h (nth e (gadj G (f + u)) (0, 0%Z)).
Proof.
  intros Hu He. replace n with (u + (1 + (n - u - 1))) by lia. rewrite flat_map_seq_split, (flat_map_seq_split _ _ 1). cbn [seq flat_map]. rewrite app_nil_r.
  rewrite app_nth2 by (rewrite off_map; lia). rewrite off_map. replace (off G f u + e - off G f u) with e by lia. rewrite app_nth1 by (rewrite map_length; exact He).
  rewrite (nth_indep _ dflt (h (0, 0%Z))) by (rewrite map_length; exact He). apply map_nth.
Qed.
(** The arrays of the nodes [f], ..., [f + n - 1] describe this part of the graph. *)
Definition c_nodes f n := map (off G f) (seq 0 (n + 1)).
Definition c_edges f n := flat_map (fun u => map fst (gadj G u)) (seq f n).
Definition c_ew (weighted : bool) f n := if weighted then flat_map (fun u => map snd (gadj G u)) (seq f n) else [].
Definition c_nw (weighted : bool) f n := if weighted then map (gvw G) (seq f n) else [].
Lemma off_mono f i j : i <= j -> off G f i <= off G f j.
Proof. intros H. replace j with (i + (j - i)) by lia. rewrite off_add. lia. Qed.
Lemma c_nth f n i : i <= n -> nth i (c_nodes f n) 0 = off G f i.
Proof. intros H. unfold c_nodes. rewrite nth_map_seq by lia. reflexivity. Qed.
Lemma canonical wn we f n : (wn = false -> forall u, u < n -> gvw G (f + u) = 1%Z) -> (we = false -> forall u v w, u < n -> In (v, w) (gadj G (f + u)) -> w = 1%Z) ->
  forall u, u < n -> gadj (user_graph (c_nodes f n) (c_edges f n) (c_nw wn f n) (c_ew we f n)) u = gadj G (f + u) /\
    gvw (user_graph (c_nodes f n) (c_edges f n) (c_nw wn f n) (c_ew we f n)) u = gvw G (f + u).
Proof.
  intros Hn He u Hu. cbn [user_graph gadj gvw]. split.
  - rewrite !c_nth, off_S by lia. replace (off G f u + length (gadj G (f + u)) - off G f u) with (length (gadj G (f + u))) by lia.
    rewrite <- (map_shift _ (off G f u)). etransitivity; [|apply (map_nth_seq (0, 0%Z) (gadj G (f + u)))]. apply map_ext_in. intros e Hin. apply in_seq in Hin. cbn beta.
    assert (L : e < length (gadj G (f + u))) by lia. unfold c_edges. rewrite nth_flat by assumption. rewrite (surjective_pairing (nth e (gadj G (f + u)) (0, 0%Z))) at 2. f_equal.
    destruct we; cbn [c_ew].
    + destruct (flat_map (fun u0 => map snd (gadj G u0)) (seq f n)) as [|x t] eqn:E.
      * exfalso. pose proof (off_map G snd f n) as O. rewrite E in O. cbn in O. pose proof (off_mono f (S u) n ltac:(lia)) as X. rewrite off_S in X.
        lia.
      * rewrite <- E. exact (nth_flat snd 0%Z f n u e Hu L).
    + symmetry. apply (He eq_refl u (fst (nth e (gadj G (f + u)) (0, 0%Z)))); [exact Hu|]. rewrite <- surjective_pairing. apply nth_In. exact L.
  - destruct wn; cbn [c_nw]; [|symmetry; apply Hn; auto]. destruct (map (gvw G) (seq f n)) as [|x t] eqn:E.
    + apply (f_equal (@length _)) in E. rewrite map_length, seq_length in E. cbn in E. lia.
    + rewrite <- E. rewrite <- (map_shift (gvw G)). rewrite nth_map_seq by lia. reflexivity.
Qed.
End Canonical.

(** Counts and displacements. *)
Lemma counts_nth l i : i + 1 < length l -> nth_error (dist_counts l) i = Some (nth (S i) l 0 - nth i l 0).
Proof. intros H. unfold dist_counts. rewrite nth_error_map_seq by lia. reflexivity. Qed.
Lemma displs_of l i : i + 1 < length l -> nth_error (dist_displs l) i = Some (nth i l 0).
Proof.
  intros H. unfold dist_displs. rewrite (nth_error_nth' _ 0) by (rewrite firstn_length; lia). f_equal.
  assert (Q : forall n (m : list nat) j, j < n -> nth j (firstn n m) 0 = nth j m 0) by (induction n as [|n IH]; intros [|x m] [|j] Hj; cbn; try lia; try reflexivity; apply IH; lia). apply Q. lia.
Qed.
Lemma last_nth (l : list nat) n : length l = n + 1 -> last l 0 = nth n l 0.
Proof. intros H. rewrite <- (firstn_skipn n l). assert (L : length (skipn n l) = 1) by (rewrite skipn_length; lia). destruct (skipn n l) as [|x [|]]; try discriminate. rewrite last_last, app_nth2; rewrite firstn_length; [|lia]. replace (n - Nat.min n (length l)) with 0 by lia. reflexivity. Qed.

Section All.
Variables (P : nat) (G : graph) (dist edist : list nat).
Hypothesis HD : distribution P (gn G) dist.
Variable d : nat -> dcsr.
Notation ds := (map d (seq 0 P)).
Notation from r := (nth r dist 0).
Notation cnt r := (nth (S r) dist 0 - nth r dist 0).
Hypothesis HV : forall r, r < P -> local_view G dist r (dn (d r)) (dghost_n (d r)) (dlocal_to_global (d r)) (dglobal_to_local (d r)) (dghost_owner (d r)) (dcontains (d r)) (dadj (d r)).
Hypothesis HA : forall r, r < P -> csr_arrays (d r).
Hypothesis HR : forall r, r < P -> dc_dist (d r) = dist /\ dc_edist (d r) = edist.
Hypothesis HE : length edist = P + 1 /\ nth 0 edist 0 = 0 /\ forall r, r < P -> nth (S r) edist 0 = nth r edist 0 + length (dc_edges (d r)).
Hypothesis HN : forall r u, r < P -> u < dn (d r) -> dnode_weight (dc_nw (d r)) u = Some (gvw G (from r + u)).
Hypothesis HWn : (exists q, q < P /\ dc_nw (d q) <> []) -> forall r, r < P -> dc_nw (d r) <> [] \/ dn (d r) = 0.
Hypothesis HWe : (exists q, q < P /\ dc_ew (d q) <> []) -> forall r, r < P -> dc_ew (d r) <> [] \/ dc_edges (d r) = [].

Lemma n_of r : r < P -> dn (d r) = cnt r.
Proof. intros Hr. exact (proj1 (HV r Hr)). Qed.
Lemma m_of r : r < P -> length (dc_edges (d r)) = off G (from r) (cnt r).
Proof. intros Hr. rewrite <- n_of by exact Hr. exact (rk_m P G dist r (d r) Hr (HV r Hr) (HA r Hr)). Qed.
Lemma from0 : from 0 = 0. Proof. apply HD. Qed.
Lemma edist_off r : r <= P -> nth r edist 0 = off G 0 (from r).
Proof.
  destruct HE as (_ & E0 & ES). induction r as [|r IH]; intros Hr; [rewrite from0, E0; reflexivity|]. rewrite ES, IH, m_of by lia.
  pose proof (from_mono P G dist HD r (S r) ltac:(lia) Hr). replace (from (S r)) with (from r + cnt r) at 2 by lia. rewrite off_add. reflexivity.
Qed.
Lemma flags {X} (get : dcsr -> list X) : if existsb (fun d => nonempty (get d)) ds then exists q, q < P /\ get (d q) <> [] else forall q, q < P -> get (d q) = [].
Proof.
  destruct (existsb _ ds) eqn:E.
  - apply existsb_exists in E. destruct E as (x & Hx & Hn). apply in_map_iff in Hx. destruct Hx as (q & <- & Hq). apply in_seq in Hq. exists q. split; [lia|]. destruct (get (d q)); [discriminate Hn|discriminate].
  - intros q Hq. destruct (get (d q)) as [|x t] eqn:Eg; [reflexivity|]. exfalso. assert (existsb (fun d => nonempty (get d)) ds = true); [|congruence]. apply existsb_exists. exists (d q). split; [apply in_map, in_seq; lia|]. rewrite Eg. reflexivity.
Qed.
Definition wn := existsb (fun d => nonempty (dc_nw d)) ds.
Definition we := existsb (fun d => nonempty (dc_ew d)) ds.
Lemma unit_nodes : wn = false -> forall u, u < gn G -> gvw G u = 1%Z.
Proof.
  intros E u Hu. pose proof (flags dc_nw) as F. fold wn in F. rewrite E in F. destruct (find_owner_owns P (gn G) dist u HD Hu) as [Hr O]. set (r := find_owner dist u) in *.
  pose proof (HN r (u - from r) Hr ltac:(rewrite n_of by exact Hr; unfold owns in O; lia)) as W. rewrite (F r Hr) in W. replace (from r + (u - from r)) with u in W by (unfold owns in O; lia). cbn in W. congruence.
Qed.
Lemma unit_edges : we = false -> forall u v w, u < gn G -> In (v, w) (gadj G u) -> w = 1%Z.
Proof.
  intros E u v w Hu Hin. pose proof (flags dc_ew) as F. fold we in F. rewrite E in F. destruct (find_owner_owns P (gn G) dist u HD Hu) as [Hr O]. set (r := find_owner dist u) in *.
  apply (rk_unit P G dist r (d r) Hr (HV r Hr) (HA r Hr) (F r Hr) (u - from r) v w); [rewrite n_of by exact Hr; unfold owns in O; lia|]. replace (from r + (u - from r)) with u by (unfold owns in O; lia). exact Hin.
Qed.

(** Gathering the pieces of consecutive ranks. *)
Lemma gather_pieces {X} (h : nat -> list X) a len cnts dis rest : a + len <= P ->
  (forall i, i < len -> nth_error cnts i = Some (length (flat_map h (seq (from (a + i)) (cnt (a + i))))) /\ nth_error dis i = Some (length (flat_map h (seq (from a) (from (a + i) - from a))))) ->
  forall junk, length junk = length (flat_map h (seq (from a) (from (a + len) - from a))) ->
  allgatherv (map (fun r => flat_map h (seq (from r) (cnt r))) (seq a len)) cnts dis (junk ++ rest) = Some (flat_map h (seq (from a) (from (a + len) - from a)) ++ rest).
Proof.
  intros Hl H junk Hj. rewrite allgatherv_ok.
  - rewrite (telescope P G dist HD h a len Hl). rewrite <- Hj, skipn_app, skipn_all, Nat.sub_diag. reflexivity.
  - rewrite map_length, seq_length. intros i Hi. destruct (H i Hi) as [Hc Hd]. split.
    + rewrite Hc. f_equal. f_equal. rewrite <- (map_shift (fun r => flat_map h (seq (from r) (cnt r)))). rewrite nth_map_seq by lia. cbn [Nat.add]. reflexivity.
    + rewrite Hd. f_equal. f_equal. rewrite <- (telescope P G dist HD h a i) by lia. f_equal. rewrite firstn_map. f_equal. symmetry. replace len with (i + (len - i)) by lia. rewrite seq_app, firstn_app, seq_length, Nat.sub_diag. cbn [firstn]. rewrite app_nil_r. apply firstn_all2. rewrite seq_length. lia.
  - rewrite (telescope P G dist HD h a len Hl), app_length. lia.
Qed.
Lemma single {X} (h : nat -> X) l : flat_map (fun u => [h u]) l = map h l.
Proof. induction l as [|x t IH]; cbn; [reflexivity|]. rewrite IH. reflexivity. Qed.

(** The loop over the nodes. *)
Definition shift (u : nat) : nat := nth (find_owner dist u) edist 0.
Lemma find_pe_ok u : u < gn G -> forall fuel pe, pe < P -> from pe <= u -> P - pe <= fuel -> find_pe fuel dist u pe = Some (find_owner dist u).
Proof.
  intros Hu. destruct (find_owner_owns P (gn G) dist u HD Hu) as [Hr O]. induction fuel as [|fuel IH]; intros pe Hp Hf Hl; [lia|]. cbn [find_pe].
  assert (Ld : length dist = P + 1) by apply HD. rewrite (nth_error_nth' dist 0) by lia. cbn [bind]. replace (pe + 1) with (S pe) by lia. destruct (Nat.leb_spec (from (S pe)) u) as [L|L].
  - apply IH; try lia. destruct (Nat.eq_dec (S pe) P) as [E|E]; [|lia]. destruct HD as (_ & _ & EN & _). rewrite E in L. lia.
  - f_equal. apply (owns_unique P (gn G) dist HD pe (find_owner dist u) u); try assumption. unfold owns. lia.
Qed.
Lemma shift_chunk_ok len : forall a pe nodes, a + len <= gn G -> (len = 0 \/ pe < P /\ from pe <= a) -> gn G < length nodes ->
  exists nodes', shift_chunk dist edist (seq a len) pe nodes = Some nodes' /\ length nodes' = length nodes /\
    forall j, nth j nodes' 0 = nth j nodes 0 + if (a <=? j) && (j <? a + len) then shift j else 0.
Proof.
  induction len as [|len IH]; intros a pe nodes Ha Hp Hl; cbn [seq shift_chunk].
  - exists nodes. split; [reflexivity|]. split; [reflexivity|]. intros j. destruct (Nat.leb_spec a j), (Nat.ltb_spec j (a + 0)); cbn; lia.
  - destruct Hp as [Hp|[Hp Hf]]; [discriminate|]. assert (Ld : length dist = P + 1) by apply HD. rewrite (find_pe_ok a ltac:(lia) (length dist) pe Hp Hf ltac:(lia)). cbn [bind].
    destruct (find_owner_owns P (gn G) dist a HD ltac:(lia)) as [Hr O]. destruct HE as (Le & _). rewrite (nth_error_nth' edist 0) by lia. cbn [bind]. rewrite (nth_error_nth' nodes 0) by lia. cbn [bind].
    destruct (IH (S a) (find_owner dist a) (upd a (nth a nodes 0 + shift a) nodes)) as (n' & E & L & H); [lia|right; unfold owns in O; lia|rewrite upd_length; exact Hl|]. rewrite upd_length in L.
    exists n'. split; [exact E|]. split; [exact L|]. intros j. rewrite H, upd_nth. rewrite (proj2 (Nat.ltb_lt a _)) by lia. destruct (Nat.eqb_spec a j) as [->|Ne]; cbn [andb].
    + rewrite (proj2 (Nat.leb_gt (S j) j)), (proj2 (Nat.leb_le j j)), (proj2 (Nat.ltb_lt j (j + S len))) by lia. cbn. lia.
    + replace (S a + len) with (a + S len) by lia. destruct (Nat.leb_spec (S a) j), (Nat.leb_spec a j); try lia; reflexivity.
Qed.
Definition covered (chunks : list (nat * nat)) : list nat := flat_map (fun c => seq (fst c) (snd c)) chunks.
Lemma inb_dec (j : nat) (l : list nat) : {In j l} + {~ In j l}. Proof. apply in_dec, Nat.eq_dec. Qed.
Lemma shift_nodes_ok chunks : forall nodes, gn G < length nodes -> NoDup (covered chunks) -> (forall j, In j (covered chunks) -> j < gn G) ->
  exists nodes', shift_nodes dist edist chunks nodes = Some nodes' /\ length nodes' = length nodes /\
    forall j, nth j nodes' 0 = nth j nodes 0 + if inb_dec j (covered chunks) then shift j else 0.
Proof.
  unfold shift_nodes. induction chunks as [|[a len] t IH]; intros nodes Hl ND Hb; cbn [fold_left].
  - exists nodes. split; [reflexivity|]. split; [reflexivity|]. intros j. destruct (inb_dec j (covered [])) as [I|I]; [destruct I|lia].
  - cbn [covered flat_map fst snd] in *. fold (covered t) in *.
    assert (Hb1 : a + len <= gn G \/ len = 0). { destruct len as [|len]; [right; reflexivity|left]. specialize (Hb (a + len)). enough (a + len < gn G) by lia. apply Hb, in_or_app. left. apply in_seq. lia. }
    assert (Q : exists n1, shift_chunk dist edist (seq a len) 0 nodes = Some n1 /\ length n1 = length nodes /\ forall j, nth j n1 0 = nth j nodes 0 + if (a <=? j) && (j <? a + len) then shift j else 0).
    { destruct Hb1 as [Hb1|Hz]; [|subst len; exists nodes; split; [reflexivity|]; split; [reflexivity|]; intros j; destruct (Nat.leb_spec a j), (Nat.ltb_spec j (a + 0)); cbn; lia].
      apply shift_chunk_ok; [exact Hb1| |exact Hl]. destruct len as [|len]; [left; reflexivity|right]. rewrite from0. split; [|lia]. destruct HD as (_ & F0 & FN & _). destruct P; [rewrite F0 in FN; lia|lia]. }
    destruct Q as (n1 & E1 & L1 & H1). cbn [bind]. rewrite E1.
    destruct (IH n1) as (n2 & E2 & L2 & H2); [lia| |intros j Hj; apply Hb, in_or_app; right; exact Hj|].
    { clear - ND. revert ND. induction (seq a len) as [|x s IHs]; cbn; [auto|]. intros H. inversion H; auto. }
    exists n2. split; [exact E2|]. split; [lia|]. intros j. rewrite H2, H1.
    destruct (inb_dec j (covered t)) as [I|I]; destruct (inb_dec j (seq a len ++ covered t)) as [J|J]; destruct (Nat.leb_spec a j), (Nat.ltb_spec j (a + len)); cbn [andb]; try lia;
      rewrite in_app_iff, in_seq in J; try (exfalso; apply J; tauto || (left; lia)); try (exfalso; destruct J; [lia|contradiction]).
    exfalso. clear - ND I H H0. assert (In j (seq a len)) by (apply in_seq; lia). revert ND H1. induction (seq a len) as [|x s IHs]; cbn; [tauto|]. intros ND [->|Hs]; inversion ND; subst; [apply H3, in_or_app; right; exact I|auto].
Qed.

Lemma from_P : from P = gn G. Proof. apply HD. Qed.
(** Node data and edge data of all ranks, in the order of the ranks. *)
Lemma gather_nodes {X} (h : nat -> X) (x0 : X) rest n : n = gn G ->
  allgatherv (map (fun r => map h (seq (from r) (cnt r))) (seq 0 P)) (dist_counts dist) (dist_displs dist) (repeat x0 n ++ rest) = Some (map h (seq 0 (gn G)) ++ rest).
Proof.
  intros ->. pose proof (gather_pieces (fun u => [h u]) 0 P (dist_counts dist) (dist_displs dist) rest (le_n _)) as Q. rewrite !single in Q. cbn [Nat.add] in Q. rewrite from0, Nat.sub_0_r, from_P in Q.
  rewrite <- Q with (junk := repeat x0 (gn G)).
  - reflexivity.
  - intros i Hi. assert (Ld : length dist = P + 1) by apply HD. rewrite !single, !map_length, !seq_length, counts_nth, displs_of by lia. split; f_equal. lia.
  - rewrite repeat_length, map_length, seq_length. reflexivity.
Qed.
Lemma gather_edges {X} (h : nat * Z -> X) (x0 : X) n : n = off G 0 (gn G) ->
  allgatherv (map (fun r => flat_map (fun u => map h (gadj G u)) (seq (from r) (cnt r))) (seq 0 P)) (dist_counts edist) (dist_displs edist) (repeat x0 n) = Some (flat_map (fun u => map h (gadj G u)) (seq 0 (gn G))).
Proof.
  intros ->. pose proof (gather_pieces (fun u => map h (gadj G u)) 0 P (dist_counts edist) (dist_displs edist) [] (le_n _)) as Q. cbn [Nat.add] in Q. rewrite from0, Nat.sub_0_r, from_P in Q.
  rewrite app_nil_r in Q. rewrite <- Q with (junk := repeat x0 (off G 0 (gn G))); [rewrite app_nil_r; reflexivity| |rewrite repeat_length, off_map; reflexivity].
  intros i Hi. destruct HE as (Le & _). rewrite !off_map, counts_nth, displs_of, !edist_off by lia. rewrite Nat.sub_0_r. split; [|reflexivity]. f_equal.
  pose proof (from_mono P G dist HD i (S i) ltac:(lia) ltac:(lia)). replace (from (S i)) with (from i + cnt i) at 1 by lia. rewrite off_add. cbn [Nat.add]. lia.
Qed.

Definition local_off (u : nat) : nat := off G (from (find_owner dist u)) (u - from (find_owner dist u)).
Lemma owner_is r u : r < P -> owns dist r u -> find_owner dist u = r.
Proof. intros Hr O. pose proof (owns_lt P (gn G) dist HD r u Hr O) as Hu. destruct (find_owner_owns P (gn G) dist u HD Hu) as [Hq Oq]. exact (owns_unique P (gn G) dist HD _ _ u Hq Hr Oq O). Qed.
Lemma local_nodes r : r < P -> map (off G (from r)) (seq 0 (cnt r)) = map local_off (seq (from r) (cnt r)).
Proof.
  intros Hr. rewrite <- (map_shift local_off). apply map_ext_in. intros i Hi. apply in_seq in Hi. unfold local_off. rewrite (owner_is r) by (try exact Hr; unfold owns; lia). f_equal. lia.
Qed.
Lemma local_global u : u < gn G -> local_off u + shift u = off G 0 u.
Proof.
  intros Hu. destruct (find_owner_owns P (gn G) dist u HD Hu) as [Hr O]. unfold local_off, shift. set (r := find_owner dist u) in *. rewrite edist_off by lia. unfold owns in O.
  replace u with (from r + (u - from r)) at 2 by lia. rewrite off_add. cbn [Nat.add]. lia.
Qed.

Lemma everywhere_ok r chunks : r < P -> Permutation (covered chunks) (seq 0 (gn G)) ->
  replicate_everywhere ds r chunks = Some (Csr (c_nodes G 0 (gn G)) (c_edges G 0 (gn G)) (c_nw G wn 0 (gn G)) (c_ew G we 0 (gn G))).
Proof.
  intros Hr Hc. unfold replicate_everywhere. rewrite nth_error_map_seq by exact Hr. cbn [Nat.add bind]. destruct (HR r Hr) as [-> ->].
  assert (Ld : length dist = P + 1) by apply HD. rewrite (last_nth dist P Ld), (last_nth edist P (proj1 HE)), from_P. rewrite edist_off by lia. rewrite from_P.
  rewrite (traverse_of_map (fun d => slice (dc_nodes d) 0 (dn d))), (traverse_of_map (fun d => global_edges d (repeat 0 (length (dc_edges d))))).
  rewrite (traverse_ok _ (fun r => map (off G (from r)) (seq 0 (cnt r)))) by (intros q Hq; apply in_seq in Hq; rewrite <- n_of by lia; apply (rk_slice P G); [lia|apply HV; lia|apply HA; lia]). cbn [bind].
  rewrite (traverse_ok _ (fun r => flat_map (fun u => map fst (gadj G u)) (seq (from r) (cnt r)))) by (intros q Hq; apply in_seq in Hq; rewrite <- n_of by lia; apply (rk_edges P G); [lia|apply HV; lia|apply HA; lia]). cbn [bind].
  rewrite (map_ext_in (fun r => map (off G (from r)) (seq 0 (cnt r))) (fun r => map local_off (seq (from r) (cnt r)))) by (intros q Hq; apply in_seq in Hq; apply local_nodes; lia).
  rewrite repeat_app, gather_nodes by reflexivity. cbn [bind]. rewrite gather_edges by reflexivity. cbn [bind]. fold wn we.
  assert (N : (if wn then bind (traverse (fun d => slice (dc_nw d) 0 (dn d)) ds) (fun p => allgatherv p (dist_counts dist) (dist_displs dist) (repeat 0%Z (gn G))) else Some []) = Some (c_nw G wn 0 (gn G))).
  { pose proof (flags dc_nw) as F. fold wn in F. destruct wn; [|reflexivity]. rewrite traverse_of_map. rewrite (traverse_ok _ (fun r => map (gvw G) (seq (from r) (cnt r)))).
    - cbn [bind]. rewrite <- (app_nil_r (repeat _ _)), gather_nodes by reflexivity. rewrite app_nil_r. reflexivity.
    - intros q Hq. apply in_seq in Hq. rewrite <- n_of by lia. apply (rk_nw P G); [lia|intros u Hu; apply HN; lia|apply HWn; [exact F|lia]]. }
  rewrite N. cbn [bind].
  assert (M : (if we then bind (traverse (fun d => slice (dc_ew d) 0 (length (dc_edges d))) ds) (fun p => allgatherv p (dist_counts edist) (dist_displs edist) (repeat 0%Z (off G 0 (gn G)))) else Some []) = Some (c_ew G we 0 (gn G))).
  { pose proof (flags dc_ew) as F. fold we in F. destruct we; [|reflexivity]. rewrite traverse_of_map. rewrite (traverse_ok _ (fun r => flat_map (fun u => map snd (gadj G u)) (seq (from r) (cnt r)))).
    - cbn [bind]. apply gather_edges. reflexivity.
    - intros q Hq. apply in_seq in Hq. rewrite <- n_of by lia. apply (rk_ew P G); [lia|apply HV; lia|apply HA; lia|]. destruct (HWe F q ltac:(lia)) as [W|W]; [left; exact W|right]. rewrite n_of by lia. rewrite <- m_of by lia. rewrite W. reflexivity. }
  rewrite M. cbn [bind]. set (n0 := map local_off (seq 0 (gn G)) ++ repeat 0 1). assert (L0 : length n0 = gn G + 1) by (unfold n0; rewrite app_length, map_length, seq_length; reflexivity).
  rewrite store_ok by lia. cbn [bind].
  destruct (shift_nodes_ok chunks (upd (length n0 - 1) (off G 0 (gn G)) n0)) as (n' & E & L & H); [rewrite upd_length; lia|apply (Permutation_NoDup (Permutation_sym Hc)), seq_NoDup|intros j Hj; apply (Permutation_in _ Hc), in_seq in Hj; lia|].
  rewrite E. cbn [bind]. f_equal. f_equal. rewrite upd_length, L0 in L. apply (nth_ext _ _ 0 0); [unfold c_nodes; rewrite map_length, seq_length; exact L|].
  intros j Hj. rewrite c_nth, H, upd_nth by lia. rewrite L0. replace (gn G + 1 - 1) with (gn G) by lia. rewrite (proj2 (Nat.ltb_lt (gn G) _)) by lia. rewrite andb_true_r.
  destruct (inb_dec j (covered chunks)) as [I|I].
  - apply (Permutation_in _ Hc), in_seq in I. rewrite (proj2 (Nat.eqb_neq _ _)) by lia. unfold n0. rewrite app_nth1 by (rewrite map_length, seq_length; lia). rewrite nth_map_seq by lia. apply local_global. lia.
  - destruct (Nat.eqb_spec (gn G) j) as [<-|Ne]; [lia|]. exfalso. apply I, (Permutation_in _ (Permutation_sym Hc)), in_seq. lia.
Qed.
(** ... which is the input graph. *)
Lemma everywhere_graph : forall u, u < gn G ->
  gadj (user_graph (c_nodes G 0 (gn G)) (c_edges G 0 (gn G)) (c_nw G wn 0 (gn G)) (c_ew G we 0 (gn G))) u = gadj G u /\
  gvw (user_graph (c_nodes G 0 (gn G)) (c_edges G 0 (gn G)) (c_nw G wn 0 (gn G)) (c_ew G we 0 (gn G))) u = gvw G u.
Proof. intros u Hu. apply (canonical G wn we 0 (gn G)); [intros E v Hv; apply unit_nodes; assumption|intros E v x w Hv Hin; apply (unit_edges E v x w Hv Hin)|exact Hu]. Qed.
End All.
