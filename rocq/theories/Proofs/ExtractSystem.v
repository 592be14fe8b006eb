(* The extraction on all ranks: numbers, rows and the data of every rank. *)
From Verif Require Import Lib.Prelude Model.GridModel Model.DistGraphModel Model.ReplicateModel Model.DistExtractModel Spec.Graph Spec.DistGraphSpec Spec.ReplicateSpec Spec.DistJetSpec
  Spec.DistExtractSpec Proofs.GridBase Proofs.DistViewProofs Proofs.ExchangeProofs Proofs.RearrangeSystem Proofs.ExtractLocal Proofs.ExtractGather Proofs.LpOrderProofs.

(** ** CSR arrays of a list of rows *)
Lemma displs_from_shift l : forall s, displs_from s l = map (fun e => e + s) (displs l).
Proof.
  unfold displs. induction l as [|v t IH]; intros s; [reflexivity|]. cbn [displs_from map Nat.add]. f_equal. rewrite IH, (IH v), map_map. apply map_ext. intros e. lia.
Qed.
Lemma displs_from_app l1 l2 : forall s, tl (displs_from s (l1 ++ l2)) = tl (displs_from s l1) ++ tl (displs_from (s + list_sum l1) l2).
Proof.
  induction l1 as [|v t IH]; intros s; [cbn; rewrite Nat.add_0_r; reflexivity|]. cbn [app displs_from tl list_sum fold_right].
  assert (C : forall s l, displs_from s l = s :: tl (displs_from s l)) by (intros a [|b c]; reflexivity).
  rewrite (C (s + v) (t ++ l2)), (C (s + v) t), IH. cbn [app]. unfold list_sum. rewrite Nat.add_assoc. reflexivity.
Qed.
Lemma node_array {X} (R : nat -> list (list X)) P :
  0 :: concat (map (fun q => map (fun e => e + length (concat (map (fun q => concat (R q)) (seq 0 q)))) (row_ends (R q))) (seq 0 P)) = displs (map (@length X) (concat (map R (seq 0 P)))).
Proof.
  unfold displs. assert (C : forall s l, displs_from s l = s :: tl (displs_from s l)) by (intros a [|b c]; reflexivity). rewrite C. f_equal.
  induction P as [|P IH]; [reflexivity|]. rewrite seq_S, !map_app, !concat_app, map_app, displs_from_app, IH. cbn [map concat Nat.add]. rewrite !app_nil_r. f_equal.
  rewrite (displs_from_shift (map (@length X) (R P))). unfold row_ends. rewrite <- length_concat.
  assert (Es : length (concat (map (fun q => concat (R q)) (seq 0 P))) = length (concat (concat (map R (seq 0 P))))).
  { clear. induction (seq 0 P) as [|q t IH]; [reflexivity|]. cbn [map concat]. rewrite concat_app, !app_length, IH. reflexivity. }
  rewrite Es. destruct (displs (map (@length X) (R P))); reflexivity.
Qed.
Lemma nth_concat {X} (L : list (list X)) dflt u j : u < length L -> j < length (nth u L []) -> nth (list_sum (firstn u (map (@length X) L)) + j) (concat L) dflt = nth j (nth u L []) dflt.
Proof.
  revert u. induction L as [|l t IH]; intros u Hu Hj; [cbn in Hu; lia|]. destruct u as [|u]; cbn [nth firstn map concat list_sum fold_right Nat.add] in *.
  - rewrite app_nth1 by exact Hj. reflexivity.
  - unfold list_sum. rewrite app_nth2 by lia. rewrite <- (IH u) by (cbn in Hu; lia || exact Hj). f_equal. unfold list_sum. lia.
Qed.
Lemma sum_firstn_S l : forall i, i < length l -> list_sum (firstn (S i) l) = list_sum (firstn i l) + nth i l 0.
Proof.
  induction l as [|v t IH]; intros i Hi; [cbn in Hi; lia|]. destruct i as [|i]; [cbn; lia|]. cbn [length] in Hi. change (firstn (S (S i)) (v :: t)) with (v :: firstn (S i) t). change (firstn (S i) (v :: t)) with (v :: firstn i t).
  cbn [list_sum fold_right nth]. specialize (IH i). unfold list_sum in *. rewrite IH by lia. lia.
Qed.
Lemma csr_rows (R : list (list (nat * Z))) nw : length nw = length R ->
  let H := user_graph (displs (map (@length _) R)) (concat (map (map fst) R)) nw (concat (map (map snd) R)) in
  gn H = length R /\ (forall i, i < length R -> gadj H i = nth i R [] /\ gvw H i = nth i nw 0%Z).
Proof.
  intros L H. assert (G : gn H = length R).
  { unfold H. cbn [gn user_graph]. unfold displs. assert (D : forall s l, length (displs_from s l) = S (length l)) by (intros s l; revert s; induction l as [|v t IH]; intros s; cbn; [reflexivity|rewrite IH; reflexivity]). rewrite D, map_length. lia. }
  split; [exact G|]. intros i Hi. split.
  - unfold H. cbn [gadj user_graph]. assert (N : forall j, j <= length R -> nth j (displs (map (@length _) R)) 0 = list_sum (firstn j (map (@length _) R))).
    { intros j Hj. apply nth_error_nth. apply displs_nth. rewrite map_length. exact Hj. }
    rewrite !N by lia. assert (E : list_sum (firstn (S i) (map (@length (nat * Z)) R)) = list_sum (firstn i (map (@length (nat * Z)) R)) + length (nth i R [])).
    { rewrite sum_firstn_S by (rewrite map_length; exact Hi). f_equal. exact (map_nth (@length (nat * Z)) R [] i). }
    rewrite E. replace (list_sum (firstn i (map (@length (nat * Z)) R)) + length (nth i R []) - list_sum (firstn i (map (@length (nat * Z)) R))) with (length (nth i R [])) by lia. apply (list_ext (0, 0%Z)); [rewrite map_length, seq_length; reflexivity|]. intros j Hj. rewrite map_length, seq_length in Hj. rewrite nth_map_seq by exact Hj.
    assert (A : nth (list_sum (firstn i (map (@length (nat * Z)) R)) + j) (concat (map (map fst) R)) 0 = fst (nth j (nth i R []) (0, 0%Z))).
    { pose proof (nth_concat (map (map fst) R) 0 i j) as Q. rewrite map_map, map_length in Q. rewrite (map_ext (fun x => length (map fst x)) (@length (nat * Z))) in Q by (intros; apply map_length).
      change (@nil nat) with (map (@fst nat Z) []) in Q. rewrite map_nth, map_length in Q. rewrite Q by assumption. change 0 with (fst (0, 0%Z)) at 1. apply map_nth. }
    assert (B : nth (list_sum (firstn i (map (@length (nat * Z)) R)) + j) (concat (map (map snd) R)) 0%Z = snd (nth j (nth i R []) (0, 0%Z))).
    { pose proof (nth_concat (map (map snd) R) 0%Z i j) as Q. rewrite map_map, map_length in Q. rewrite (map_ext (fun x => length (map snd x)) (@length (nat * Z))) in Q by (intros; apply map_length).
      change (@nil Z) with (map (@snd nat Z) []) in Q. rewrite map_nth, map_length in Q. rewrite Q by assumption. change 0%Z with (snd (0, 0%Z)) at 1. apply map_nth. }
    rewrite A. destruct (concat (map (map snd) R)) as [|z zs] eqn:Ez.
    + exfalso. assert (LL : length (concat (map (map snd) R)) = 0) by (rewrite Ez; reflexivity). rewrite length_concat, map_map in LL.
      assert (Hin : In (nth i R []) R) by (apply nth_In; exact Hi). revert Hin Hj. generalize (nth i R []) as row. clear -LL. intros row Hin Hj. induction R as [|r t IH]; [destruct Hin|]. cbn [map list_sum fold_right] in LL. unfold list_sum in *. rewrite map_length in LL.
      destruct Hin as [<-|Hin]; [lia|]. apply IH; [lia|exact Hin].
    + rewrite B. destruct (nth j (nth i R []) (0, 0%Z)); reflexivity.
  - unfold H. cbn [gvw user_graph]. destruct nw; [cbn in L; lia|reflexivity].
Qed.

Lemma sum_perm l l' : Permutation l l' -> list_sum l = list_sum l'.
Proof. unfold list_sum. induction 1; cbn; lia. Qed.
Lemma row_ends_length {X} (l : list (list X)) : length (row_ends l) = length l.
Proof. unfold row_ends, displs. assert (D : forall s l, length (displs_from s l) = S (length l)) by (intros s m; revert s; induction m as [|v t IH]; intros s; cbn; [reflexivity|rewrite IH; reflexivity]). destruct (displs_from 0 (map (@length X) l)) eqn:E; pose proof (D 0 (map (@length X) l)) as Q; rewrite E, map_length in Q; cbn in *; lia. Qed.

(** ** All ranks *)
Section System.
Variables (P k : nat) (G : graph) (dist edist : list nat) (d : nat -> dcsr) (parts : nat -> list nat) (part : nat -> nat).
Hypothesis HDs : distributed P G dist edist d.
Hypothesis HC : closed_graph G.
Hypothesis HS : symmetric_adjacency G.
Hypothesis Hpart : forall g, g < gn G -> part g < k.
Hypothesis Hagree : agree P d parts part.
Notation from r := (nth r dist 0).
Notation own := (find_owner dist).

Lemma own_node r u : r < P -> u < dn (d r) -> from r + u < gn G /\ own (from r + u) = r /\ dlocal_to_global (d r) u = Some (from r + u).
Proof.
  intros Hr Hu. assert (O : owns dist r (from r + u)) by (apply (owned P G dist edist d HDs r _ Hr); exists u; auto).
  split; [exact (owns_lt P (gn G) dist (proj1 HDs) r _ Hr O)|]. split; [exact (own_find P G dist edist d HDs r _ Hr O)|].
  destruct (rank_data P G dist edist d HDs r Hr) as [[V _ _] _]. destruct V as (_ & V2 & _). exact (V2 u Hu).
Qed.
Lemma node_own x : x < gn G -> own x < P /\ x - from (own x) < dn (d (own x)) /\ from (own x) + (x - from (own x)) = x.
Proof.
  intros Hx. destruct (find_owner_owns P (gn G) dist x (proj1 HDs) Hx) as [A B]. apply (owned P G dist edist d HDs _ x A) in B. destruct B as (u & B1 & B2).
  split; [exact A|]. split; lia.
Qed.
Definition pb (r u : nat) : nat := part (from r + u).
Lemma own_blocks r u : r < P -> u < dn (d r) -> nth_error (parts r) u = Some (pb r u) /\ pb r u < k.
Proof. intros Hr Hu. destruct (own_node r u Hr Hu) as (A & B & C). split; [exact (Hagree r u _ Hr C)|exact (Hpart _ A)]. Qed.

Variable order : nat -> list nat.
Hypothesis Hord : forall r, r < P -> Permutation (order r) (seq 0 (dn (d r))).
Definition us (r b : nat) : list nat := members (pb r) (order r) b.
Definition cnts : list (list nat) := map (fun r => map (fun b => length (us r b)) (seq 0 k)) (seq 0 P).
Lemma us_in r b u : r < P -> In u (us r b) <-> u < dn (d r) /\ pb r u = b.
Proof.
  intros Hr. unfold us, members. rewrite filter_In, Nat.eqb_eq. split; intros [A B]; (split; [|exact B]).
  - apply (Permutation_in _ (Hord r Hr)) in A. apply in_seq in A. lia.
  - apply (Permutation_in _ (Permutation_sym (Hord r Hr))). apply in_seq. lia.
Qed.
Lemma us_nodup r b : r < P -> NoDup (us r b).
Proof. intros Hr. apply NoDup_filter. apply (Permutation_NoDup (Permutation_sym (Hord r Hr))). apply seq_NoDup. Qed.
Lemma rank_counts r : r < P -> node_counts k (d r) (parts r) = Some (map (fun b => length (us r b)) (seq 0 k)).
Proof.
  intros Hr. rewrite (node_counts_ok k (d r) (parts r) (pb r)) by (intros u Hu; exact (own_blocks r u Hr Hu)). f_equal. apply map_ext. intros b. apply Permutation_length. unfold us, members. apply filter_perm. apply Permutation_sym, Hord, Hr.
Qed.
Lemma cnts_ok : traverse (fun r => node_counts k (d r) (parts r)) (seq 0 P) = Some cnts.
Proof. apply traverse_ok. intros r Hr. apply in_seq in Hr. apply rank_counts. lia. Qed.
Definition before (r b : nat) : nat := length (concat (map (fun q => us q b) (seq 0 r))).
Lemma exscan_ok r : r <= P -> exscan k cnts r = map (before r) (seq 0 k).
Proof.
  intros Hr. unfold exscan, cnts. apply map_ext_in. intros b Hb. apply in_seq in Hb. rewrite firstn_map, firstn_seq', Nat.min_l by exact Hr. rewrite map_map. unfold before. rewrite length_concat, map_map. f_equal. apply map_ext. intros q.
  rewrite nth_map_seq by lia. reflexivity.
Qed.

Variable pd : nat -> placed.
Hypothesis Hpd : forall r, r < P -> number_nodes k (d r) (parts r) (exscan k cnts r) (order r) = Some (pd r).
Lemma numbered r : r < P -> pd_blocks (pd r) = map (us r) (seq 0 k) /\ length (pd_map (pd r)) = dn (d r) + dghost_n (d r) /\
  forall u, u < dn (d r) -> exists i, nth_error (us r (pb r u)) i = Some u /\ nth_error (pd_map (pd r)) u = Some (before r (pb r u) + i).
Proof.
  intros Hr. destruct (number_prefix k (d r) (parts r) (pb r) (fun u Hu => own_blocks r u Hr Hu) (exscan k cnts r) (order r)) as (s & E & A & B & C).
  - rewrite exscan_ok by lia. rewrite map_length, seq_length. reflexivity.
  - apply (Permutation_NoDup (Permutation_sym (Hord r Hr))). apply seq_NoDup.
  - intros u Hu. apply (Permutation_in _ (Hord r Hr)) in Hu. apply in_seq in Hu. lia.
  - rewrite (Hpd r Hr) in E. injection E as <-. split; [exact A|]. split; [exact B|]. intros u Hu. destruct (C u) as (i & C1 & C2).
    + apply (Permutation_in _ (Permutation_sym (Hord r Hr))). apply in_seq. lia.
    + exists i. split; [exact C1|]. rewrite C2. f_equal. rewrite exscan_ok by lia. rewrite nth_map_seq by exact (proj2 (own_blocks r u Hr Hu)). reflexivity.
Qed.

(** The nodes of block b in the order of their numbers. *)
Definition ns (b : nat) : list nat := concat (map (fun q => map (fun u => from q + u) (us q b)) (seq 0 P)).
Definition num (g : nat) : nat := nth (g - from (own g)) (pd_map (pd (own g))) 0.
Lemma ns_in b g : In g (ns b) <-> g < gn G /\ part g = b.
Proof.
  unfold ns. rewrite in_concat. split.
  - intros (l & A & B). apply in_map_iff in A. destruct A as (q & <- & A). apply in_seq in A. apply in_map_iff in B. destruct B as (u & <- & B). apply us_in in B; [|lia]. destruct B as [B1 B2].
    destruct (own_node q u ltac:(lia) B1) as (C & _). split; [exact C|exact B2].
  - intros [A B]. destruct (node_own g A) as (C & D & E). exists (map (fun u => from (own g) + u) (us (own g) b)). split; [apply in_map_iff; exists (own g); split; [reflexivity|apply in_seq; lia]|].
    apply in_map_iff. exists (g - from (own g)). split; [exact E|]. apply us_in; [exact C|]. split; [exact D|]. unfold pb. rewrite E. exact B.
Qed.
Lemma ns_nodup b : NoDup (ns b).
Proof.
  unfold ns. assert (H : forall l, NoDup l -> (forall q, In q l -> q < P) -> NoDup (concat (map (fun q => map (fun u => from q + u) (us q b)) l))).
  { induction l as [|q t IH]; intros N L; [constructor|]. inversion N as [|? ? N1 N2]; subst. cbn [map concat]. assert (Hq : q < P) by (apply L; left; reflexivity). apply NoDup_app_intro; [| |].
    - apply FinFun.Injective_map_NoDup; [intros a c E; lia|exact (us_nodup q b Hq)].
    - apply IH; [exact N2|intros q' Hq'; apply L; right; exact Hq'].
    - intros g A B. apply in_map_iff in A. destruct A as (u & <- & A). apply (us_in q b u Hq) in A. destruct (own_node q u Hq (proj1 A)) as (_ & O & _). apply in_concat in B. destruct B as (l & B1 & B2).
      apply in_map_iff in B1. destruct B1 as (q' & <- & B1). assert (Hq' : q' < P) by (apply L; right; exact B1). apply in_map_iff in B2. destruct B2 as (u' & E & B2). apply (us_in q' b u' Hq') in B2. destruct (own_node q' u' Hq' (proj1 B2)) as (_ & O' & _).
      rewrite E in O'. assert (Eq : q = q') by congruence. rewrite <- Eq in B1. apply N1. exact B1. }
  apply H; [apply seq_NoDup|]. intros q Hq. apply in_seq in Hq. lia.
Qed.
Lemma ns_at r b i u : r < P -> nth_error (us r b) i = Some u -> nth_error (ns b) (before r b + i) = Some (from r + u).
Proof.
  intros Hr E. unfold ns. rewrite (seq_split3 r 1 P) by lia. rewrite !map_app, !concat_app. cbn [seq map concat]. rewrite app_nil_r.
  assert (L : length (concat (map (fun q => map (fun u => from q + u) (us q b)) (seq 0 r))) = before r b).
  { unfold before. rewrite !length_concat, !map_map. f_equal. apply map_ext. intros q. apply map_length. }
  rewrite nth_error_app2 by lia. rewrite L. replace (before r b + i - before r b) with i by lia. rewrite nth_error_app1 by (rewrite map_length; exact (in_nth_error' _ _ _ E)). apply map_nth_error. exact E.
Qed.
Lemma num_ok g : g < gn G -> nth_error (ns (part g)) (num g) = Some g.
Proof.
  intros Hg. destruct (node_own g Hg) as (A & B & C). destruct (numbered _ A) as (_ & _ & N). destruct (N _ B) as (i & N1 & N2). unfold num. rewrite (nth_error_nth _ _ 0 N2).
  unfold pb in *. rewrite C in *. pose proof (ns_at _ _ _ _ A N1) as E. rewrite C in E. exact E.
Qed.

Variables (threads : nat -> nat) (bufs : nat -> list (list (nat * nat))).
Hypothesis Hbufs : forall r, r < P -> 0 < threads r /\ buffers_outcome P (d r) (fun u => u) (fun _ _ => true) (value_message (pd_map (pd r)) 0) (threads r) 0 (dn (d r)) (bufs r).
Lemma mapping_ok r msgs : r < P -> Permutation msgs (inbox P bufs r) -> exists mapping, receive_values (d r) (pd_map (pd r)) msgs = Some mapping /\
  forall l g, dlocal_to_global (d r) l = Some g -> nth_error mapping l = Some (num g).
Proof.
  intros Hr Hm. destruct (sync_ok P G dist (proj1 HDs) num d (fun r => pd_map (pd r)) 0 threads bufs HC HS) with (q := r) (msgs := msgs) as (mp & A & _ & B); try assumption.
  - intros q Hq. exact (proj1 (rank_data P G dist edist d HDs q Hq)).
  - intros q Hq. exact (proj1 (Hbufs q Hq)).
  - intros q Hq. right. destruct (numbered q Hq) as (_ & L & _). lia.
  - intros q u Hq Hu. destruct (own_node q u Hq Hu) as (_ & O & _). unfold num. rewrite O. f_equal. lia.
  - intros q Hq. exact (proj2 (Hbufs q Hq)).
  - exists mp. split; [exact A|exact B].
Qed.

(** Rows of block b on rank r. *)
Definition row (b g : nat) : list (nat * Z) := map (fun e => (num (fst e), snd e)) (filter (fun e => part (fst e) =? b) (gadj G g)).
Definition rws (r b : nat) : list (list (nat * Z)) := map (fun u => row b (from r + u)) (us r b).
Definition nds r b := row_ends (rws r b).
Definition nws r b := map (fun u => gvw G (from r + u)) (us r b).
Definition eds r b := concat (map (map fst) (rws r b)).
Definition ews r b := concat (map (map snd) (rws r b)).
Lemma row_facts' r u b mapping : r < P -> u < dn (d r) -> (forall l g, dlocal_to_global (d r) l = Some g -> nth_error mapping l = Some (num g)) ->
  exists nbs, dadj (d r) u = Some nbs /\ count_inner (parts r) b nbs = Some (length (row b (from r + u))) /\ keep_inner (parts r) mapping b nbs = Some (row b (from r + u)).
Proof.
  intros Hr Hu Hm. destruct (rank_data P G dist edist d HDs r Hr) as [[V _ _] _]. destruct V as (_ & _ & _ & _ & _ & _ & _ & V8). destruct (V8 u Hu) as (nbs & E & M). exists nbs. split; [exact E|].
  destruct (rows_ok (d r) (parts r) mapping part num b nbs _ M) as [A B].
  - intros l g El. split; [exact (Hagree r l g Hr El)|exact (Hm l g El)].
  - unfold row. rewrite map_length. split; [exact A|exact B].
Qed.
Lemma extract_local_ok r mapping : r < P -> (forall l g, dlocal_to_global (d r) l = Some g -> nth_error mapping l = Some (num g)) ->
  exists x, extract_local k (d r) (parts r) (exscan k cnts r) (pd_blocks (pd r)) mapping = Some x /\
    ex_nodes x = concat (map (nds r) (seq 0 k)) /\ ex_nw x = concat (map (nws r) (seq 0 k)) /\ ex_edges x = concat (map (eds r) (seq 0 k)) /\ ex_ew x = concat (map (ews r) (seq 0 k)) /\
    ex_noff x = displs (map (fun b => length (nds r b)) (seq 0 k)) /\ ex_eoff x = displs (map (fun b => length (eds r b)) (seq 0 k)) /\
    forall u, u < dn (d r) -> exists i, nth_error (ex_map x) u = Some i /\ nth_error (us r (pb r u)) i = Some u.
Proof.
  intros Hr Hm. destruct (numbered r Hr) as (Nb & Nl & Nn). unfold extract_local. rewrite (rank_counts r Hr). cbn [bind].
  rewrite (edge_counts_ok k (d r) (parts r) (pb r) (fun u Hu => own_blocks r u Hr Hu) (fun u => length (row (pb r u) (from r + u)))).
  2: { intros u Hu. destruct (row_facts' r u (pb r u) mapping Hr Hu Hm) as (nbs & A & B & _). exists nbs. split; assumption. }
  cbn [bind]. rewrite Nb.
  assert (C : combine (seq 0 k) (map (us r) (seq 0 k)) = map (fun b => (b, us r b)) (seq 0 k)) by (clear; induction (seq 0 k) as [|b t IH]; [reflexivity|cbn [map combine]; rewrite IH; reflexivity]).
  rewrite C. rewrite (traverse_ok _ (fun x => map (fun u => (row (fst x) (from r + u), gvw G (from r + u))) (snd x))).
  2: { intros [b l] Hin. apply in_map_iff in Hin. destruct Hin as (b' & [= <- <-] & _). cbn [fst snd]. apply traverse_ok. intros u Hu. apply (us_in r b' u Hr) in Hu. destruct (row_facts' r u b' mapping Hr (proj1 Hu) Hm) as (nbs & A & _ & B).
       unfold extract_node. rewrite A. cbn [bind]. rewrite B. cbn [bind]. destruct HDs as (_ & _ & _ & Q). destruct (Q r Hr) as (_ & W & _). rewrite (W u (proj1 Hu)). reflexivity. }
  cbn [bind]. set (rel := traverse _ (seq 0 (dn (d r)))). assert (Hrel : exists l, rel = Some l /\ forall u, u < dn (d r) -> exists i, nth_error l u = Some i /\ nth_error (us r (pb r u)) i = Some u).
  { unfold rel. pose (h := fun u => nth u mapping 0 - before r (pb r u)). exists (map h (seq 0 (dn (d r)))). assert (Hmap : forall u, u < dn (d r) -> exists i, nth_error (us r (pb r u)) i = Some u /\ nth_error mapping u = Some (before r (pb r u) + i)).
    { intros u Hu. destruct (Nn u Hu) as (i & A & B). exists i. split; [exact A|]. destruct (own_node r u Hr Hu) as (_ & O & E). rewrite (Hm u _ E). f_equal. unfold num. rewrite O. replace (from r + u - from r) with u by lia. exact (nth_error_nth _ _ 0 B). }
    split.
    - apply traverse_ok. intros u Hu. apply in_seq in Hu. destruct (own_blocks r u Hr) as [A B]; [lia|]. rewrite A. cbn [bind]. rewrite exscan_ok by lia. rewrite nth_error_map_seq by exact B. cbn [bind].
      destruct (Hmap u) as (i & _ & D); [lia|]. rewrite D. cbn [bind]. f_equal. unfold h. rewrite (nth_error_nth _ _ 0 D). reflexivity.
    - intros u Hu. destruct (Hmap u Hu) as (i & A & D). exists i. split; [|exact A]. rewrite nth_error_map_seq by exact Hu. f_equal. unfold h. rewrite (nth_error_nth _ _ 0 D). lia. }
  destruct Hrel as (l & -> & Hl). cbn [bind]. eexists. split; [reflexivity|]. cbn [ex_nodes ex_nw ex_edges ex_ew ex_noff ex_eoff ex_map]. rewrite !map_map. cbn [fst snd].
  split; [f_equal; apply map_ext; intros b; rewrite map_map; reflexivity|]. split; [f_equal; apply map_ext; intros b; rewrite map_map; reflexivity|].
  split; [f_equal; apply map_ext; intros b; unfold eds, rws; rewrite !map_map; reflexivity|]. split; [f_equal; apply map_ext; intros b; unfold ews, rws; rewrite !map_map; reflexivity|].
  split; [f_equal; apply map_ext; intros b; unfold nds, rws; rewrite row_ends_length, map_length; reflexivity|]. split; [|exact Hl].
  f_equal. apply map_ext_in. intros b Hb. unfold eds, rws. rewrite length_concat, !map_map. rewrite (sum_perm _ (map (fun u => length (row (pb r u) (from r + u))) (us r b))).
  - f_equal. apply map_ext_in. intros u Hu. apply (us_in r b u Hr) in Hu. rewrite (proj2 Hu), map_length. reflexivity.
  - apply Permutation_map. unfold us, members. apply filter_perm. apply Permutation_sym, Hord, Hr.
Qed.

(** The subgraph of block b. *)
Theorem induced_ok b : let c := fst (gathered P nds nws eds ews b) in induced_by G part b (ns b) (user_graph (cs_nodes c) (cs_edges c) (cs_nw c) (cs_ew c)).
Proof.
  intros c. set (R := map (row b) (ns b)). set (W := map (gvw G) (ns b)).
  assert (ER : concat (map (fun q => rws q b) (seq 0 P)) = R) by (unfold R, ns, rws; rewrite concat_map, map_map; f_equal; apply map_ext; intros q; rewrite map_map; reflexivity).
  assert (EW : cs_nw c = W) by (unfold c, gathered, W, ns, nws; cbn [fst cs_nw]; rewrite concat_map, map_map; f_equal; apply map_ext; intros q; rewrite map_map; reflexivity).
  assert (Fl : forall Y (f : nat * Z -> Y), concat (map (fun q => concat (map (map f) (rws q b))) (seq 0 P)) = concat (map (map f) R)).
  { intros Y f. rewrite <- ER, concat_map, map_map. clear. induction (seq 0 P) as [|q t IH]; [reflexivity|]. cbn [map concat]. rewrite concat_app, IH. reflexivity. }
  assert (EE : cs_edges c = concat (map (map fst) R)) by exact (Fl nat fst).
  assert (EF : cs_ew c = concat (map (map snd) R)) by exact (Fl Z snd).
  assert (EN : cs_nodes c = displs (map (@length _) R)).
  { rewrite <- ER, <- (node_array (fun q => rws q b) P). unfold c, gathered, nds. cbn [fst cs_nodes]. f_equal. f_equal. apply map_ext. intros q. apply map_ext. intros e. f_equal.
    rewrite !length_concat, !map_map. f_equal. apply map_ext. intros q'. unfold eds. rewrite <- concat_map, map_length. reflexivity. }
  rewrite EW, EE, EF, EN. assert (LW : length W = length R) by (unfold W, R; rewrite !map_length; reflexivity). destruct (csr_rows R W LW) as [G1 G2]. assert (LR : length R = length (ns b)) by (unfold R; apply map_length).
  split; [exact (ns_nodup b)|]. split; [exact (ns_in b)|]. split; [rewrite G1; exact LR|].
  assert (Hrow : forall i, i < length (ns b) -> nth i R [] = row b (nth i (ns b) 0) /\ nth i (ns b) 0 < gn G).
  { intros i Hi. split; [unfold R; rewrite (nth_indep _ [] (row b 0)) by (rewrite map_length; exact Hi); apply map_nth|]. apply (ns_in b), nth_In, Hi. }
  assert (Hin : forall i e, i < length (ns b) -> In e (filter (fun e => part (fst e) =? b) (gadj G (nth i (ns b) 0))) -> nth_error (ns b) (num (fst e)) = Some (fst e)).
  { intros i [v w] Hi He. apply filter_In in He. destruct He as [A B]. apply Nat.eqb_eq in B. cbn [fst] in *. rewrite <- B. apply num_ok. exact (HC _ _ _ (proj2 (Hrow i Hi)) A). }
  split.
  - intros i v w Hi Hv. rewrite G1 in *. rewrite LR in *. destruct (G2 i Hi) as [A _]. rewrite A, (proj1 (Hrow i Hi)) in Hv. unfold row in Hv. apply in_map_iff in Hv. destruct Hv as (e & [= <- <-] & He). exact (in_nth_error' _ _ _ (Hin i e Hi He)).
  - intros i Hi. destruct (G2 i) as [A B]; [lia|]. split.
    + rewrite B. unfold W. rewrite (nth_indep _ 0%Z (gvw G 0)) by (rewrite map_length; exact Hi). apply map_nth.
    + rewrite A, (proj1 (Hrow i Hi)). unfold row. rewrite map_map. cbn [fst snd]. rewrite <- map_id. apply map_ext_in. intros e He. rewrite (nth_error_nth _ _ 0 (Hin i e Hi He)). destruct e; reflexivity.
Qed.
End System.
