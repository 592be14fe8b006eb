(* The gathered subgraphs, and the partition that results from partitions of the subgraphs. *)
From Verif Require Import Lib.Prelude Model.GridModel Model.DistGraphModel Model.ReplicateModel Model.DistExtractModel Spec.Graph Spec.DistGraphSpec Spec.ReplicateSpec Spec.DistJetSpec
  Spec.DistExtractSpec Proofs.GridBase Proofs.DistViewProofs Proofs.ExchangeProofs Proofs.RearrangeSystem Proofs.ColoringFinal Proofs.ExtractLocal Proofs.ExtractGather Proofs.ExtractOffsets Proofs.ExtractSystem.

(** ** The hypotheses of [gather_ok] hold *)
Lemma gather_supported P k Nd Nw Ed Ew x me : supported P k -> me < P ->
  (forall q, q < P -> ex_nodes (x q) = concat (map (Nd q) (seq 0 k))) -> (forall q, q < P -> ex_nw (x q) = concat (map (Nw q) (seq 0 k))) ->
  (forall q, q < P -> ex_edges (x q) = concat (map (Ed q) (seq 0 k))) -> (forall q, q < P -> ex_ew (x q) = concat (map (Ew q) (seq 0 k))) ->
  (forall q, q < P -> ex_noff (x q) = displs (map (fun b => length (Nd q b)) (seq 0 k))) -> (forall q, q < P -> ex_eoff (x q) = displs (map (fun b => length (Ed q b)) (seq 0 k))) ->
  (forall q b, q < P -> b < k -> length (Nw q b) = length (Nd q b)) -> (forall q b, q < P -> b < k -> length (Ew q b) = length (Ed q b)) ->
  exists B, gather P k (map x (seq 0 P)) me = Some (map (fun i => gathered P Nd Nw Ed Ew (first_block_on_pe P k me + i)) (seq 0 B)) /\
    (forall b, (b < k /\ works_on P k me b) <-> exists i, i < B /\ b = first_block_on_pe P k me + i) /\ (k <= P -> B = 1).
Proof.
  intros (Hk & HP & [[HkP Hf]|[HPk Hm]]) Hme X1 X2 X3 X4 X5 X6 L1 L2.
  - exists 1. destruct (finite_choice (fun r b => b < k /\ works_on P k r b) P 0 (works_exists P k Hk HkP)) as [bl Hbl].
    assert (Fb : forall r, r < P -> first_block_on_pe P k r = bl r) by (intros r Hr; destruct (Hbl r Hr) as [A B]; exact (first_block_few P k Hk HkP Hf r _ A B)).
    assert (Rng : forall b t, first_pe_with_block P k b <= t < first_pe_with_block P k b + num_pes_with_block P k b <-> works_on P k t b).
    { intros b t. rewrite (works_few P k Hk HkP). rewrite <- (num_pes_few P k Hk HkP b), (first_pe_few P k Hk HkP). reflexivity. }
    assert (Lt : forall b t, b < k -> works_on P k t b -> t < P).
    { intros b t Hb W. apply (works_few P k Hk HkP) in W. pose proof (fst_pe_mono P k Hk HkP (S b) k Hb) as Q. rewrite (fst_pe_k P k Hk HkP) in Q. apply (Nat.lt_le_trans _ _ _ (proj2 W)). exact Q. }
    assert (Mx : Nat.max k P = P) by lia. split; [|split; [|reflexivity]].
    + apply (gather_ok P k 1 bl); try assumption.
      * intros pe. exact (num_blocks_few P k Hk HkP Hf pe).
      * intros pe _. rewrite (recv_offset_few P k Hk HkP Hf). lia.
      * intros pe Hpe. rewrite (Fb pe Hpe). destruct (Hbl pe Hpe) as [A _]. lia.
      * rewrite (Fb 0 HP). destruct (Hbl 0 HP) as [A B]. apply (works_unique P k Hk HkP 0 _ 0 B). apply (works_few P k Hk HkP). split; [cbn; lia|]. assert (1 <= P / k) by (apply Nat.div_le_lower_bound; lia). revert H. generalize (P / k) (P mod k). intros; cbn; lia.
      * intros b t Hb W. apply Rng in W. pose proof (Lt b t Hb W) as Ht. split; [lia|]. exact (works_unique P k Hk HkP t _ b (proj2 (Hbl t Ht)) W).
      * intros t Ht. rewrite Mx in Ht. destruct (Hbl t Ht) as [A B]. split; [exact A|]. apply Rng. exact B.
      * intros pe i Hpe Hi. replace (i + pe * 1) with pe by lia. rewrite Mx. split; [exact Hpe|]. rewrite (Fb pe Hpe). lia.
    + intros b. rewrite (Fb me Hme). destruct (Hbl me Hme) as [A B]. split.
      * intros [C D]. exists 0. split; [lia|]. rewrite Nat.add_0_r. exact (works_unique P k Hk HkP me b _ D B).
      * intros (i & Hi & ->). replace (bl me + i) with (bl me) by lia. split; assumption.
  - exists (k / P). pose proof (Nat.div_mod k P ltac:(lia)) as DM. rewrite Hm, Nat.add_0_r in DM.
    assert (Dv : forall pe, pe < P -> pe * (k / P) + k / P <= k) by (intros pe Hpe; revert DM; generalize (k / P); intros; nia).
    assert (Mx : Nat.max k P = k) by lia. split; [|split; [|intros; lia]].
    + apply (gather_ok P k (k / P) (fun t => t)); try assumption.
      * intros pe. exact (num_blocks_many P k HP HPk Hm pe).
      * intros pe _. exact (recv_offset_many P k HP HPk Hm pe).
      * intros pe Hpe. rewrite (first_block_many P k HP HPk Hm). exact (Dv pe Hpe).
      * rewrite (first_block_many P k HP HPk Hm). reflexivity.
      * intros b t Hb. rewrite (first_pe_many P k HP HPk Hm), (num_pes_many P k HP HPk Hm). intros; lia.
      * intros t Ht. rewrite (first_pe_many P k HP HPk Hm), (num_pes_many P k HP HPk Hm). lia.
      * intros pe i Hpe Hi. rewrite (first_block_many P k HP HPk Hm), Mx. pose proof (Dv pe Hpe). lia.
    + intros b. rewrite (first_block_many P k HP HPk Hm). unfold works_on. destruct (Nat.leb_spec k P) as [Q|_]; [lia|]. pose proof (Dv me Hme) as D. cbn [Nat.mul]. split.
      * intros [C1 C2]. exists (b - me * (k / P)). lia.
      * intros (i & Hi & ->). lia.
Qed.

Lemma find_winner_ok P k cuts b : num_pes_with_block P k b > 0 -> first_pe_with_block P k b + num_pes_with_block P k b <= length cuts ->
  exists w, find_winner P k cuts b = Some w /\ first_pe_with_block P k b <= w < first_pe_with_block P k b + num_pes_with_block P k b /\
    forall r, first_pe_with_block P k b <= r < first_pe_with_block P k b + num_pes_with_block P k b -> (nth w cuts 0 <= nth r cuts 0)%Z.
Proof.
  unfold find_winner. generalize (first_pe_with_block P k b) (num_pes_with_block P k b). intros s n Hn HL.
  assert (H : forall j, j <= n -> exists w, fold_left (fun acc cur => bind acc (fun best => bind (nth_error cuts cur) (fun c => bind (nth_error cuts best) (fun cb => Some (if (c <? cb)%Z then cur else best)))))
    (seq s j) (Some s) = Some w /\ s <= w < s + n /\ forall r, s <= r < s + j -> (nth w cuts 0 <= nth r cuts 0)%Z).
  { induction j as [|j IH]; intros Hj; [exists s; split; [reflexivity|]; split; [lia|intros; lia]|]. destruct IH as (w & E & R & M); [lia|]. rewrite seq_S, fold_left_app, E. cbn [fold_left bind].
    rewrite (nth_error_nth' cuts 0%Z (n := s + j)) by lia. rewrite (nth_error_nth' cuts 0%Z (n := w)) by lia. cbn [bind]. destruct (Z.ltb_spec (nth (s + j) cuts 0%Z) (nth w cuts 0%Z)) as [Q|Q]; eexists; (split; [reflexivity|]); (split; [lia|]); intros r Hr.
    - destruct (Nat.eq_dec r (s + j)) as [->|N]; [lia|]. specialize (M r ltac:(lia)). lia.
    - destruct (Nat.eq_dec r (s + j)) as [->|N]; [lia|]. apply M. lia. }
  destruct (H n (Nat.le_refl n)) as (w & A & B & C). exists w. split; [exact A|]. split; [exact B|exact C].
Qed.

Lemma nth_error_map_seq' {A} (h : nat -> A) s n i : i < n -> nth_error (map h (seq s n)) i = Some (h (s + i)).
Proof.
  intros H. rewrite (nth_error_nth' _ (h 0)) by (rewrite map_length, seq_length; exact H). f_equal. rewrite map_nth, seq_nth by exact H. reflexivity.
Qed.

Section Final.
Variables (P k : nat) (G : graph) (dist edist : list nat) (d : nat -> dcsr) (parts : nat -> list nat) (part : nat -> nat).
Hypothesis HDs : distributed P G dist edist d.
Hypothesis HC : closed_graph G.
Hypothesis HS : symmetric_adjacency G.
Hypothesis Hpart : forall g, g < gn G -> part g < k.
Hypothesis Hagree : agree P d parts part.
Notation from r := (nth r dist 0).
Notation own := (find_owner dist).

(** ** The operation is always possible *)
Theorem extract_exists : exists ex, extract_outcome P k d parts ex.
Proof.
  pose (order := fun r => seq 0 (dn (d r))). assert (Hord : forall r, r < P -> Permutation (order r) (seq 0 (dn (d r)))) by (intros r _; apply Permutation_refl).
  destruct (finite_choice (fun r p => number_nodes k (d r) (parts r) (exscan k (cnts P k dist part order) r) (order r) = Some p) P (Placed [] [])) as [pd Hpd].
  { intros r Hr. destruct (number_prefix k (d r) (parts r) (pb dist part r) (fun u Hu => own_blocks P k G dist edist d parts part HDs Hpart Hagree r u Hr Hu) (exscan k (cnts P k dist part order) r) (order r)) as (s & E & _).
    - unfold exscan. rewrite map_length. apply seq_length.
    - apply seq_NoDup.
    - intros u Hu. apply in_seq in Hu. lia.
    - exists s. exact E. }
  destruct (finite_choice (fun r b => buffers_outcome P (d r) (fun u => u) (fun _ _ => true) (value_message (pd_map (pd r)) 0) 1 0 (dn (d r)) b) P []) as [bufs Hb].
  { intros r Hr. apply (buffers_some P G dist (proj1 HDs)) with (r := r); [exact Hr|exact (proj1 (rank_data P G dist edist d HDs r Hr))|exact HC|lia|intros s Hs; lia]. }
  assert (Hbufs : forall r, r < P -> 0 < (fun _ : nat => 1) r /\ buffers_outcome P (d r) (fun u => u) (fun _ _ => true) (value_message (pd_map (pd r)) 0) ((fun _ : nat => 1) r) 0 (dn (d r)) (bufs r)) by (intros r Hr; split; [lia|exact (Hb r Hr)]).
  destruct (finite_choice (fun r m => receive_values (d r) (pd_map (pd r)) (inbox P bufs r) = Some m /\ forall l g, dlocal_to_global (d r) l = Some g -> nth_error m l = Some (num dist pd g)) P []) as [mapping Hm].
  { intros r Hr. exact (mapping_ok P k G dist edist d parts part HDs HC HS Hpart Hagree order Hord pd Hpd (fun _ => 1) bufs Hbufs r _ Hr (Permutation_refl _)). }
  destruct (finite_choice (fun r x => extract_local k (d r) (parts r) (exscan k (cnts P k dist part order) r) (pd_blocks (pd r)) (mapping r) = Some x) P (Extracted [] [] [] [] [] [] [])) as [ex Hex].
  { intros r Hr. destruct (extract_local_ok P k G dist edist d parts part HDs Hpart Hagree order Hord pd Hpd (fun _ => 1) bufs Hbufs r (mapping r) Hr (proj2 (Hm r Hr))) as (x & E & _). exists x. exact E. }
  exists ex, (cnts P k dist part order), order, pd, (fun _ => 1), bufs, mapping. split; [exact (cnts_ok P k G dist edist d parts part HDs Hpart Hagree order Hord)|]. split.
  - intros r Hr. split; [exact (Hord r Hr)|]. split; [exact (Hpd r Hr)|]. split; [lia|exact (Hb r Hr)].
  - intros r Hr. split; [exists (inbox P bufs r); split; [apply Permutation_refl|exact (proj1 (Hm r Hr))]|exact (Hex r Hr)].
Qed.

(** The arrays of the ranks. *)
Lemma run_data ex : extract_outcome P k d parts ex -> exists order pd,
  (forall r, r < P -> Permutation (order r) (seq 0 (dn (d r)))) /\
  forall r, r < P -> ex_nodes (ex r) = concat (map (nds G dist part order pd r) (seq 0 k)) /\
    ex_noff (ex r) = displs (map (fun b => length (nds G dist part order pd r b)) (seq 0 k)) /\ ex_eoff (ex r) = displs (map (fun b => length (eds G dist part order pd r b)) (seq 0 k)).
Proof.
  intros (cs & order & pd & threads & bufs & mapping & E1 & E2 & E3).
  assert (Hord : forall r, r < P -> Permutation (order r) (seq 0 (dn (d r)))) by (intros r Hr; exact (proj1 (E2 r Hr))).
  rewrite (cnts_ok P k G dist edist d parts part HDs Hpart Hagree order Hord) in E1. injection E1 as <-.
  assert (Hpd : forall r, r < P -> number_nodes k (d r) (parts r) (exscan k (cnts P k dist part order) r) (order r) = Some (pd r)) by (intros r Hr; exact (proj1 (proj2 (E2 r Hr)))).
  assert (Hbufs : forall r, r < P -> 0 < threads r /\ buffers_outcome P (d r) (fun u => u) (fun _ _ => true) (value_message (pd_map (pd r)) 0) (threads r) 0 (dn (d r)) (bufs r)) by (intros r Hr; exact (proj2 (proj2 (E2 r Hr)))).
  exists order, pd. split; [exact Hord|]. intros r Hr. destruct (E3 r Hr) as [(msgs & Pm & Rm) El].
  destruct (mapping_ok P k G dist edist d parts part HDs HC HS Hpart Hagree order Hord pd Hpd threads bufs Hbufs r msgs Hr Pm) as (mp & Rm' & Hm). rewrite Rm in Rm'. injection Rm' as <-.
  destruct (extract_local_ok P k G dist edist d parts part HDs Hpart Hagree order Hord pd Hpd threads bufs Hbufs r (mapping r) Hr Hm) as (x & Ex & F). rewrite El in Ex. injection Ex as <-.
  destruct F as (F1 & _ & _ & _ & F5 & F6 & _). split; [exact F1|]. split; assumption.
Qed.

(** ** One run *)
Section Run.
Variable ex : nat -> extracted.
Hypothesis Hsup : supported P k.

(** What the rest of the proof needs of a run. *)
Lemma run_facts : extract_outcome P k d parts ex -> exists (us' : nat -> nat -> list nat) (num' : nat -> nat),
  let pre r b := length (concat (map (fun q => us' q b) (seq 0 r))) in
  let ns' b := concat (map (fun q => map (fun u => from q + u) (us' q b)) (seq 0 P)) in
  (forall q b u, q < P -> In u (us' q b) -> u < dn (d q)) /\
  (forall r, r < P -> node_counts k (d r) (parts r) = Some (map (fun b => length (us' r b)) (seq 0 k))) /\
  (forall g, g < gn G -> nth_error (ns' (part g)) (num' g) = Some g) /\
  (forall r u, r < P -> u < dn (d r) -> exists i, nth_error (ex_map (ex r)) u = Some i /\ nth_error (us' r (part (from r + u))) i = Some u /\ num' (from r + u) = pre r (part (from r + u)) + i) /\
  forall me, me < P -> exists B gs, gather P k (map ex (seq 0 P)) me = Some (map gs (seq 0 B)) /\
    (forall b, (b < k /\ works_on P k me b) <-> exists i, i < B /\ b = first_block_on_pe P k me + i) /\ (k <= P -> B = 1) /\
    forall i, i < B -> let b := first_block_on_pe P k me + i in let c := fst (gs i) in
      induced_by G part b (ns' b) (user_graph (cs_nodes c) (cs_edges c) (cs_nw c) (cs_ew c)) /\ snd (gs i) = displs (map (fun q => length (us' q b)) (seq 0 P)).
Proof.
  intros (cs & order & pd & threads & bufs & mapping & E1 & E2 & E3).
  assert (Hord : forall r, r < P -> Permutation (order r) (seq 0 (dn (d r)))) by (intros r Hr; exact (proj1 (E2 r Hr))).
  rewrite (cnts_ok P k G dist edist d parts part HDs Hpart Hagree order Hord) in E1. injection E1 as <-.
  assert (Hpd : forall r, r < P -> number_nodes k (d r) (parts r) (exscan k (cnts P k dist part order) r) (order r) = Some (pd r)) by (intros r Hr; exact (proj1 (proj2 (E2 r Hr)))).
  assert (Hbufs : forall r, r < P -> 0 < threads r /\ buffers_outcome P (d r) (fun u => u) (fun _ _ => true) (value_message (pd_map (pd r)) 0) (threads r) 0 (dn (d r)) (bufs r)) by (intros r Hr; exact (proj2 (proj2 (E2 r Hr)))).
  assert (Hx : forall r, r < P -> ex_nodes (ex r) = concat (map (nds G dist part order pd r) (seq 0 k)) /\ ex_nw (ex r) = concat (map (nws G dist part order r) (seq 0 k)) /\
    ex_edges (ex r) = concat (map (eds G dist part order pd r) (seq 0 k)) /\ ex_ew (ex r) = concat (map (ews G dist part order pd r) (seq 0 k)) /\
    ex_noff (ex r) = displs (map (fun b => length (nds G dist part order pd r b)) (seq 0 k)) /\ ex_eoff (ex r) = displs (map (fun b => length (eds G dist part order pd r b)) (seq 0 k)) /\
    forall u, u < dn (d r) -> exists i, nth_error (ex_map (ex r)) u = Some i /\ nth_error (us dist part order r (pb dist part r u)) i = Some u).
  { intros r Hr. destruct (E3 r Hr) as [(msgs & Pm & Rm) El].
    destruct (mapping_ok P k G dist edist d parts part HDs HC HS Hpart Hagree order Hord pd Hpd threads bufs Hbufs r msgs Hr Pm) as (mp & Rm' & Hm). rewrite Rm in Rm'. injection Rm' as <-.
    destruct (extract_local_ok P k G dist edist d parts part HDs Hpart Hagree order Hord pd Hpd threads bufs Hbufs r (mapping r) Hr Hm) as (x & Ex & F). rewrite El in Ex. injection Ex as <-. exact F. }
  exists (us dist part order), (num dist pd). intros pre ns'. split; [intros q b u Hq Hu; exact (proj1 (proj1 (us_in P k G dist d part Hpart order Hord q b u Hq) Hu))|].
  split; [intros r Hr; exact (rank_counts P k G dist edist d parts part HDs Hpart Hagree order Hord r Hr)|].
  split; [intros g Hg; exact (num_ok P k G dist edist d parts part HDs Hpart Hagree order Hord pd Hpd g Hg)|]. split.
  - intros r u Hr Hu. destruct (Hx r Hr) as (_ & _ & _ & _ & _ & _ & F). destruct (F u Hu) as (i & F1 & F2). exists i. split; [exact F1|]. split; [exact F2|].
    destruct (numbered P k G dist edist d parts part HDs Hpart Hagree order Hord pd Hpd r Hr) as (_ & _ & N). destruct (N u Hu) as (j & N1 & N2). unfold num.
    destruct (own_node P G dist edist d HDs r u Hr Hu) as (_ & O & _). rewrite O. replace (from r + u - from r) with u by lia. rewrite (nth_error_nth _ _ 0 N2). unfold before, pre, pb. f_equal.
    assert (Nd : NoDup (us dist part order r (pb dist part r u))) by exact (us_nodup P dist d part order Hord r _ Hr).
    apply (proj1 (NoDup_nth_error _) Nd); [exact (in_nth_error' _ _ _ N1)|congruence].
  - intros me Hme. destruct (gather_supported P k (nds G dist part order pd) (nws G dist part order) (eds G dist part order pd) (ews G dist part order pd) ex me Hsup Hme) as (B & A1 & A2 & A3).
    1-6: intros q Hq; apply (Hx q Hq).
    + intros q b _ _. unfold nws, nds. rewrite row_ends_length. unfold rws. rewrite !map_length. reflexivity.
    + intros q b _ _. unfold ews, eds. rewrite !length_concat, !map_map. f_equal. apply map_ext. intros l. rewrite !map_length. reflexivity.
    + exists B. eexists. split; [exact A1|]. split; [exact A2|]. split; [exact A3|]. intros i Hi. cbv beta zeta. split.
      * exact (induced_ok P k G dist edist d parts part HDs HC Hpart Hagree order Hord pd Hpd threads bufs Hbufs _).
      * unfold gathered. cbn [snd]. f_equal. apply map_ext. intros q. unfold nds. rewrite row_ends_length. unfold rws. apply map_length.
Qed.

Theorem subgraphs_ok : extract_outcome P k d parts ex -> exists ns : nat -> list nat, forall r, r < P ->
  exists bs l, gather P k (map ex (seq 0 P)) r = Some l /\ NoDup bs /\ (forall b, In b bs <-> b < k /\ works_on P k r b) /\
    Forall2 (fun b (x : csr * list nat) => let (c, offs) := x in induced_by G part b (ns b) (user_graph (cs_nodes c) (cs_edges c) (cs_nw c) (cs_ew c)) /\
      forall q i, q < P -> i < length (ns b) -> (owns dist q (nth i (ns b) 0) <-> nth q offs 0 <= i < nth (S q) offs 0)) bs l.
Proof.
  intros H. destruct (run_facts H) as (us' & num' & F0 & _ & _ & _ & F). clear H. exists (fun b => concat (map (fun q => map (fun u => from q + u) (us' q b)) (seq 0 P))). intros r Hr. destruct (F r Hr) as (B & gs & A1 & A2 & _ & A3).
  exists (map (fun i => first_block_on_pe P k r + i) (seq 0 B)), (map gs (seq 0 B)). split; [exact A1|]. split; [apply FinFun.Injective_map_NoDup; [intros a c E; lia|apply seq_NoDup]|]. split.
  { intros b. rewrite A2, in_map_iff. split; [intros (i & <- & Hi); apply in_seq in Hi; exists i; split; [lia|reflexivity]|intros (i & Hi & ->); exists i; split; [reflexivity|apply in_seq; lia]]. }
  clear A1 A2. assert (K : forall l, (forall i, In i l -> i < B) -> Forall2 (fun b (x : csr * list nat) => let (c, offs) := x in induced_by G part b (concat (map (fun q => map (fun u => from q + u) (us' q b)) (seq 0 P))) (user_graph (cs_nodes c) (cs_edges c) (cs_nw c) (cs_ew c)) /\
      forall q i, q < P -> i < length (concat (map (fun q => map (fun u => from q + u) (us' q b)) (seq 0 P))) -> (owns dist q (nth i (concat (map (fun q => map (fun u => from q + u) (us' q b)) (seq 0 P))) 0) <-> nth q offs 0 <= i < nth (S q) offs 0)) (map (fun i => first_block_on_pe P k r + i) l) (map gs l)).
  2: { apply K. intros i Hi. apply in_seq in Hi. lia. }
  induction l as [|j t IH]; intros L; [constructor|]. cbn [map]. constructor; [|apply IH; intros i Hi; apply L; right; exact Hi].
  destruct (A3 j) as [B1 B2]; [apply L; left; reflexivity|]. destruct (gs j) as [c offs]. cbn [fst snd] in B1, B2. split; [exact B1|]. clear B1 A3 IH. set (b := first_block_on_pe P k r + j) in *.
  set (N := concat _). intros q i Hq Hi. rewrite B2.
  assert (Off : forall q, q <= P -> nth q (displs (map (fun q => length (us' q b)) (seq 0 P))) 0 = length (concat (map (fun q => us' q b) (seq 0 q)))) by (intros q' Hq'; apply nth_error_nth, (displs_concat (fun q => us' q b)); exact Hq').
  (* position i belongs to rank p *)
  assert (Pos : forall M, M <= P -> i < length (concat (map (fun q => map (fun u => from q + u) (us' q b)) (seq 0 M))) -> exists p, p < M /\ length (concat (map (fun q => us' q b) (seq 0 p))) <= i < length (concat (map (fun q => us' q b) (seq 0 (S p)))) /\
    owns dist p (nth i (concat (map (fun q => map (fun u => from q + u) (us' q b)) (seq 0 M))) 0)).
  { assert (Ln : forall M, length (concat (map (fun q => map (fun u => from q + u) (us' q b)) (seq 0 M))) = length (concat (map (fun q => us' q b) (seq 0 M)))) by (intros M; rewrite !length_concat, !map_map; f_equal; apply map_ext; intros; apply map_length).
    induction M as [|M IH]; intros HM Hi'; [cbn in Hi'; lia|]. rewrite concat_S in *. rewrite app_length in Hi'. destruct (Nat.lt_ge_cases i (length (concat (map (fun q => map (fun u => from q + u) (us' q b)) (seq 0 M))))) as [Q|Q].
    - destruct (IH ltac:(lia) Q) as (p & p1 & p2 & p3). exists p. split; [lia|]. split; [exact p2|]. rewrite app_nth1 by exact Q. exact p3.
    - exists M. split; [lia|]. rewrite map_length in Hi'. split; [rewrite concat_S, app_length; rewrite Ln in *; lia|]. rewrite app_nth2 by exact Q.
      apply (owned P G dist edist d HDs M _ ltac:(lia)). assert (In (nth (i - length (concat (map (fun q => map (fun u => from q + u) (us' q b)) (seq 0 M)))) (map (fun u => from M + u) (us' M b)) 0) (map (fun u => from M + u) (us' M b))) as I by (apply nth_In; rewrite map_length; lia).
      apply in_map_iff in I. destruct I as (u & E & I). exists u. rewrite <- E. split; [exact (F0 M b u ltac:(lia) I)|reflexivity]. }
  destruct (Pos P (Nat.le_refl P) Hi) as (p & p1 & p2 & p3). change (concat (map (fun q => map (fun u => from q + u) (us' q b)) (seq 0 P))) with N in p3. rewrite !Off by lia.
  assert (Mono : forall x y, x <= y -> length (concat (map (fun q => us' q b) (seq 0 x))) <= length (concat (map (fun q => us' q b) (seq 0 y)))) by (intros x y Hxy; induction Hxy as [|y _ IH]; [lia|rewrite concat_S, app_length; lia]).
  split.
  - intros O. assert (E : own (nth i N 0) = q) by exact (own_find P G dist edist d HDs q _ Hq O). rewrite (own_find P G dist edist d HDs p _ p1 p3) in E. subst q. exact p2.
  - intros Q. destruct (Nat.lt_trichotomy p q) as [T|[T|T]]; [|subst p; exact p3|]; exfalso.
    + pose proof (Mono (S p) q T). lia.
    + pose proof (Mono (S q) p T). lia.
Qed.

(** ** Projection *)
Section Projection.
Variables (cuts : list Z) (mult : nat) (c : nat -> csr) (offs pl : nat -> list nat).
Hypothesis HkP : k <= P.
Hypothesis Hcuts : length cuts = P.
Hypothesis Hg : forall r, r < P -> gather P k (map ex (seq 0 P)) r = Some [(c r, offs r)].
Hypothesis Hpl : forall r, r < P -> length (pl r) = gn (user_graph (cs_nodes (c r)) (cs_edges (c r)) (cs_nw (c r)) (cs_ew (c r))).
Notation subs := (fun r => [offs r]).
Notation ps := (fun r => [(mult, pl r)]).

Theorem projection_ok : extract_outcome P k d parts ex -> exists part' : nat -> nat,
  (exists parts', project_outcome P k d parts ex cuts subs ps parts') /\
  (forall parts', project_outcome P k d parts ex cuts subs ps parts' -> agree P d parts' part') /\
  forall b, b < k -> exists w N, w < P /\ works_on P k w b /\ (forall r, r < P -> works_on P k r b -> (nth w cuts 0 <= nth r cuts 0)%Z) /\
    induced_by G part b N (user_graph (cs_nodes (c w)) (cs_edges (c w)) (cs_nw (c w)) (cs_ew (c w))) /\
    forall i, i < length N -> part' (nth i N 0) = b * mult + nth i (pl w) 0.
Proof.
  intros H. destruct (run_facts H) as (us' & num' & F0 & F1 & F2 & F3 & F). clear H. destruct Hsup as (Hk & HP & Hs). assert (Hf : few_left P k) by (destruct Hs as [[_ Q]|[Q _]]; [exact Q|lia]). clear Hs.
  set (pre := fun r b => length (concat (map (fun q => us' q b) (seq 0 r)))). set (ns' := fun b => concat (map (fun q => map (fun u => from q + u) (us' q b)) (seq 0 P))).
  assert (Hr : forall r, r < P -> first_block_on_pe P k r < k /\ works_on P k r (first_block_on_pe P k r) /\ offs r = displs (map (fun q => length (us' q (first_block_on_pe P k r))) (seq 0 P)) /\
    induced_by G part (first_block_on_pe P k r) (ns' (first_block_on_pe P k r)) (user_graph (cs_nodes (c r)) (cs_edges (c r)) (cs_nw (c r)) (cs_ew (c r))) /\ length (pl r) = length (ns' (first_block_on_pe P k r))).
  { intros r Hr. destruct (F r Hr) as (B & gs & A1 & A2 & A3 & A4). rewrite (A3 HkP) in *. rewrite (Hg r Hr) in A1. cbn [seq map] in A1. injection A1 as A1.
    destruct (proj2 (A2 (first_block_on_pe P k r))) as [W1 W2]; [exists 0; lia|]. destruct (A4 0) as [I1 I2]; [lia|]. rewrite Nat.add_0_r, <- A1 in *. cbn [fst snd] in I1, I2.
    split; [exact W1|]. split; [exact W2|]. split; [exact I2|]. split; [exact I1|]. rewrite (Hpl r Hr). destruct I1 as (_ & _ & L & _). exact L. }
  clear F. assert (Rng : forall b t, first_pe_with_block P k b <= t < first_pe_with_block P k b + num_pes_with_block P k b <-> works_on P k t b).
  { intros b t. rewrite (works_few P k Hk HkP). rewrite <- (num_pes_few P k Hk HkP b), (first_pe_few P k Hk HkP). reflexivity. }
  assert (Lt : forall b, b < k -> first_pe_with_block P k b + num_pes_with_block P k b <= P).
  { intros b Hb. pose proof (fst_pe_mono P k Hk HkP (S b) k Hb) as Q. rewrite (fst_pe_k P k Hk HkP), <- (num_pes_few P k Hk HkP b), <- (first_pe_few P k Hk HkP) in Q. exact Q. }
  (* the rank whose partition is taken *)
  destruct (finite_choice (fun b w => w < P /\ works_on P k w b /\ (forall r, r < P -> works_on P k r b -> (nth w cuts 0 <= nth r cuts 0)%Z) /\ (if P <=? k then Some (first_pe_with_block P k b) else find_winner P k cuts b) = Some w) k 0) as [w Hw].
  { intros b Hb. destruct (find_winner_ok P k cuts b) as (w & W1 & W2 & W3); [unfold num_pes_with_block; lia|rewrite Hcuts; exact (Lt b Hb)|]. destruct (Nat.leb_spec P k) as [Q|Q].
    - exists b. assert (E : k = P) by lia. assert (Wb : forall r, works_on P k r b <-> r = b). { intros r. rewrite E. unfold works_on. rewrite Nat.leb_refl, Nat.div_same, Nat.mod_same by lia. rewrite !Nat.min_0_r. lia. }
      split; [lia|]. split; [apply Wb; reflexivity|]. split; [intros r _ Q'; apply Wb in Q'; subst r; lia|]. f_equal. rewrite (first_pe_few P k Hk HkP), E, Nat.div_same, Nat.mod_same by lia. rewrite Nat.min_0_r. lia.
    - exists w. split; [pose proof (Lt b Hb); lia|]. split; [apply Rng; exact W2|]. split; [intros r _ Wr; apply W3; apply Rng; exact Wr|exact W1]. }
  assert (Fw : forall b, b < k -> first_block_on_pe P k (w b) = b).
  { intros b Hb. destruct (Hw b Hb) as (A & B & _). exact (first_block_few P k Hk HkP Hf _ b Hb B). }
  set (part' := fun g => part g * mult + nth (num' g) (pl (w (part g))) 0). exists part'.
  (* what rank r gets from rank q *)
  set (piece := fun r q => let b := first_block_on_pe P k q in if w b =? q then map (fun i => nth i (pl q) 0) (seq (pre r b) (length (us' r b))) else []).
  assert (Bf : forall r q, r < P -> q < P -> blocks_for (offs q) (pl q) r = Some (map (fun i => nth i (pl q) 0) (seq (pre r (first_block_on_pe P k q)) (length (us' r (first_block_on_pe P k q)))))).
  { intros r q Hr' Hq. destruct (Hr q Hq) as (_ & _ & O & _ & L). set (b := first_block_on_pe P k q) in *. unfold blocks_for. rewrite O. rewrite (displs_concat (fun q => us' q b)) by lia. cbn [bind]. rewrite Nat.add_1_r, (displs_concat (fun q => us' q b)) by lia. cbn [bind].
    rewrite concat_S, app_length. change (length (concat (map (fun q => us' q b) (seq 0 r)))) with (pre r b). replace (pre r b + length (us' r b) - pre r b) with (length (us' r b)) by lia.
    apply traverse_ok. intros i Hi. apply in_seq in Hi. apply nth_error_nth'. rewrite L. unfold ns'. rewrite length_concat, map_map. rewrite (map_ext _ (fun q => length (us' q b))) by (intros; apply map_length). rewrite (seq_split3 r 1 P) by lia. rewrite !map_app, !list_sum_app. cbn [seq map].
    unfold pre in Hi. rewrite length_concat, map_map in Hi. cbn. lia. }
  assert (Sb : forall r q, r < P -> q < P -> send_blocks P k cuts [offs q] [(mult, pl q)] q r = Some (piece r q)).
  { intros r q Hr' Hq. destruct (Hr q Hq) as (W1 & W2 & _). destruct (Hw _ W1) as (V1 & V2 & V3 & V4). unfold send_blocks, piece. destruct (Nat.leb_spec P k) as [Q|Q].
    - cbn [length seq traverse nth_error bind]. cbn [snd]. rewrite (Bf r q Hr' Hq). cbn [bind concat]. rewrite app_nil_r. assert (E : w (first_block_on_pe P k q) = q).
      { assert (Eb : first_block_on_pe P k q = q). { assert (E : k = P) by lia. apply (first_block_few P k Hk HkP Hf q q); [lia|]. rewrite E. unfold works_on. rewrite Nat.leb_refl, Nat.div_same, Nat.mod_same by lia. rewrite !Nat.min_0_r. lia. }
        rewrite Eb in *. injection V4 as V4. rewrite <- V4. assert (E : k = P) by lia. rewrite (first_pe_few P k Hk HkP), E, Nat.div_same, Nat.mod_same by lia. rewrite Nat.min_0_r. lia. }
      rewrite E, Nat.eqb_refl. reflexivity.
    - rewrite V4. cbn [bind]. destruct (w (first_block_on_pe P k q) =? q); [|reflexivity]. cbn [nth_error bind]. cbn [snd]. exact (Bf r q Hr' Hq). }
  assert (Pl : forall r, r < P -> project_local P k (d r) (parts r) (ex_map (ex r)) cuts (fun r => [offs r]) (fun r => [(mult, pl r)]) r = Some (map (fun u => part' (from r + u)) (seq 0 (dn (d r))))).
  { intros r Hr'. unfold project_local. cbn [nth_error bind length]. change (1 <? 1) with false. rewrite andb_false_r.
    rewrite (traverse_ok _ (piece r)) by (intros q Hq; apply in_seq in Hq; apply Sb; lia). cbn [bind]. rewrite (F1 r Hr'). cbn [bind fst]. apply traverse_ok. intros u Hu. apply in_seq in Hu. destruct Hu as [_ Hu]. cbn [Nat.add] in Hu.
    destruct (own_node P G dist edist d HDs r u Hr' Hu) as (U1 & U2 & U3). pose proof (Hpart _ U1) as Hb. set (b := part (from r + u)) in *. destruct (Hw b Hb) as (V1 & V2 & V3 & V4). destruct (F3 r u Hr' Hu) as (i & I1 & I2 & I3).
    unfold new_block. rewrite (Hagree r u _ Hr' U3). cbn [bind]. fold b. rewrite V4. cbn [bind]. rewrite (Fw b Hb). rewrite (displs_concat (us' r)) by lia. cbn [bind]. rewrite I1. cbn [bind]. rewrite nth_error_map_seq by exact V1. cbn [bind].
    set (z := length (concat (map (us' r) (seq 0 b)))). destruct (Nat.leb_spec z (i + z)) as [_|Q]; [|lia]. replace (i + z - z) with i by lia.
    unfold piece. rewrite (Fw b Hb), Nat.eqb_refl. rewrite (nth_error_map_seq' (fun i => nth i (pl (w b)) 0)) by exact (in_nth_error' _ _ _ I2). cbn [bind]. f_equal. unfold part'. fold b. rewrite I3. reflexivity. }
  (* the exchange *)
  pose (own' := fun r => map (fun u => part' (from r + u)) (seq 0 (dn (d r)))).
  assert (Sync : forall threads bufs, (forall r, r < P -> 0 < threads r /\ buffers_outcome P (d r) (fun u => u) (fun _ _ => true) (value_message (own' r ++ skipn (dn (d r)) (parts r)) 0) (threads r) 0 (dn (d r)) (bufs r)) ->
    forall r msgs, r < P -> Permutation msgs (inbox P bufs r) -> exists arr', receive_values (d r) (own' r ++ skipn (dn (d r)) (parts r)) msgs = Some arr' /\ forall l g, dlocal_to_global (d r) l = Some g -> nth_error arr' l = Some (part' g)).
  { intros threads bufs Hb r msgs Hr' Pm. destruct (sync_ok P G dist (proj1 HDs) part' d (fun r => own' r ++ skipn (dn (d r)) (parts r)) 0 threads bufs HC HS) with (q := r) (msgs := msgs) as (a & A1 & _ & A2); try assumption.
    - intros q Hq. exact (proj1 (rank_data P G dist edist d HDs q Hq)).
    - intros q Hq. exact (proj1 (Hb q Hq)).
    - intros q Hq. destruct (Nat.eq_dec (dn (d q) + dghost_n (d q)) 0) as [Z|Z]; [left; lia|]. right. rewrite app_length. unfold own'. rewrite map_length, seq_length, skipn_length.
      assert (Lp : dn (d q) + dghost_n (d q) <= length (parts q)); [|lia]. destruct (rank_data P G dist edist d HDs q Hq) as [[V _ _] _]. destruct V as (_ & V2 & V3 & _).
      set (l := dn (d q) + dghost_n (d q) - 1). assert (exists g, dlocal_to_global (d q) l = Some g) as [g Eg].
      { destruct (Nat.lt_ge_cases l (dn (d q))) as [T|T]; [exists (from q + l); apply V2; exact T|]. destruct (V3 l) as (g & _ & Eg & _); [lia|]. exists g. exact Eg. }
      pose proof (in_nth_error' _ _ _ (Hagree q l g Hq Eg)). lia.
    - intros q u Hq Hu. rewrite app_nth1 by (unfold own'; rewrite map_length, seq_length; exact Hu). unfold own'. rewrite nth_map_seq by exact Hu. reflexivity.
    - intros q Hq. exact (proj2 (Hb q Hq)).
    - exists a. split; [exact A1|exact A2]. }
  split; [|split].
  - destruct (finite_choice (fun r b => buffers_outcome P (d r) (fun u => u) (fun _ _ => true) (value_message (own' r ++ skipn (dn (d r)) (parts r)) 0) 1 0 (dn (d r)) b) P []) as [bufs Hb].
    { intros r Hr'. apply (buffers_some P G dist (proj1 HDs)) with (r := r); [exact Hr'|exact (proj1 (rank_data P G dist edist d HDs r Hr'))|exact HC|lia|intros s Hs; lia]. }
    assert (Hb' : forall r, r < P -> 0 < (fun _ : nat => 1) r /\ buffers_outcome P (d r) (fun u => u) (fun _ _ => true) (value_message (own' r ++ skipn (dn (d r)) (parts r)) 0) ((fun _ : nat => 1) r) 0 (dn (d r)) (bufs r)) by (intros r Hr'; split; [lia|exact (Hb r Hr')]).
    destruct (finite_choice (fun r a => receive_values (d r) (own' r ++ skipn (dn (d r)) (parts r)) (inbox P bufs r) = Some a) P []) as [parts' Hp].
    { intros r Hr'. destruct (Sync _ bufs Hb' r _ Hr' (Permutation_refl _)) as (a & A & _). exists a. exact A. }
    exists parts', own', (fun _ => 1), bufs. split.
    + intros r Hr'. split; [exact (Pl r Hr')|]. split; [lia|exact (Hb r Hr')].
    + intros r Hr'. exists (inbox P bufs r). split; [apply Permutation_refl|exact (Hp r Hr')].
  - intros parts' (ow & threads & bufs & Q1 & Q2). assert (Eo : forall r, r < P -> ow r = own' r) by (intros r Hr'; destruct (Q1 r Hr') as [Q _]; rewrite (Pl r Hr') in Q; injection Q as <-; reflexivity).
    intros r l g Hr' El. destruct (Q2 r Hr') as (msgs & Pm & Rm). rewrite (Eo r Hr') in Rm. destruct (Sync threads bufs) with (r := r) (msgs := msgs) as (a & A1 & A2); try assumption.
    + intros q Hq. destruct (Q1 q Hq) as (_ & Q). rewrite (Eo q Hq) in Q. exact Q.
    + rewrite Rm in A1. injection A1 as <-. exact (A2 l g El).
  - intros b Hb. destruct (Hw b Hb) as (V1 & V2 & V3 & _). destruct (Hr (w b) V1) as (_ & _ & _ & I & _). rewrite (Fw b Hb) in I. exists (w b), (ns' b). split; [exact V1|]. split; [exact V2|]. split; [exact V3|]. split; [exact I|].
    intros i Hi. destruct I as (I1 & I2 & _). assert (In (nth i (ns' b) 0) (ns' b)) as Hin by (apply nth_In; exact Hi). apply I2 in Hin. destruct Hin as [Hgn Hpb]. unfold part'. rewrite Hpb. f_equal. f_equal.
    pose proof (F2 _ Hgn) as Q. rewrite Hpb in Q. symmetry. apply (proj1 (NoDup_nth_error _) I1); [exact Hi|]. change (concat (map (fun q => map (fun u => from q + u) (us' q b)) (seq 0 P))) with (ns' b) in Q. rewrite Q. apply nth_error_nth'. exact Hi.
Qed.
End Projection.
End Run.
End Final.

(** ** Failures *)
Lemma traverse_fails {A B} (f : A -> option B) l x : In x l -> f x = None -> traverse f l = None.
Proof.
  induction l as [|a t IH]; intros [] E; cbn [traverse]; [subst; rewrite E; reflexivity|]. rewrite (IH H E). destruct (f a); reflexivity.
Qed.
Lemma traverse_length {A B} (f : A -> option B) l : forall r, traverse f l = Some r -> length r = length l.
Proof.
  induction l as [|a t IH]; intros r; cbn [traverse]; [intros [= <-]; reflexivity|]. destruct (f a); [|discriminate]. cbn [bind]. destruct (traverse f t) eqn:E; [|discriminate]. intros [= <-]. cbn. rewrite (IH _ eq_refl). reflexivity.
Qed.
Theorem projection_fails P k d part rel cuts subs ps r u b : P < k -> u < dn d -> nth_error part u = Some b -> P <= b -> project_local P k d part rel cuts subs ps r = None.
Proof.
  intros HPk Hu Eb HPb. unfold project_local. destruct (nth_error (ps r) 0) as [[m first]|]; [|reflexivity]. cbn [bind]. destruct (Nat.leb_spec P k) as [_|]; [|lia]. cbn [negb andb].
  destruct (traverse _ (seq 0 P)) as [recv|] eqn:Er; [|reflexivity]. cbn [bind]. destruct (node_counts k d part) as [nc|]; [|reflexivity]. cbn [bind].
  apply (traverse_fails _ _ u); [apply in_seq; lia|]. unfold new_block. rewrite Eb. cbn [bind]. destruct (Nat.leb_spec P k) as [_|]; [|lia]. cbn [bind].
  destruct (nth_error (displs nc) b); [|reflexivity]. cbn [bind]. destruct (nth_error (displs nc) _); [|reflexivity]. cbn [bind]. destruct (nth_error rel u); [|reflexivity]. cbn [bind].
  assert (E : nth_error recv (first_pe_with_block P k b) = None); [|rewrite E; reflexivity]. apply nth_error_None. rewrite (traverse_length _ _ _ Er), seq_length. unfold first_pe_with_block. lia.
Qed.
Lemma slice_length' {A} (l : list A) s n r : slice l s n = Some r -> length r = n.
Proof. unfold slice. destruct (s + n <=? length l) eqn:E; [|discriminate]. intros [= <-]. apply Nat.leb_le in E. rewrite firstn_length, skipn_length. lia. Qed.
Theorem gather_fails P k xs me : 0 < P -> P < k -> k mod P <> 0 -> k mod P <= me < P -> length xs = P -> gather P k xs me = None.
Proof.
  intros HP HPk Hm Hme HL. unfold gather. destruct (recv_sizes P k xs me) as [sizes|] eqn:Es; [|reflexivity]. cbn [bind].
  assert (Ls : length sizes = P * num_blocks_on_pe P k me).
  { unfold recv_sizes in Es. destruct (traverse _ xs) as [l|] eqn:El; [|discriminate]. cbn [bind] in Es. injection Es as <-. assert (Q : length (concat l) = length xs * num_blocks_on_pe P k me); [|rewrite Q, HL; reflexivity]. clear HL. revert l El. generalize (nth_error (displs (map (num_blocks_on_pe P k) (seq 0 P))) me). intros o.
    induction xs as [|x t IH]; intros l El; cbn [traverse] in El; [injection El as <-; reflexivity|].
    destruct (bind (size_buffer P k x) _) as [y|] eqn:Ey; [|discriminate]. cbn [bind] in El. destruct (traverse _ t) as [l'|] eqn:Et; [|discriminate]. cbn [bind] in El. injection El as <-. cbn [concat length]. rewrite app_length, (IH _ eq_refl).
    destruct (size_buffer P k x) as [buf|]; [|discriminate]. cbn [bind] in Ey. destruct o as [s|]; [|discriminate]. cbn [bind] in Ey. rewrite (slice_length' _ _ _ _ Ey). reflexivity. }
  assert (E : nth_error (displs (map fst sizes)) (recv_offset P k P) = None).
  { apply nth_error_None. assert (D : forall s l, length (displs_from s l) = S (length l)) by (intros s m; revert s; induction m as [|v t IH]; intros s; cbn; [reflexivity|rewrite IH; reflexivity]).
    unfold displs. rewrite D, map_length, Ls. unfold num_blocks_on_pe, recv_offset. destruct (Nat.ltb_spec me (k mod P)) as [|_]; [lia|]. pose proof (Nat.div_mod k P ltac:(lia)) as DM. pose proof (Nat.mod_upper_bound k P ltac:(lia)) as MU.
    assert (1 <= k / P) by (apply Nat.div_le_lower_bound; lia). revert DM MU Hm H. generalize (k / P) (k mod P). intros q0 r1; intros. rewrite (Nat.max_r 1 (q0 + 0)), (Nat.min_r P r1), (Nat.max_r P), Nat.add_0_r by nia. lia. }
  unfold receive_all_parts at 1. rewrite E. reflexivity.
Qed.
(** Ranks left over: some rank takes a wrong block. *)
Theorem wrong_rank P k : 0 < k -> k <= P -> ~ few_left P k -> exists r b, r < P /\ b < k /\ works_on P k r b /\ first_block_on_pe P k r <> b.
Proof.
  intros Hk HkP Hn. pose proof (Nat.div_mod P k ltac:(lia)) as DM. pose proof (Nat.mod_upper_bound P k ltac:(lia)) as MU. assert (Hq : 1 <= P / k) by (apply Nat.div_le_lower_bound; lia).
  assert (HP : P <> k) by (intros ->; apply Hn; left; rewrite Nat.mod_same by lia; lia). unfold few_left, works_on, first_block_on_pe in *. destruct (Nat.leb_spec P k) as [|_]; [lia|]. destruct (Nat.leb_spec k P) as [_|]; [|lia].
  revert DM MU Hq Hn. generalize (P / k) (P mod k). intros q m DM MU Hq Hn. destruct (Nat.eq_dec q 1) as [->|N].
  - exists (2 * m - 2), (m - 1). assert (3 <= m) by lia. split; [nia|]. split; [lia|]. split; [rewrite !Nat.min_l by lia; lia|]. destruct (Nat.leb_spec (2 * m - 2) (m * 1)) as [|_]; [lia|].
    rewrite Z.quot_1_r. lia.
  - exists (m * (q + 1) - 1), (m - 1). assert (2 <= m) by lia. split; [nia|]. split; [lia|]. split; [rewrite !Nat.min_l by lia; nia|]. destruct (Nat.leb_spec (m * (q + 1) - 1) (m * q)) as [|_]; [nia|].
    replace (Z.of_nat (m * (q + 1) - 1) - Z.of_nat (m * (q + 1)))%Z with (-1)%Z by nia. rewrite Z.quot_opp_l with (a := 1%Z) by lia. rewrite Z.quot_small by lia. lia.
Qed.
