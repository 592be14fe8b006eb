(* The colouring of a distributed graph: supersteps, passes, result. *)
From Verif Require Import Lib.Prelude Lib.Count Model.GridModel Model.MathModel Model.DistGraphModel Model.ColoringModel Spec.Graph Spec.DistGraphSpec Spec.ReplicateSpec Spec.ColoringSpec
  Proofs.MathProofs Proofs.DistViewProofs Proofs.ExchangeProofs Proofs.DistSyncProofs Proofs.ReplicateProofs Proofs.RearrangeRank Proofs.RearrangeSystem Proofs.RearrangeFinal Proofs.ColoringNode Proofs.ColoringStep Proofs.ColoringSystem.

Lemma finite_choice {A} (Q : nat -> A -> Prop) n (dflt : A) : (forall r, r < n -> exists x, Q r x) -> exists f, forall r, r < n -> Q r (f r).
Proof.
  induction n as [|n IH]; intros H; [exists (fun _ => dflt); intros; lia|]. destruct IH as [f Hf]; [intros r Hr; apply H; lia|]. destruct (H n ltac:(lia)) as [x Hx].
  exists (fun r => if r =? n then x else f r). intros r Hr. destruct (Nat.eqb_spec r n) as [->|N]; [exact Hx|apply Hf; lia].
Qed.
Lemma fill_run_snoc {X} sched t : forall (s0 s s' : @fill X), fill_run sched s0 = Some s -> fill_step t s = Some s' -> fill_run (sched ++ [t]) s0 = Some s'.
Proof.
  induction sched as [|a l IH]; intros s0 s s' A B; cbn [fill_run app] in *.
  - injection A as <-. rewrite B. reflexivity.
  - destruct (fill_step a s0) as [s1|]; [|discriminate]. cbn [bind] in *. exact (IH s1 s s' A B).
Qed.
Lemma buffers_some P G dist (HD : distribution P (gn G) dist) {X} mapper filter_ (builder : nat -> nat -> nat -> X) r d threads a b :
  r < P -> rank_ok G dist r d -> closed_graph G -> 0 < threads -> (forall s, a <= s < b -> mapper s < dn d) ->
  exists bufs, buffers_outcome P d mapper filter_ builder threads a b bufs.
Proof.
  intros Hr RO HC Ht Hm. destruct (buffers_exist P G dist HD mapper filter_ builder r d threads a b Hr RO HC Ht Hm) as (ms & s0 & _ & _ & H).
  assert (K : forall n sched s, fill_run sched s0 = Some s -> length (concat ms) < length sched + n -> exists bufs, buffers_outcome P d mapper filter_ builder threads a b bufs).
  { induction n as [|n IH]; intros sched s E L; destruct (H sched s E) as [B [(t & s' & Es)|(bufs & O & _)]]; try (exists bufs; exact O); [lia|].
    apply (IH (sched ++ [t]) s'); [exact (fill_run_snoc sched t s0 s s' E Es)|rewrite app_length; cbn [length]; lia]. }
  apply (K (S (length (concat ms))) [] s0 eq_refl). cbn [length]. lia.
Qed.

Lemma step_range n steps i : 0 < steps -> i < steps ->
  N.to_nat (fst (compute_local_range (N.of_nat n) (N.of_nat steps) (N.of_nat i))) <= N.to_nat (snd (compute_local_range (N.of_nat n) (N.of_nat steps) (N.of_nat i))) <= n.
Proof.
  intros Hs Hi. rewrite lr_unfold by lia. cbn [fst snd].
  pose proof (lr_from_mono (N.of_nat n) (N.of_nat steps) (N.of_nat i) (N.of_nat i + 1) ltac:(lia)).
  pose proof (lr_from_mono (N.of_nat n) (N.of_nat steps) (N.of_nat i + 1) (N.of_nat steps) ltac:(lia)).
  rewrite lr_from_size in * by lia. lia.
Qed.

Section Final.
Variables (P : nat) (G : graph) (dist edist : list nat) (d : nat -> dcsr) (steps : nat).
Hypothesis HDs : distributed P G dist edist d.
Hypothesis HC : closed_graph G.
Hypothesis HS : symmetric_adjacency G.
Hypothesis HL : no_self_loops G.
Hypothesis Hst : 0 < steps.
Notation from r := (nth r dist 0).
Notation own := (find_owner dist).
Notation size := (max_colors P d).
Notation nb := (nbr G).
Let HD := proj1 HDs.

Definition visit (i x : nat) : bool :=
  (step_from (d (own x)) steps i <=? x - from (own x)) && (x - from (own x) <? step_to (d (own x)) steps i).
Lemma range_ok r i : i < steps -> step_from (d r) steps i <= step_to (d r) steps i <= dn (d r).
Proof. intros Hi. apply step_range; assumption. Qed.
Lemma visited x : x < gn G -> exists i, In i (seq 0 steps) /\ visit i x = true.
Proof.
  intros Hx. destruct (at_node P G dist edist d HDs x Hx) as (A & B & C). set (r := own x) in *.
  assert (I : In (x - from r) (seq 0 (dn (d r)))) by (apply in_seq; lia). rewrite <- (ranges_tile (dn (d r)) steps Hst) in I. apply in_flat_map in I. destruct I as (i & I1 & I2).
  exists i. split; [exact I1|]. cbv zeta in I2. apply in_seq in I2. unfold visit, step_from, step_to. fold r.
  apply andb_true_iff. split; [apply Nat.leb_le|apply Nat.ltb_lt]; lia.
Qed.
Definition repall (c : nat -> nat) (a : nat -> bool) (s : nat -> cstate) : Prop := forall r, r < P -> rep dist d r c c a (s r).
Notation inv := (inv G own).
Notation step := (step G own).

Definition us (i r : nat) : list nat := seq (step_from (d r) steps i) (step_to (d r) steps i - step_from (d r) steps i).
Definition after (i : nat) (c0 : nat -> nat) (a0 : nat -> bool) (r : nat) := grun G own size c0 (map (fun u => from r + u) (us i r)) (c0, a0).
Definition c_after i c0 a0 x := fst (after i c0 a0 (own x)) x.
Definition a_after i c0 a0 x := snd (after i c0 a0 (own x)) x.
Lemma inv_bounded c a : inv c a -> bounded P G d c.
Proof. intros I x Hx. pose proof (inv_max _ _ _ _ I x Hx). pose proof (size_ok P G dist edist d HDs x Hx). lia. Qed.

Lemma computed i c0 a0 s : i < steps -> repall c0 a0 s -> inv c0 a0 ->
  step (visit i) c0 a0 (c_after i c0 a0) (a_after i c0 a0) /\
  forall r, r < P -> exists s1, color_nodes (d r) size (us i r) (s r) = Some s1 /\ rep dist d r c0 (c_after i c0 a0) (a_after i c0 a0) s1.
Proof.
  intros Hi R I.
  assert (GI : forall r, r < P -> _) by (intros r Hr; exact (grun_inv G own size c0 a0 r (size_ok P G dist edist d HDs) (g_sym G HS) (g_cl G HC) (g_self G HL) (inv_done _ _ _ _ I) (map (fun u => from r + u) (us i r)))).
  assert (Us : forall r u, In u (us i r) <-> step_from (d r) steps i <= u < step_to (d r) steps i) by (intros r u; unfold us; rewrite in_seq; pose proof (range_ok r i Hi); lia).
  assert (Un : forall r, NoDup (map (fun u => from r + u) (us i r))).
  { intros r. apply FinFun.Injective_map_NoDup; [intros x y E; lia|apply seq_NoDup]. }
  assert (Uo : forall r, r < P -> forall g, In g (map (fun u => from r + u) (us i r)) -> g < gn G /\ own g = r).
  { intros r Hr g Hg. apply in_map_iff in Hg. destruct Hg as (u & <- & Hu). apply Us in Hu. apply (at_own P G dist edist d HDs r u Hr). pose proof (range_ok r i Hi). lia. }
  assert (Uv : forall x, x < gn G -> (In x (map (fun u => from (own x) + u) (us i (own x))) <-> visit i x = true)).
  { intros x Hx. destruct (at_node P G dist edist d HDs x Hx) as (A & B & C). unfold visit. rewrite andb_true_iff, Nat.leb_le, Nat.ltb_lt, in_map_iff. split.
    - intros (u & E & Hu). apply Us in Hu. lia.
    - intros H. exists (x - from (own x)). split; [exact C|]. apply Us. lia. }
  split.
  - constructor.
    + intros x Hx Hn. destruct (at_node P G dist edist d HDs x Hx) as (A & B & C). destruct (GI (own x) A (Un _) (Uo _ A)) as (G0 & _). apply G0.
      destruct Hn as [Hn|Hn]; [left; intros K; apply Uv in K; [congruence|exact Hx]|auto].
    + intros x Hx Hv Ax. destruct (at_node P G dist edist d HDs x Hx) as (A & B & C). destruct (GI (own x) A (Un _) (Uo _ A)) as (_ & G1 & _). apply G1; [|exact Ax]. apply Uv; assumption.
    + intros x w Hx Hn Ho Ax Cx. destruct (at_node P G dist edist d HDs x Hx) as (A & B & C). destruct (GI (own x) A (Un _) (Uo _ A)) as (_ & _ & G2). unfold a_after, c_after in *. rewrite <- Ho in *.
      apply G2; auto.
  - intros r Hr. destruct (nodes_link P G dist edist d HDs HC r c0 Hr (inv_bounded c0 a0 I) (us i r) c0 a0 (s r)) as (s1 & E & Rp).
    + intros u Hu. apply Us in Hu. pose proof (range_ok r i Hi). lia.
    + exact (inv_bounded c0 a0 I).
    + exact (R r Hr).
    + exists s1. split; [exact E|]. cbv zeta in Rp. fold (after i c0 a0 r) in Rp. destruct Rp as (R1 & R2 & R3 & R4). split; [exact R1|]. split; [exact R2|]. split.
      * intros l g Hl. rewrite (R3 l g Hl). f_equal. unfold view, c_after. destruct (Nat.eqb_spec (own g) r) as [->|]; reflexivity.
      * intros u Hu. rewrite (R4 u Hu). unfold a_after. rewrite (proj2 (at_own P G dist edist d HDs r u Hr Hu)). reflexivity.
Qed.

Lemma exchanged i c0 a0 c1 a1 s1 threads bufs : i < steps -> step (visit i) c0 a0 c1 a1 -> (forall r, r < P -> rep dist d r c0 c1 a1 (s1 r)) ->
  (forall r, r < P -> 0 < threads r /\ buffers_outcome P (d r) (fun u => u) (active_filter (snd (s1 r))) (value_message (fst (s1 r)) 0) (threads r) (step_from (d r) steps i) (step_to (d r) steps i) (bufs r)) ->
  (forall q msgs, q < P -> Permutation msgs (inbox P bufs q) -> exists arr', receive_values (d q) (fst (s1 q)) msgs = Some arr' /\ rep dist d q c1 c1 a1 (arr', snd (s1 q))) /\
  ((forall q, q < P -> inbox P bufs q = []) -> forall x, x < gn G -> visit i x = true -> a1 x = true -> iface G own x = false) /\
  (forall q, q < P -> inbox P bufs q <> [] -> exists x, x < gn G /\ a1 x = true).
Proof.
  intros Hi St Rp Bf.
  assert (RO : forall r, r < P -> rank_ok G dist r (d r)) by (intros r Hr; exact (proj1 (rank_data P G dist edist d HDs r Hr))).
  assert (Act : forall r u, r < P -> u < dn (d r) -> active_filter (snd (s1 r)) u u = a1 (from r + u)).
  { intros r u Hr Hu. destruct (Rp r Hr) as (_ & _ & _ & R4). unfold active_filter. exact (nth_error_nth _ _ false (R4 u Hu)). }
  assert (Vis : forall r u, r < P -> u < dn (d r) -> visit i (from r + u) = (step_from (d r) steps i <=? u) && (u <? step_to (d r) steps i)).
  { intros r u Hr Hu. unfold visit. rewrite (proj2 (at_own P G dist edist d HDs r u Hr Hu)). replace (from r + u - from r) with u by lia. reflexivity. }
  assert (Send : forall r q, r < P -> q < P -> exists sn, (forall u, In u sn <-> step_from (d r) steps i <= u < step_to (d r) steps i /\ a1 (from r + u) = true /\ wanted P G dist r u q) /\
     Permutation (nth q (bufs r) []) (map (fun u => value_message (fst (s1 r)) 0 u u q) sn)).
  { intros r q Hr Hq. pose proof (range_ok r i Hi) as Rg. destruct (Bf r Hr) as [Th B].
    destruct (buffers_ok P G dist HD (fun u => u) (active_filter (snd (s1 r))) (value_message (fst (s1 r)) 0) r (d r) (threads r) (step_from (d r) steps i) (step_to (d r) steps i) Hr (RO r Hr) HC Th) with (bufs := bufs r) as [_ K]; [|exact B|].
    - intros u Hu. lia.
    - destruct (K q Hq) as (sn & _ & S2 & S3). exists sn. split; [|exact S3]. intros u. rewrite S2. cbv beta. split; intros (X1 & X2 & X3); (split; [exact X1|]; split; [|exact X3]).
      + rewrite <- (Act r u Hr) by lia. exact X2.
      + rewrite (Act r u Hr) by lia. exact X2. }
  split; [|split].
  - intros q msgs Hq Hp.
    destruct (sync_some P G dist HD (fun g => if iface G own g then c0 g else c1 g) c1 d (fun r => fst (s1 r)) 0 (fun r => active_filter (snd (s1 r))) threads
       (fun r => step_from (d r) steps i) (fun r => step_to (d r) steps i) bufs HC HS RO) with (q := q) (msgs := msgs) as (arr' & E & L & N).
    + intros r Hr. split; [exact (range_ok r i Hi)|exact (proj1 (Bf r Hr))].
    + intros r u Hr Hu. destruct (Rp r Hr) as (_ & _ & R3 & _). destruct (ro_view _ _ _ _ (RO r Hr)) as (_ & V2 & _). rewrite (R3 u _ (V2 u Hu)). unfold view.
      rewrite (proj2 (at_own P G dist edist d HDs r u Hr Hu)), Nat.eqb_refl. reflexivity.
    + intros r l g Hr Hl Eg. destruct (Rp r Hr) as (_ & _ & R3 & _). rewrite (R3 l g Eg). f_equal.
      destruct (local_facts P G dist edist d HDs HC r l g Hr Eg) as (Hg & Gh & _). unfold dis_ghost in Gh. rewrite (proj2 (Nat.leb_le _ _) Hl) in Gh. symmetry in Gh. apply negb_true_iff in Gh. unfold view. rewrite Gh.
      replace (iface G own g) with true; [reflexivity|]. symmetry.
      destruct (ro_view _ _ _ _ (RO r Hr)) as (_ & _ & V3 & V4 & _). destruct (Nat.lt_ge_cases l (dn (d r) + dghost_n (d r))) as [L2|L2]; [|rewrite V4 in Eg by exact L2; discriminate].
      destruct (V3 l (conj Hl L2)) as (g' & o & A & (B1 & v & w & B2 & B3) & _). rewrite Eg in A. injection A as <-.
      destruct (HS v g w (owns_lt P (gn G) dist HD r v Hr B2) B3) as [w' Hw]. unfold iface. apply existsb_exists. exists (v, w'). split; [exact Hw|]. cbn [fst].
      rewrite (own_find P G dist edist d HDs r v Hr B2). apply negb_true_iff. apply Nat.eqb_neq. apply Nat.eqb_neq in Gh. congruence.
    + intros r u Hr Hu Hn. rewrite (Act r u Hr Hu) in Hn. destruct (at_own P G dist edist d HDs r u Hr Hu) as [Hg _]. destruct (iface G own (from r + u)) eqn:If; [|reflexivity].
      destruct (visit i (from r + u)) eqn:Vi; [|exact (proj1 (st_same _ _ _ _ _ _ _ St _ Hg (or_introl Vi)))].
      destruct (step_cases G own _ _ _ _ _ _ St Hg) as [[A _]|[(A & _)|(A & B & C & D & E & F & K)]]; [exact A|exact A|]. exfalso.
      destruct (a1 (from r + u)) eqn:A1; [|rewrite (F eq_refl) in If; discriminate]. apply Hn. rewrite (Vis r u Hr Hu) in Vi. apply andb_true_iff in Vi. destruct Vi as [V1 V2].
      apply Nat.leb_le in V1. apply Nat.ltb_lt in V2. auto.
    + intros r Hr. exact (proj2 (Bf r Hr)).
    + exact Hq.
    + exact Hp.
    + exists arr'. split; [exact E|]. destruct (Rp q Hq) as (R1 & R2 & _ & R4). split; [cbn [fst]; lia|]. split; [exact R2|]. split; [|exact R4]. cbn [fst]. intros l g Hl. rewrite (N l g Hl).
      unfold view. destruct (own g =? q); reflexivity.
  - intros Em x Hx Vx Ax. destruct (iface G own x) eqn:If; [|reflexivity]. exfalso. unfold iface in If. apply existsb_exists in If. destruct If as ((v & w) & Hin & Hne). cbn [fst] in Hne.
    apply negb_true_iff, Nat.eqb_neq in Hne. pose proof (HC x v w Hx Hin) as Hv. destruct (at_node P G dist edist d HDs x Hx) as (A & B & C). destruct (find_owner_owns P (gn G) dist v HD Hv) as [D E].
    destruct (Send (own x) (own v) A D) as (sn & S1 & S2).
    assert (I : In (x - from (own x)) sn).
    { apply S1. rewrite C. unfold visit in Vx. apply andb_true_iff in Vx. destruct Vx as [V1 V2]. apply Nat.leb_le in V1. apply Nat.ltb_lt in V2. split; [lia|]. split; [exact Ax|].
      unfold wanted. rewrite C. split; [exact D|]. split; [exact Hne|]. exists v, w. auto. }
    apply (in_map (fun u => value_message (fst (s1 (own x))) 0 u u (own v))) in I. apply (Permutation_in _ (Permutation_sym S2)) in I.
    assert (K : In (own x, value_message (fst (s1 (own x))) 0 (x - from (own x)) (x - from (own x)) (own v)) (inbox P bufs (own v))).
    { unfold inbox. apply in_flat_map. exists (own x). split; [apply in_seq; lia|]. apply in_map. exact I. }
    rewrite (Em (own v) D) in K. destruct K.
  - intros q Hq Ne. destruct (inbox P bufs q) as [|m t] eqn:E; [congruence|]. assert (I : In m (inbox P bufs q)) by (rewrite E; left; reflexivity).
    unfold inbox in I. apply in_flat_map in I. destruct I as (r & Hr & I). apply in_seq in Hr. apply in_map_iff in I. destruct I as (y & <- & I).
    destruct (Send r q ltac:(lia) Hq) as (sn & S1 & S2). apply (Permutation_in _ S2) in I. apply in_map_iff in I. destruct I as (u & _ & Hu). apply S1 in Hu. destruct Hu as (U1 & U2 & _).
    exists (from r + u). split; [|exact U2]. apply (at_own P G dist edist d HDs r u); [lia|]. pose proof (range_ok r i Hi). lia.
Qed.

Lemma superstep_link i c0 a0 s s' quiet : i < steps -> repall c0 a0 s -> inv c0 a0 -> superstep P d size steps i s s' quiet ->
  exists c1 a1, step (visit i) c0 a0 c1 a1 /\ repall c1 a1 s' /\
    ((forall q, q < P -> quiet q = true) -> forall x, x < gn G -> visit i x = true -> a1 x = true -> iface G own x = false) /\
    (forall q, q < P -> quiet q = false -> exists x, x < gn G /\ a1 x = true).
Proof.
  intros Hi R I (s1 & threads & bufs & msgs & H). destruct (computed i c0 a0 s Hi R I) as [St Cm]. exists (c_after i c0 a0), (a_after i c0 a0).
  destruct (exchanged i c0 a0 _ _ s1 threads bufs Hi St) as (E1 & E2 & E3).
  - intros r Hr. destruct (Cm r Hr) as (x & Ex & Rx). destruct (H r Hr) as (H1 & _). unfold us in Ex. rewrite H1 in Ex. injection Ex as <-. exact Rx.
  - intros r Hr. destruct (H r Hr) as (_ & H2 & H3 & _). auto.
  - split; [exact St|]. split; [|split].
    + intros r Hr. destruct (H r Hr) as (_ & _ & _ & H4 & H5 & H6 & _). destruct (E1 r (msgs r) Hr H4) as (arr' & A & B). rewrite H5 in A. injection A as <-. rewrite <- H6 in B. destruct (s' r). exact B.
    + intros Q. apply E2. intros q Hq. destruct (H q Hq) as (_ & _ & _ & H4 & _ & _ & H7). rewrite (Q q Hq) in H7. destruct (msgs q); [|discriminate]. apply Permutation_nil. exact H4.
    + intros q Hq Q. apply (E3 q Hq). destruct (H q Hq) as (_ & _ & _ & H4 & _ & _ & H7). rewrite Q in H7. intros C. rewrite C in H4. apply Permutation_sym, Permutation_nil in H4. rewrite H4 in H7. discriminate.
Qed.
Lemma superstep_exists i c0 a0 s : i < steps -> repall c0 a0 s -> inv c0 a0 -> exists s' quiet, superstep P d size steps i s s' quiet.
Proof.
  intros Hi R I. destruct (computed i c0 a0 s Hi R I) as [St Cm].
  destruct (finite_choice (fun r s1 => color_nodes (d r) size (us i r) (s r) = Some s1 /\ rep dist d r c0 (c_after i c0 a0) (a_after i c0 a0) s1) P ([], []) Cm) as (s1 & Hs1).
  destruct (finite_choice (fun r bufs => buffers_outcome P (d r) (fun u => u) (active_filter (snd (s1 r))) (value_message (fst (s1 r)) 0) 1 (step_from (d r) steps i) (step_to (d r) steps i) bufs) P []) as (bufs & Hb).
  { intros r Hr. pose proof (range_ok r i Hi). apply (buffers_some P G dist HD (fun u => u) (active_filter (snd (s1 r))) (value_message (fst (s1 r)) 0) r);
      [exact Hr|exact (proj1 (rank_data P G dist edist d HDs r Hr))|exact HC|lia|intros; lia]. }
  destruct (exchanged i c0 a0 _ _ s1 (fun _ => 1) bufs Hi St) as (E1 & _).
  { intros r Hr. exact (proj2 (Hs1 r Hr)). }
  { intros r Hr. split; [lia|exact (Hb r Hr)]. }
  destruct (finite_choice (fun r arr' => receive_values (d r) (fst (s1 r)) (inbox P bufs r) = Some arr') P []) as (arr & Ha).
  { intros r Hr. destruct (E1 r (inbox P bufs r) Hr (Permutation_refl _)) as (x & Hx & _). exists x. exact Hx. }
  exists (fun r => (arr r, snd (s1 r))), (fun r => match inbox P bufs r with [] => true | _ => false end), s1, (fun _ => 1), bufs, (inbox P bufs).
  intros r Hr. cbv zeta. cbn [fst snd]. split; [exact (proj1 (Hs1 r Hr))|]. split; [lia|]. split; [exact (Hb r Hr)|]. split; [reflexivity|]. split; [exact (Ha r Hr)|]. split; reflexivity.
Qed.
Notation chain := (chain G own visit).
Lemma supersteps_link is : forall s s' conv c0 a0, (forall i, In i is -> i < steps) -> supersteps P d size steps is s s' conv -> repall c0 a0 s -> inv c0 a0 ->
  exists c1 a1, chain is c0 a0 c1 a1 /\ repall c1 a1 s' /\
    ((forall q, q < P -> conv q = true) -> forall x, x < gn G -> (exists i, In i is /\ visit i x = true) -> a1 x = false) /\
    (forall q, q < P -> conv q = false -> exists x, x < gn G /\ a0 x = true).
Proof.
  induction is as [|i t IH]; intros s s' conv c0 a0 Hi H R I.
  - inversion H; subst. exists c0, a0. split; [constructor|]. split; [exact R|]. split; [intros _ x _ (i & [] & _)|discriminate].
  - inversion H as [|? ? ? s1 ? quiet conv' H1 H2]; subst. destruct (superstep_link i c0 a0 s s1 quiet (Hi i (or_introl eq_refl)) R I H1) as (c1 & a1 & St & R1 & Q1 & Q2).
    pose proof (step_inv G own (g_sym G HS) (g_cl G HC) (g_self G HL) _ _ _ _ _ I St) as I1.
    destruct (IH s1 s' conv' c1 a1 (fun j Hj => Hi j (or_intror Hj)) H2 R1 I1) as (c2 & a2 & Ch & R2 & Q3 & Q4). exists c2, a2. split; [econstructor; eauto|]. split; [exact R2|]. split.
    + intros Cv x Hx (j & Hj & Vj).
      assert (Cv1 : forall q, q < P -> quiet q = true) by (intros q Hq; specialize (Cv q Hq); apply andb_true_iff in Cv; tauto).
      assert (Cv2 : forall q, q < P -> conv' q = true) by (intros q Hq; specialize (Cv q Hq); apply andb_true_iff in Cv; tauto).
      destruct (visit i x) eqn:Vi.
      * apply (chain_off G own visit _ _ _ _ _ x Ch Hx). destruct (a1 x) eqn:A1; [|reflexivity]. pose proof (Q1 Cv1 x Hx Vi A1) as F.
        rewrite (inv_if _ _ _ _ I1 x Hx A1 (step_colors G own _ _ _ _ _ x I St Hx Vi)) in F. discriminate.
      * apply (Q3 Cv2 x Hx). exists j. destruct Hj as [->|Hj]; [congruence|auto].
    + intros q Hq C. apply andb_false_iff in C. destruct C as [C|C].
      * destruct (Q2 q Hq C) as (x & Hx & Ax). exists x. split; [exact Hx|]. exact (step_mono G own _ _ _ _ _ x St Hx Ax).
      * destruct (Q4 q Hq C) as (x & Hx & Ax). exists x. split; [exact Hx|]. exact (step_mono G own _ _ _ _ _ x St Hx Ax).
Qed.
Lemma pass_link s s' conv c0 a0 : pass P d steps s s' conv -> repall c0 a0 s -> inv c0 a0 ->
  exists c1 a1, chain (seq 0 steps) c0 a0 c1 a1 /\ repall c1 a1 s' /\ inv c1 a1 /\ (forall x, x < gn G -> c1 x <> 0) /\
    (all_converged P conv = true -> forall x, x < gn G -> a1 x = false) /\ (all_converged P conv = false -> exists x, x < gn G /\ a0 x = true).
Proof.
  intros H R I. destruct (supersteps_link (seq 0 steps) s s' conv c0 a0) as (c1 & a1 & Ch & R1 & Q1 & Q2); [intros i Hi; apply in_seq in Hi; lia|exact H|exact R|exact I|].
  exists c1, a1. split; [exact Ch|]. split; [exact R1|]. split; [exact (chain_inv G own (g_sym G HS) (g_cl G HC) (g_self G HL) visit _ _ _ _ _ Ch I)|].
  split; [intros x Hx; exact (chain_colors G own (g_sym G HS) (g_cl G HC) (g_self G HL) visit _ _ _ _ _ x Ch I Hx (visited x Hx))|]. unfold all_converged. split.
  - intros Cv x Hx. apply Q1; [|exact Hx|exact (visited x Hx)]. intros q Hq. rewrite forallb_forall in Cv. apply Cv. apply in_seq. lia.
  - intros Cv. destruct (existsb (fun q => negb (conv q)) (seq 0 P)) eqn:E.
    + apply existsb_exists in E. destruct E as (q & Hq & Eq). apply in_seq in Hq. apply negb_true_iff in Eq. exact (Q2 q ltac:(lia) Eq).
    + exfalso. assert (forallb conv (seq 0 P) = true); [|congruence]. apply forallb_forall. intros q Hq. destruct (conv q) eqn:Eq; [reflexivity|]. exfalso.
      assert (existsb (fun q => negb (conv q)) (seq 0 P) = true) by (apply existsb_exists; exists q; rewrite Eq; auto). congruence.
Qed.
Lemma start_inv : inv (fun _ => 0) (fun _ => true).
Proof. constructor; try discriminate; try congruence. intros; lia. Qed.
Lemma running_link k s : running P d steps k s -> exists c a, repall c a s /\ inv c a /\ (k = 0 \/ (forall x, x < gn G -> c x <> 0) /\ k + measure G c a <= 2 * gn G + 2).
Proof.
  induction 1 as [s H0|k s s' conv H IH Hp Hc].
  - exists (fun _ => 0), (fun _ => true). split; [|split; [exact start_inv|auto]]. intros r Hr. rewrite (H0 r Hr). exact (start_rep P G dist edist d HDs r Hr).
  - destruct IH as (c & a & R & I & M). destruct (pass_link s s' conv c a Hp R I) as (c1 & a1 & Ch & R1 & I1 & Cl & _ & Q). exists c1, a1. split; [exact R1|]. split; [exact I1|]. right.
    split; [exact Cl|]. destruct M as [->|[Cl0 M]]; [pose proof (measure_max G c1 a1); lia|].
    pose proof (chain_progress G own (g_sym G HS) (g_cl G HC) (g_self G HL) visit _ _ _ _ _ Ch Cl0 visited (Q Hc)). lia.
Qed.

Theorem coloring_terminates k s : running P d steps k s -> k <= 2 * gn G + 2.
Proof. intros H. destruct (running_link k s H) as (c & a & _ & _ & [->|[_ M]]); lia. Qed.
Theorem coloring_correct colors : coloring_outcome P d steps colors ->
  exists color, proper_coloring G color /\ held_by P d color colors /\ forall u, u < gn G -> color u <= length (gadj G u).
Proof.
  intros (k & s & s' & conv & H & Hp & Hc & Ec). destruct (running_link k s H) as (c & a & R & I & _). destruct (pass_link s s' conv c a Hp R I) as (c1 & a1 & Ch & R1 & I1 & Cl & Q & _).
  exists (fun g => c1 g - 1). split; [|split].
  - intros u v w Hu Hin C. pose proof (HC u v w Hu Hin) as Hv. pose proof (Cl u Hu). pose proof (Cl v Hv).
    destruct (inv_done _ _ _ _ I1 u v Hu (ex_intro _ w Hin) (Q Hc u Hu) ltac:(lia)) as [_ A]. rewrite (Q Hc v Hv) in A. discriminate.
  - intros r Hr. rewrite (Ec r Hr). destruct (R1 r Hr) as (R2 & _ & R3 & _). rewrite map_length. split; [exact R2|]. intros l g Hl. rewrite nth_error_map, (R3 l g Hl). cbn [option_map]. f_equal.
    unfold view. destruct (own g =? r); reflexivity.
  - intros u Hu. pose proof (inv_max _ _ _ _ I1 u Hu). lia.
Qed.
Lemma supersteps_exist is : forall s c0 a0, (forall i, In i is -> i < steps) -> repall c0 a0 s -> inv c0 a0 -> exists s' conv, supersteps P d size steps is s s' conv.
Proof.
  induction is as [|i t IH]; intros s c0 a0 Hi R I; [exists s, (fun _ => true); constructor|].
  destruct (superstep_exists i c0 a0 s (Hi i (or_introl eq_refl)) R I) as (s1 & quiet & H1). destruct (superstep_link i c0 a0 s s1 quiet (Hi i (or_introl eq_refl)) R I H1) as (c1 & a1 & St & R1 & _).
  destruct (IH s1 c1 a1 (fun j Hj => Hi j (or_intror Hj)) R1 (step_inv G own (g_sym G HS) (g_cl G HC) (g_self G HL) _ _ _ _ _ I St)) as (s2 & conv & H2).
  exists s2, (fun r => quiet r && conv r). econstructor; eassumption.
Qed.
Theorem coloring_no_errors k s i s1 conv : running P d steps k s -> i < steps -> supersteps P d size steps (seq 0 i) s s1 conv ->
  (forall r, r < P -> exists s2, color_nodes (d r) size (seq (step_from (d r) steps i) (step_to (d r) steps i - step_from (d r) steps i)) (s1 r) = Some s2) /\
  (forall s2 threads bufs,
    (forall r, r < P -> color_nodes (d r) size (seq (step_from (d r) steps i) (step_to (d r) steps i - step_from (d r) steps i)) (s1 r) = Some (s2 r) /\ 0 < threads r /\
       buffers_outcome P (d r) (fun u => u) (active_filter (snd (s2 r))) (value_message (fst (s2 r)) 0) (threads r) (step_from (d r) steps i) (step_to (d r) steps i) (bufs r)) ->
    forall q msgs, q < P -> Permutation msgs (inbox P bufs q) -> exists arr, receive_values (d q) (fst (s2 q)) msgs = Some arr) /\
  exists s2 quiet, superstep P d size steps i s1 s2 quiet.
Proof.
  intros H Hi Hs. destruct (running_link k s H) as (c & a & R & I & _).
  destruct (supersteps_link (seq 0 i) s s1 conv c a) as (c1 & a1 & Ch & R1 & _); [intros j Hj; apply in_seq in Hj; lia|exact Hs|exact R|exact I|].
  pose proof (chain_inv G own (g_sym G HS) (g_cl G HC) (g_self G HL) visit _ _ _ _ _ Ch I) as I1. destruct (computed i c1 a1 s1 Hi R1 I1) as [St Cm]. split; [|split].
  - intros r Hr. destruct (Cm r Hr) as (x & Ex & _). exists x. exact Ex.
  - intros s2 threads bufs Hb q msgs Hq Hm. destruct (exchanged i c1 a1 _ _ s2 threads bufs Hi St) as (E1 & _).
    + intros r Hr. destruct (Cm r Hr) as (x & Ex & Rx). destruct (Hb r Hr) as (H1 & _). unfold us in Ex. rewrite H1 in Ex. injection Ex as <-. exact Rx.
    + intros r Hr. exact (proj2 (Hb r Hr)).
    + destruct (E1 q msgs Hq Hm) as (arr & Ea & _). exists arr. exact Ea.
  - exact (superstep_exists i c1 a1 s1 Hi R1 I1).
Qed.
Theorem coloring_exists : exists colors, coloring_outcome P d steps colors.
Proof.
  assert (K : forall n k s, running P d steps k s -> 2 * gn G + 2 < k + n -> exists colors, coloring_outcome P d steps colors).
  { induction n as [|n IH]; intros k s H L; [pose proof (coloring_terminates k s H); lia|].
    destruct (running_link k s H) as (c & a & R & I & _). destruct (supersteps_exist (seq 0 steps) s c a) as (s' & conv & Hp); [intros i Hi; apply in_seq in Hi; lia|exact R|exact I|].
    destruct (all_converged P conv) eqn:E.
    - exists (fun r => map (fun c => c - 1) (fst (s' r))), k, s, s', conv. auto.
    - apply (IH (S k) s'); [econstructor; eassumption|lia]. }
  apply (K (2 * gn G + 3) 0 (fun r => coloring_start (d r))); [constructor; reflexivity|lia].
Qed.
End Final.
