(* Heavy edge matching: all rounds, the result and the number of clusters. *)
From Verif Require Import Lib.Prelude Model.GridModel Model.DistGraphModel Model.RearrangeModel Model.ColoringModel Model.HemModel Spec.Graph Spec.DistGraphSpec Spec.ReplicateSpec Spec.RearrangeSpec
  Spec.ColoringSpec Spec.HemSpec Proofs.GridBase Proofs.DistViewProofs Proofs.ReplicateProofs Proofs.RearrangeSystem Proofs.ColoringFinal Proofs.HemLocal Proofs.HemFacts Proofs.HemRound.

Section Final.
Variables (P : nat) (G : graph) (dist edist : list nat) (d : nat -> dcsr).
Hypothesis HDs : distributed P G dist edist d.
Hypothesis HC : closed_graph G.
Hypothesis HS : symmetric_adjacency G.
Hypothesis HW : ghost_weights P G d.
Variables (maxw : Z) (ignore : bool).
Variable color : nat -> nat.
Hypothesis HP : proper_coloring G color.
Notation from r := (nth r dist 0).
Notation own := (find_owner dist).

Lemma round_inv c class s s' : (forall r, r < P -> NoDup (class r) /\ forall u, In u (class r) <-> u < dn (d r) /\ color (from r + u) = c) ->
  inv P G dist d maxw ignore color c s -> hem_round P d maxw ignore class s s' -> inv P G dist d maxw ignore color (S c) s'.
Proof.
  intros HK HI (order & hidden & fails & bids & msgs & H). cbv zeta in H.
  assert (Ho : forall r, r < P -> Permutation (order r) (class r)) by (intros r Hr; exact (proj1 (H r Hr))).
  assert (Hb : forall r, r < P -> Permutation (map fst (bids r)) (incoming P d class (s1 d maxw ignore s order hidden fails) r)) by (intros r Hr; exact (proj1 (proj2 (H r Hr)))).
  assert (Hm : forall r, r < P -> Permutation (msgs r) (sync_inbox P d class (s1 d maxw ignore s order hidden fails) (s2 d maxw ignore s order hidden fails bids) (s4 P d maxw ignore class s order hidden fails bids) r))
    by (intros r Hr; exact (proj1 (proj2 (proj2 (H r Hr))))).
  assert (Hs : forall r, r < P -> s' r = receive_cells (d r) (s4 P d maxw ignore class s order hidden fails bids r) (msgs r)) by (intros r Hr; exact (proj2 (proj2 (proj2 (H r Hr))))).
  destruct (picks_exist P G dist edist d HDs maxw ignore color HP c class s s' HK HI order hidden fails bids msgs Ho Hb Hm Hs) as [pick Hp].
  exact (effect_inv P G dist d maxw ignore color c s s' _ HI (round_effect P G dist edist d HDs HC HS HW maxw ignore color HP c class s s' HK HI order hidden fails bids msgs Ho Hb Hm Hs pick Hp)).
Qed.
Lemma start_inv : inv P G dist d maxw ignore color 0 (fun r => repeat Free (dn (d r) + dghost_n (d r))).
Proof.
  assert (F : forall n l, rd (repeat Free n) l = Free) by (intros n; induction n as [|n IH]; intros [|l]; try reflexivity; exact (IH l)).
  split.
  - intros r Hr. apply repeat_length.
  - intros g Hg. left. apply F.
  - intros g v Hg H. unfold M in H. rewrite F in H. discriminate.
  - intros g g' v Hg Hg' H. unfold M in H. rewrite F in H. discriminate.
  - intros r l Hr Hl. left. unfold M. rewrite !F. reflexivity.
Qed.
Variable col : nat -> list nat.
Hypothesis Hcol : forall r u, r < P -> u < dn (d r) -> nth u (col r) 0 = color (from r + u).
Lemma class_ok c r : r < P -> NoDup (color_class d col c r) /\ forall u, In u (color_class d col c r) <-> u < dn (d r) /\ color (from r + u) = c.
Proof.
  intros Hr. split; [apply NoDup_filter, seq_NoDup|]. intros u. unfold color_class. rewrite filter_In, in_seq, Nat.eqb_eq. split; intros [A B].
  - split; [lia|]. rewrite <- Hcol; [exact B|exact Hr|lia].
  - split; [lia|]. rewrite Hcol; [exact B|exact Hr|exact A].
Qed.
Lemma rounds_inv n : forall a s s', hem_rounds P d maxw ignore col (seq a n) s s' -> inv P G dist d maxw ignore color a s -> inv P G dist d maxw ignore color (a + n) s'.
Proof.
  induction n as [|n IH]; intros a s s' H I; cbn [seq] in H; inversion H as [|? ? ? sm ? H1 H2]; subst.
  - rewrite Nat.add_0_r. exact I.
  - rewrite Nat.add_succ_r, <- Nat.add_succ_l. apply (IH (S a) sm s' H2). exact (round_inv a _ _ _ (fun r Hr => class_ok a r Hr) I H1).
Qed.
Definition label (s : nat -> list cell) (g : nat) : nat := match M dist s g with To v => v | _ => g end.
Lemma label_matching c s : inv P G dist d maxw ignore color c s -> matching_of G maxw ignore (label s).
Proof.
  intros [I1 I2 I3 I4 I5].
  assert (Cs : forall u, u < gn G -> label s u <> u -> M dist s u = To (label s u) /\ label s u < gn G /\ M dist s (label s u) = To (label s u) /\ fits G maxw ignore u (label s u)).
  { intros u Hu N. unfold label in *. destruct (I2 u Hu) as [E|[v E]]; rewrite E in *; [congruence|]. destruct (I3 u v Hu E) as [->|(A & B & _ & D)]; [congruence|auto]. }
  split.
  - intros u Hu. destruct (Nat.eq_dec (label s u) u) as [E|E]; [rewrite !E; auto|]. destruct (Cs u Hu E) as (A & B & D & _). split; [exact B|]. unfold label at 1. rewrite D. reflexivity.
  - intros u Hu N. destruct (Cs u Hu N) as (_ & _ & _ & F & _). exact F.
  - intros u Hu N E. destruct (Cs u Hu N) as (_ & _ & _ & _ & F). exact (F E).
  - intros u v Hu Hv E N N'. destruct (Cs u Hu N) as (A & _). destruct (Cs v Hv N') as (B & _). rewrite E in A, N. apply (I4 u v (label s v) Hu Hv A B); congruence.
Qed.
Lemma label_held c s result : inv P G dist d maxw ignore color c s -> (forall r, r < P -> result r = labels (d r) (s r)) -> held_by P d (label s) result.
Proof.
  intros [I1 I2 I3 I4 I5] H r Hr. rewrite (H r Hr). unfold labels. rewrite map_length, seq_length. split; [reflexivity|]. intros l g Hl.
  assert (L : l < tot d r). { destruct (Nat.lt_ge_cases l (tot d r)) as [L|L]; [exact L|]. destruct (f_view P G dist edist d HDs r Hr) as (_ & _ & _ & V4 & _). rewrite (V4 l L) in Hl. discriminate. }
  rewrite (f_l2g P G dist edist d HDs r l Hr L) in Hl. injection Hl as <-. rewrite nth_error_map_seq by exact L. f_equal. unfold label_of, label. destruct (f_glob P G dist edist d HDs HC r l Hr L) as [Lg _].
  destruct (Nat.lt_ge_cases l (dn (d r))) as [Lo|Lo].
  - rewrite (f_own P G dist edist d HDs r l Hr Lo) in *. rewrite (M_own P G dist edist d HDs s r l Hr Lo). destruct (I2 _ Lg) as [E|[v E]]; rewrite (M_own P G dist edist d HDs s r l Hr Lo) in E; rewrite E; reflexivity.
  - destruct (I5 r l Hr (conj Lo L)) as [E|[E E']].
    + rewrite E. destruct (I2 _ Lg) as [F|[v F]]; rewrite F; reflexivity.
    + rewrite E, E'. reflexivity.
Qed.
Theorem hem_correct result : hem_outcome P d maxw ignore col result -> exists lab, held_by P d lab result /\ matching_of G maxw ignore lab.
Proof.
  intros (colors & s & _ & H & Hr). pose proof (rounds_inv colors 0 _ s H start_inv) as I. exists (label s). split; [exact (label_held _ s result I Hr)|exact (label_matching _ s I)].
Qed.
End Final.

Lemma round_exists P d maxw ignore class s : exists s', hem_round P d maxw ignore class s s'.
Proof.
  set (t1 := fun r => match_nodes (d r) maxw ignore (s r) (fun _ _ => false) (fun _ => false) (class r)).
  set (bids := fun r => map (fun x => (x, false)) (incoming P d class t1 r)). set (t2 := fun r => place_bids (d r) (t1 r) (bids r)).
  set (t4 := fun r => unmatch (normalize (d r) (t1 r) (t2 r) (incoming P d class t1 r)) (answers P d class t1 t2 r)).
  exists (fun r => receive_cells (d r) (t4 r) (sync_inbox P d class t1 t2 t4 r)), class, (fun _ _ _ => false), (fun _ _ => false), bids, (sync_inbox P d class t1 t2 t4). cbv zeta. fold t1. fold t2. fold t4.
  intros r Hr. split; [apply Permutation_refl|]. split; [|split; [apply Permutation_refl|reflexivity]]. unfold bids. rewrite map_map, map_id. apply Permutation_refl.
Qed.
Lemma rounds_exist P d maxw ignore col cs : forall s, exists s', hem_rounds P d maxw ignore col cs s s'.
Proof.
  induction cs as [|c cs IH]; intros s; [exists s; constructor|]. destruct (round_exists P d maxw ignore (color_class d col c) s) as [s1 H1]. destruct (IH s1) as [s2 H2]. exists s2. econstructor; eassumption.
Qed.
Lemma colors_exist P (col : nat -> list nat) : (forall r, r < P -> col r <> []) -> exists colors, num_colors (map col (seq 0 P)) = Some colors.
Proof.
  intros H. unfold num_colors. assert (T : forall l, (forall x, In x l -> x <> []) -> exists t, traverse num_local_colors l = Some t).
  { induction l as [|x l IH]; intros Hl; [eexists; reflexivity|]. destruct IH as [t E]; [intros y Hy; apply Hl; right; exact Hy|]. cbn [traverse]. destruct x as [|c x]; [exfalso; exact (Hl [] (or_introl eq_refl) eq_refl)|].
    cbn [num_local_colors bind]. rewrite E. eexists. reflexivity. }
  destruct (T (map col (seq 0 P))) as [t E]; [|rewrite E; eexists; reflexivity]. intros x Hx. apply in_map_iff in Hx. destruct Hx as (r & <- & Hr). apply in_seq in Hr. apply H. lia.
Qed.
(** If every rank has a node, the call returns. *)
Theorem hem_exists P d maxw ignore col : (forall r, r < P -> col r <> []) -> exists result, hem_outcome P d maxw ignore col result.
Proof.
  intros H. destruct (colors_exist P col H) as [colors Hc]. destruct (rounds_exist P d maxw ignore col (seq 0 colors) (fun r => repeat Free (dn (d r) + dghost_n (d r)))) as [s Hs].
  exists (fun r => labels (d r) (s r)), colors, s. auto.
Qed.
Theorem hem_colored P G dist edist d maxw ignore steps col result : distributed P G dist edist d -> closed_graph G -> symmetric_adjacency G -> no_self_loops G -> ghost_weights P G d -> 0 < steps ->
  coloring_outcome P d steps col -> hem_outcome P d maxw ignore col result -> exists lab, held_by P d lab result /\ matching_of G maxw ignore lab.
Proof.
  intros HDs HC HS HL HW Hst Hc Ho. destruct (coloring_correct P G dist edist d steps HDs HC HS HL Hst col Hc) as (color & Pr & Hb & _).
  apply (hem_correct P G dist edist d HDs HC HS HW maxw ignore color Pr col); [|exact Ho]. intros r u Hr Hu. destruct (f_view P G dist edist d HDs r Hr) as (_ & V2 & _). exact (nth_error_nth _ _ 0 (proj2 (Hb r Hr) u _ (V2 u Hu))).
Qed.
(** A rank without nodes. *)
Theorem hem_empty P G dist edist d maxw ignore steps col result r : distributed P G dist edist d -> closed_graph G -> symmetric_adjacency G -> no_self_loops G -> 0 < steps ->
  coloring_outcome P d steps col -> r < P -> dn (d r) = 0 -> dghost_n (d r) = 0 -> ~ hem_outcome P d maxw ignore col result.
Proof.
  intros HDs HC HS HL Hst Hc Hr Hn Hk (colors & s & Hnc & _). destruct (coloring_correct P G dist edist d steps HDs HC HS HL Hst col Hc) as (color & _ & Hb & _). destruct (Hb r Hr) as [L _]. rewrite Hn, Hk in L. destruct (col r) eqn:E; [|discriminate L].
  unfold num_colors in Hnc. assert (T : forall l, In [] l -> traverse num_local_colors l = None).
  { induction l as [|x l IH]; intros Hin; [destruct Hin|]. cbn [traverse]. destruct Hin as [->|Hin]; [reflexivity|]. rewrite (IH Hin). destruct (num_local_colors x); reflexivity. }
  rewrite T in Hnc; [discriminate|]. apply in_map_iff. exists r. split; [exact E|apply in_seq; lia].
Qed.

(** ** The number of clusters *)
Definition clusters (n : nat) (lab : nat -> nat) : list nat := nodup Nat.eq_dec (map lab (seq 0 n)).
Lemma filter_split {X} (f : X -> bool) l : length (filter f l) + length (filter (fun x => negb (f x)) l) = length l.
Proof. induction l as [|x l IH]; [reflexivity|]. cbn [filter]. destruct (f x); cbn [negb length]; lia. Qed.
Lemma leaders_count n lab : (forall u, u < n -> lab u < n /\ lab (lab u) = lab u) -> length (clusters n lab) = length (filter (fun u => lab u =? u) (seq 0 n)).
Proof.
  intros H. apply Permutation_length. apply NoDup_Permutation; [apply NoDup_nodup|apply NoDup_filter, seq_NoDup|]. intros x. unfold clusters. rewrite nodup_In, in_map_iff, filter_In, in_seq, Nat.eqb_eq. split.
  - intros (u & <- & Hu). apply in_seq in Hu. destruct (H u ltac:(lia)) as [A B]. split; [lia|exact B].
  - intros [A B]. exists x. split; [exact B|apply in_seq; lia].
Qed.
Lemma length_concat_map {X} (ls : list (list X)) : length (concat ls) = list_sum (map (@length X) ls).
Proof. induction ls as [|l ls IH]; [reflexivity|]. cbn [concat map list_sum fold_right]. rewrite app_length, IH. reflexivity. Qed.
Lemma filter_flat {X} (f : X -> bool) l : filter f l = flat_map (fun x => if f x then [x] else []) l.
Proof. induction l as [|x l IH]; [reflexivity|]. cbn [filter flat_map]. destruct (f x); cbn [app]; rewrite IH; reflexivity. Qed.
Lemma shift_filter (f : nat -> bool) a n : length (filter (fun u => f (a + u)) (seq 0 n)) = length (filter f (seq a n)).
Proof.
  revert a. induction n as [|n IH]; intros a; [reflexivity|]. cbn [seq filter]. rewrite Nat.add_0_r. rewrite <- seq_shift.
  assert (E : length (filter (fun u => f (a + u)) (map S (seq 0 n))) = length (filter f (seq (S a) n))).
  { rewrite <- IH. generalize (seq 0 n). induction l as [|x l IHl]; [reflexivity|]. cbn [map filter]. rewrite Nat.add_succ_r. cbn [Nat.add]. destruct (f (S (a + x))); cbn [length]; rewrite IHl; reflexivity. }
  destruct (f a); cbn [length]; rewrite E; reflexivity.
Qed.
Theorem size_correct P G dist edist d lab result : distributed P G dist edist d -> (forall u, u < gn G -> lab u < gn G /\ lab (lab u) = lab u) -> held_by P d lab result ->
  size_after_contraction P d (gn G) result = length (clusters (gn G) lab).
Proof.
  intros HDs Hl Hh. rewrite (leaders_count (gn G) lab Hl). unfold size_after_contraction.
  pose proof (filter_split (fun u => lab u =? u) (seq 0 (gn G))) as S. rewrite seq_length in S.
  enough (E : list_sum (map (fun r => length (filter (fun u => negb (nth u (result r) 0 =? glob (d r) u)) (seq 0 (dn (d r))))) (seq 0 P)) = length (filter (fun u => negb (lab u =? u)) (seq 0 (gn G)))) by (rewrite E; lia).
  rewrite (filter_flat _ (seq 0 (gn G))). pose proof (telescope P G dist (proj1 HDs) (fun x => if negb (lab x =? x) then [x] else []) 0 P (le_n _)) as T.
  destruct (proj1 HDs) as (_ & F0 & FP & _). rewrite F0, Nat.add_0_l, FP, Nat.sub_0_r in T. rewrite <- T, length_concat_map, map_map. f_equal. apply map_ext_in. intros r Hr. apply in_seq in Hr. assert (Hr' : r < P) by lia.
  rewrite <- filter_flat. rewrite <- (sys_dn P G dist edist d HDs r Hr'). rewrite <- (shift_filter (fun u => negb (lab u =? u)) (nth r dist 0) (dn (d r))). f_equal. apply filter_ext_in. intros u Hu. apply in_seq in Hu.
  rewrite (f_own P G dist edist d HDs r u Hr') by lia. destruct (f_view P G dist edist d HDs r Hr') as (_ & V2 & _). destruct (Hh r Hr') as [_ Hv]. rewrite (nth_error_nth _ _ 0 (Hv u _ (V2 u ltac:(lia)))). reflexivity.
Qed.
