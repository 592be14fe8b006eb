(* The supersteps of the colouring on all ranks. *)
From Verif Require Import Lib.Prelude Lib.Count Model.GridModel Model.MathModel Model.DistGraphModel Model.ColoringModel Spec.Graph Spec.DistGraphSpec Spec.ReplicateSpec Spec.ColoringSpec
  Proofs.DistViewProofs Proofs.ExchangeProofs Proofs.DistSyncProofs Proofs.ReplicateProofs Proofs.RearrangeRank Proofs.RearrangeSystem Proofs.RearrangeFinal Proofs.ColoringNode Proofs.ColoringStep.

Section System.
Variables (P : nat) (G : graph) (dist edist : list nat) (d : nat -> dcsr).
Hypothesis HDs : distributed P G dist edist d.
Hypothesis HC : closed_graph G.
Hypothesis HS : symmetric_adjacency G.
Hypothesis HL : no_self_loops G.
Notation from r := (nth r dist 0).
Notation own := (find_owner dist).
Notation size := (max_colors P d).
Notation nb := (nbr G).

Lemma g_sym u v : u < gn G -> nb u v -> nb v u. Proof. intros Hu [w Hw]. exact (HS u v w Hu Hw). Qed.
Lemma g_cl u v : u < gn G -> nb u v -> v < gn G. Proof. intros Hu [w Hw]. exact (HC u v w Hu Hw). Qed.
Lemma g_self u : u < gn G -> ~ nb u u. Proof. intros Hu [w Hw]. exact (HL u u w Hu Hw eq_refl). Qed.
Lemma at_own r u : r < P -> u < dn (d r) -> from r + u < gn G /\ own (from r + u) = r.
Proof.
  intros Hr Hu. assert (O : owns dist r (from r + u)) by (apply (owned P G dist edist d HDs r _ Hr); exists u; auto).
  split; [exact (owns_lt P (gn G) dist (proj1 HDs) r _ Hr O)|exact (own_find P G dist edist d HDs r _ Hr O)].
Qed.
Lemma at_node x : x < gn G -> own x < P /\ x - from (own x) < dn (d (own x)) /\ from (own x) + (x - from (own x)) = x.
Proof.
  intros Hx. destruct (find_owner_owns P (gn G) dist x (proj1 HDs) Hx) as [A B]. apply (owned P G dist edist d HDs _ x A) in B. destruct B as (u & B1 & B2).
  split; [exact A|]. split; lia.
Qed.
Lemma row_facts r u : r < P -> u < dn (d r) -> exists nbs, dadj (d r) u = Some nbs /\ length nbs = nth (u + 1) (dc_nodes (d r)) 0 - nth u (dc_nodes (d r)) 0 /\
  map (fun e => (dlocal_to_global (d r) (fst e), snd e)) nbs = map (fun e => (Some (fst e), snd e)) (gadj G (from r + u)).
Proof.
  intros Hr Hu. destruct (rank_data P G dist edist d HDs r Hr) as [[V _ _] CA]. destruct V as (_ & _ & _ & _ & _ & _ & _ & V8). destruct (V8 u Hu) as (nbs & E & M).
  exists nbs. split; [exact E|]. split; [|exact M]. rewrite (dadj_row (d r) u CA Hu) in E. injection E as <-. unfold row_at. rewrite map_length, seq_length, Nat.add_1_r. reflexivity.
Qed.
Lemma size_ok u : u < gn G -> length (gadj G u) < size.
Proof.
  intros Hu. destruct (at_node u Hu) as (A & B & C). set (r := own u) in *. destruct (row_facts r _ A B) as (nbs & E & L & M). rewrite C in M. apply (f_equal (@length _)) in M. rewrite !map_length in M.
  unfold max_colors. apply Nat.lt_le_trans with (local_max_degree (d r) + 1).
  - rewrite <- M, L. enough (nth (u - from r + 1) (dc_nodes (d r)) 0 - nth (u - from r) (dc_nodes (d r)) 0 <= local_max_degree (d r)) by lia. unfold local_max_degree. apply fold_max_le. right. apply in_map_iff. exists (u - from r). split; [reflexivity|apply in_seq; lia].
  - apply Nat.add_le_mono_r. apply fold_max_le. right. apply in_map_iff. exists r. split; [reflexivity|apply in_seq; lia].
Qed.

(** The arrays of rank [r]: its own nodes have the colours [c], the ghosts [c0]. *)
Definition rep (r : nat) (c0 c : nat -> nat) (a : nat -> bool) (s : cstate) : Prop :=
  length (fst s) = dn (d r) + dghost_n (d r) /\ length (snd s) = dn (d r) /\
  (forall l g, dlocal_to_global (d r) l = Some g -> nth_error (fst s) l = Some (view own c0 c r g)) /\
  (forall u, u < dn (d r) -> nth_error (snd s) u = Some (a (from r + u))).
Definition bounded (c : nat -> nat) : Prop := forall x, x < gn G -> c x <= size.

Lemma local_facts r l g : r < P -> dlocal_to_global (d r) l = Some g -> g < gn G /\ dis_ghost (d r) l = negb (own g =? r) /\ (l < dn (d r) -> g = from r + l).
Proof.
  intros Hr E. destruct (rank_data P G dist edist d HDs r Hr) as [[V _ _] _]. destruct V as (_ & V2 & V3 & V4 & _). unfold dis_ghost. destruct (Nat.leb_spec (dn (d r)) l) as [L|L].
  - destruct (Nat.lt_ge_cases l (dn (d r) + dghost_n (d r))) as [L2|L2]; [|rewrite V4 in E by exact L2; discriminate]. destruct (V3 l (conj L L2)) as (g' & q & A & B & _).
    rewrite E in A. injection A as <-. destruct B as (B1 & v & w & B2 & B3). assert (Hg : g < gn G) by exact (HC v g w (owns_lt P (gn G) dist (proj1 HDs) r v Hr B2) B3).
    split; [exact Hg|]. split; [|intros; lia]. destruct (Nat.eqb_spec (own g) r) as [C|C]; [|reflexivity]. exfalso. apply B1. rewrite <- C. exact (proj2 (find_owner_owns P (gn G) dist g (proj1 HDs) Hg)).
  - rewrite V2 in E by exact L. injection E as <-. destruct (at_own r l Hr L) as [A B]. split; [exact A|]. rewrite B, Nat.eqb_refl. split; [reflexivity|auto].
Qed.
Lemma l2g_inj r l l' g : r < P -> dlocal_to_global (d r) l = Some g -> dlocal_to_global (d r) l' = Some g -> l = l'.
Proof. intros Hr A B. destruct (rank_data P G dist edist d HDs r Hr) as [[V _ _] _]. destruct V as (_ & _ & _ & _ & V5 & _). apply V5 in A. apply V5 in B. congruence. Qed.

Lemma mark_link r col cu gu vw : r < P -> (forall l g, dlocal_to_global (d r) l = Some g -> nth_error col l = Some (vw g) /\ vw g <= size) ->
  forall nbs adj m i, map (fun e => (dlocal_to_global (d r) (fst e), snd e)) nbs = map (fun e : nat * Z => (Some (fst e), snd e)) adj ->
  exists m', mark_neighbors (d r) size col cu gu nbs m i = Some (m', i || existsb (fun e : nat * Z => negb (own (fst e) =? r)) adj) /\
    forall x, In x m' <-> In x m \/ In x (marks gu cu vw adj).
Proof.
  intros Hr Hcol. induction nbs as [|[l w] t IH]; intros [|[g w'] adj] m i M; try discriminate M.
  - exists m. cbn [existsb]. rewrite orb_false_r. split; [reflexivity|]. cbn. tauto.
  - cbn [map fst snd] in M. injection M as M1 M2 M3. destruct (Hcol l g M1) as [C1 C2]. destruct (local_facts r l g Hr M1) as (_ & Gh & _).
    cbn [mark_neighbors]. rewrite C1, M1. cbn [bind existsb fst]. rewrite Gh, orb_assoc. unfold marks. cbn [flat_map fst]. cbv zeta. fold (marks gu cu vw adj).
    destruct (negb (vw g =? 0) && ((cu =? 0) || negb ((vw g =? cu) && (gu <? g)))) eqn:Ec.
    + apply andb_true_iff in Ec. destruct Ec as [Ec _]. destruct (Nat.eqb_spec (vw g) 0) as [|Nz]; [discriminate|]. rewrite (proj2 (Nat.ltb_lt (vw g - 1) size)) by lia.
      destruct (IH adj (vw g - 1 :: m) (i || negb (own g =? r)) M3) as (m' & E & F). exists m'. split; [exact E|]. intros x. rewrite F. cbn [In app]. tauto.
    + destruct (IH adj m (i || negb (own g =? r)) M3) as (m' & E & F). exists m'. split; [exact E|]. exact F.
Qed.
Lemma existsb_mem x m1 m2 : (forall y, In y m1 <-> In y m2) -> existsb (Nat.eqb x) m1 = existsb (Nat.eqb x) m2.
Proof. intros H. apply eq_true_iff_eq. rewrite !existsb_exists. split; intros (y & A & B); exists y; (split; [apply H; exact A|exact B]). Qed.

Lemma node_link r c0 c a s u : r < P -> u < dn (d r) -> bounded c0 -> bounded c -> rep r c0 c a s ->
  let g := gnode G own size c0 (c, a) (from r + u) in
  exists s', color_node (d r) size (Some s) u = Some s' /\ rep r c0 (fst g) (snd g) s' /\ bounded (fst g).
Proof.
  intros Hr Hu B0 B1 (R1 & R2 & R3 & R4). destruct (at_own r u Hr Hu) as [Gu Ou].
  destruct (rank_data P G dist edist d HDs r Hr) as [[V _ _] _]. destruct V as (_ & V2 & _). pose proof (V2 u Hu) as Lu. clear V2.
  unfold gnode, color_node. cbn [bind fst snd]. rewrite (R4 u Hu). cbn [bind]. destruct (a (from r + u)) eqn:Au; cbn [negb]; [|exists s; cbn [fst snd]; split; [reflexivity|]; split; [split; auto|exact B1]].
  pose proof (R3 u _ Lu) as Cu. unfold view at 1 in Cu. rewrite Ou, Nat.eqb_refl in Cu. rewrite Cu. cbn [bind]. rewrite Lu. cbn [bind].
  destruct (row_facts r u Hr Hu) as (nbs & E & _ & M). rewrite E. cbn [bind].
  set (vw := view own c0 c r).
  destruct (mark_link r (fst s) (c (from r + u)) (from r + u) vw Hr) with (nbs := nbs) (adj := gadj G (from r + u)) (m := @nil nat) (i := false) as (m' & Em & Fm); [|exact M|].
  { intros l g Hl. split; [exact (R3 l g Hl)|]. destruct (local_facts r l g Hr Hl) as [Hg _]. unfold vw, view. destruct (own g =? r); [exact (B1 g Hg)|exact (B0 g Hg)]. }
  rewrite Em. cbn [bind fst snd orb]. rewrite Ou. fold vw.
  pose proof (decide_effect G own size (from r + u) (c (from r + u)) vw (size_ok _ Gu)) as Ef.
  unfold decide in *. set (mm := marks (from r + u) (c (from r + u)) vw (gadj G (from r + u))) in *.
  assert (Fm' : forall x, In x m' <-> In x mm) by (intros x; rewrite Fm; cbn [In]; tauto).
  assert (If : existsb (fun e : nat * Z => negb (own (fst e) =? r)) (gadj G (from r + u)) = iface G own (from r + u)) by (unfold iface; rewrite Ou; reflexivity).
  assert (Fu : first_unmarked size m' = first_unmarked size mm) by (apply first_from_ext; exact Fm').
  rewrite (existsb_mem (c (from r + u) - 1) m' mm Fm'), Fu, If. pose proof (B1 _ Gu) as Bu.
  assert (Lf : u < length (fst s)) by lia.
  assert (Repl : forall x, (forall l g, dlocal_to_global (d r) l = Some g -> nth_error (upd u x (fst s)) l = Some (view own c0 (fset c (from r + u) x) r g))).
  { intros x l g Hl. rewrite upd_nth_error. pose proof (R3 l g Hl) as Rl. destruct (Nat.eqb_spec u l) as [X|X].
    - subst l. assert (g = from r + u) by congruence. subst g. rewrite (proj2 (Nat.ltb_lt u (length (fst s)))) by exact Lf. unfold view. rewrite Ou, Nat.eqb_refl, fset_same. reflexivity.
    - cbn [andb]. rewrite Rl. f_equal. unfold view. destruct (own g =? r); [|reflexivity]. rewrite fset_other; [reflexivity|]. intros ->. apply X. exact (l2g_inj r u l _ Hr Lu Hl). }
  assert (Repb : forall b v, v < dn (d r) -> nth_error (upd u b (snd s)) v = Some (fset a (from r + u) b (from r + v))).
  { intros b v Hv. rewrite upd_nth_error, (proj2 (Nat.ltb_lt u (length (snd s)))) by lia. unfold fset. destruct (Nat.eqb_spec u v) as [X|X]; cbn [andb].
    - subst v. rewrite Nat.eqb_refl. reflexivity.
    - destruct (Nat.eqb_spec (from r + v) (from r + u)); [lia|]. exact (R4 v Hv). }
  assert (Keepb : forall v, v < dn (d r) -> nth_error (snd s) v = Some (fset a (from r + u) true (from r + v))).
  { intros v Hv. rewrite (R4 v Hv). f_equal. unfold fset. destruct (Nat.eqb_spec (from r + v) (from r + u)) as [X|X]; [rewrite X; exact Au|reflexivity]. }
  assert (Bd : forall x, x <= size -> bounded (fset c (from r + u) x)).
  { intros x Hx y Hy. unfold fset. destruct (y =? from r + u); [exact Hx|exact (B1 y Hy)]. }
  assert (Ln : first_unmarked size mm + 1 <= size).
  { pose proof (marks_length own (from r + u) (c (from r + u)) vw (gadj G (from r + u))) as Lm. fold mm in Lm. pose proof (size_ok _ Gu). destruct (first_unmarked_spec size mm ltac:(lia)). lia. }
  destruct (Nat.eqb_spec (c (from r + u)) 0) as [Z|Z]; cbn [fst snd].
  - eexists. split; [reflexivity|]. split; [|exact (Bd _ Ln)]. split; [cbn [fst]; rewrite upd_length; exact R1|]. split; [cbn [snd]; destruct (iface G own (from r + u)); [|rewrite upd_length]; exact R2|].
    split; [cbn [fst]; apply Repl|]. cbn [snd]. destruct (iface G own (from r + u)); [exact Keepb|apply Repb].
  - rewrite (proj2 (Nat.ltb_lt (c (from r + u) - 1) size)) by lia. destruct (existsb (Nat.eqb (c (from r + u) - 1)) mm); cbn [fst snd].
    + eexists. split; [reflexivity|]. split; [|exact (Bd _ Ln)]. split; [cbn [fst]; rewrite upd_length; exact R1|]. split; [exact R2|]. split; [cbn [fst]; apply Repl|exact Keepb].
    + eexists. split; [reflexivity|]. split; [|apply Bd; exact Bu]. split; [exact R1|]. split; [cbn [snd]; rewrite upd_length; exact R2|]. split; [|cbn [snd]; apply Repb].
      cbn [fst]. intros l g Hl. rewrite (R3 l g Hl). f_equal. unfold view. destruct (own g =? r); [|reflexivity]. unfold fset. destruct (Nat.eqb_spec g (from r + u)) as [->|]; reflexivity.
Qed.

Lemma nodes_link r c0 : r < P -> bounded c0 -> forall us c a s, (forall u, In u us -> u < dn (d r)) -> bounded c -> rep r c0 c a s ->
  let g := grun G own size c0 (map (fun u => from r + u) us) (c, a) in
  exists s', color_nodes (d r) size us s = Some s' /\ rep r c0 (fst g) (snd g) s'.
Proof.
  intros Hr B0. induction us as [|u t IH]; intros c a s Hin B R; [exists s; split; [reflexivity|exact R]|].
  destruct (node_link r c0 c a s u Hr (Hin u (or_introl eq_refl)) B0 B R) as (s1 & E1 & R1 & B1). cbv zeta in E1, R1, B1.
  unfold color_nodes, grun. cbn [map fold_left]. rewrite E1. destruct (gnode G own size c0 (c, a) (from r + u)) as [c1 a1]. cbn [fst snd] in *.
  exact (IH c1 a1 s1 (fun v Hv => Hin v (or_intror Hv)) B1 R1).
Qed.

Lemma start_rep r : r < P -> rep r (fun _ => 0) (fun _ => 0) (fun _ => true) (coloring_start (d r)).
Proof.
  intros Hr. unfold rep, coloring_start. cbn [fst snd]. rewrite !repeat_length. split; [reflexivity|]. split; [reflexivity|]. split.
  - intros l g Hl. unfold view. assert (L : l < dn (d r) + dghost_n (d r)).
    { destruct (Nat.lt_ge_cases l (dn (d r) + dghost_n (d r))) as [L|L]; [exact L|]. destruct (rank_data P G dist edist d HDs r Hr) as [[V _ _] _]. destruct V as (_ & _ & _ & V4 & _). rewrite V4 in Hl by exact L. discriminate. }
    rewrite (nth_error_repeat 0 L). destruct (own g =? r); reflexivity.
  - intros u Hu. apply nth_error_repeat. exact Hu.
Qed.
End System.
