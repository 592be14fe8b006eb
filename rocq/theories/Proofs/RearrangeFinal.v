(* Reordering of a distributed graph: all ranks, and the blocks that the caller gets. *)
From Verif Require Import Lib.Prelude Lib.Count Model.GridModel Model.CsrModel Model.PermModel Model.DistGraphModel Model.DistMetricsModel Model.RearrangeModel
  Spec.Graph Spec.DistGraphSpec Spec.ReplicateSpec Spec.RearrangeSpec Proofs.GraphFacts Proofs.PermProofs Proofs.GridBase Proofs.DistViewProofs Proofs.ExchangeProofs Proofs.DistSystemProofs
  Proofs.DistMetricsProofs Proofs.ReplicateProofs Proofs.RearrangeRank Proofs.RearrangeOrder Proofs.RearrangeSystem.

Lemma iso_symmetric f g h : isomorphic_by f g h -> symmetric_adjacency g -> closed_graph g -> symmetric_adjacency h.
Proof.
  intros (Hn & Hm & Hi & _ & Ha) HS HC u v w Hu Hin. rewrite Hn in Hu. destruct (inj_surj (gn g) f Hm Hi u Hu) as (x & Hx & <-).
  eapply Permutation_in in Hin; [|apply Ha; exact Hx]. apply in_map_iff in Hin as ([y w0] & E & Hin). injection E as <- <-.
  destruct (HS x y w0 Hx Hin) as (w' & Hin'). exists w'. eapply Permutation_in; [symmetry; apply Ha; exact (HC x y w0 Hx Hin)|]. apply in_map_iff. exists (x, w'). auto.
Qed.
Lemma fold_max_le l : forall a x, In x (a :: l) -> x <= fold_left Nat.max l a.
Proof.
  induction l as [|b t IH]; intros a x Hx; cbn [fold_left].
  - destruct Hx as [<-|[]]. lia.
  - destruct Hx as [<-|[<-|Hx]].
    + transitivity (Nat.max a b); [lia|]. apply IH. left. reflexivity.
    + transitivity (Nat.max a b); [lia|]. apply IH. left. reflexivity.
    + apply IH. right. exact Hx.
Qed.
Lemma num_colors_bound P col colors r u : num_colors (map col (seq 0 P)) = Some colors -> r < P -> u < length (col r) -> nth u (col r) 0 < colors.
Proof.
  unfold num_colors. intros E Hr Hu. destruct (traverse num_local_colors (map col (seq 0 P))) as [l|] eqn:T; [|discriminate]. cbn [bind] in E. injection E as <-.
  assert (X : exists m, In m l /\ num_local_colors (col r) = Some m).
  { assert (In (col r) (map col (seq 0 P))) as Hin by (apply in_map; apply in_seq; lia). revert l T Hin. generalize (map col (seq 0 P)). induction l as [|a t IH]; intros l' T Hin; [destruct Hin|].
    cbn [traverse] in T. destruct (num_local_colors a) as [m|] eqn:Em; [|discriminate]. cbn [bind] in T. destruct (traverse num_local_colors t) as [l''|] eqn:Et; [|discriminate]. cbn [bind] in T. injection T as <-.
    destruct Hin as [->|Hin]; [exists m; split; [left; reflexivity|exact Em]|]. destruct (IH l'' eq_refl Hin) as (m' & I' & E'). exists m'. split; [right; exact I'|exact E']. }
  destruct X as (m & Hin & Em). apply Nat.lt_le_trans with m.
  - unfold num_local_colors in Em. destruct (col r) as [|c t]; [cbn in Hu; lia|]. injection Em as <-. apply Nat.lt_succ_r, fold_max_le. apply nth_In. exact Hu.
  - apply fold_max_le. right. exact Hin.
Qed.
Lemma num_colors_some P col : (forall r, r < P -> col r <> []) -> exists colors, num_colors (map col (seq 0 P)) = Some colors.
Proof.
  intros H. unfold num_colors. assert (X : exists l, traverse num_local_colors (map col (seq 0 P)) = Some l).
  { assert (K : forall c, In c (map col (seq 0 P)) -> c <> []) by (intros c Hc; apply in_map_iff in Hc; destruct Hc as (r & <- & Hr); apply in_seq in Hr; apply H; lia).
    revert K. generalize (map col (seq 0 P)). induction l as [|a t IH]; intros K; cbn [traverse]; [eauto|]. destruct a as [|c a]; [exfalso; apply (K []); [left; reflexivity|reflexivity]|]. cbn [num_local_colors bind].
    destruct IH as (l & ->); [intros c' Hc'; apply K; right; exact Hc'|]. cbn [bind]. eauto. }
  destruct X as (l & ->). cbn [bind]. eauto.
Qed.
Lemma class_bucket deg : (N.of_nat deg < 2 ^ 32)%N -> dist_bucket deg = degree_class deg.
Proof. exact (dist_bucket_log deg). Qed.

(** The orders are permutations. *)
Lemma order_inverse P d ord o2n n2o : degrees_fit P d -> (forall r, r < P -> 0 < length (dc_nodes (d r))) -> order_outcome P d ord o2n n2o ->
  forall r, r < P -> inverse_orders (dn (d r)) (o2n r) (n2o r).
Proof.
  intros HF HL O r Hr. destruct ord; cbn [order_outcome] in O; [destruct O| |].
  - destruct (O r Hr) as (conc & Hc & E). exact (proj1 (degree_order_ok conc (dc_nodes (d r)) (o2n r) (n2o r) Hc (fun u Hu => HF r u Hr Hu) E)).
  - destruct O as (col & colors & Ec & O). destruct (O r Hr) as (L & o1 & o2 & s & P1 & P2 & E & -> & ->).
    destruct (color_order_ok colors (dn (d r)) (col r)) with (order1 := o1) (order2 := o2) as (s' & E' & I & _); try assumption; [lia| |].
    + intros u Hu. apply (num_colors_bound P col colors r u Ec Hr). lia.
    + rewrite E in E'. injection E' as <-. exact I.
Qed.

Section System.
Variables (P : nat) (G : graph) (dist edist : list nat) (d : nat -> dcsr) (o2n n2o : nat -> list nat).
Hypothesis HDs : distributed P G dist edist d.
Hypothesis HC : closed_graph G.
Hypothesis HS : symmetric_adjacency G.
Hypothesis Room : room_for_ghosts P d.
Hypothesis HO : forall r, r < P -> inverse_orders (dn (d r)) (o2n r) (n2o r).

Theorem rearranged_ok d' : rearrange_outcome P d o2n n2o d' ->
  exists f G', isomorphic_by f G G' /\ closed_graph G' /\ symmetric_adjacency G' /\ keeps_ranks P dist f /\ distributed P G' dist edist d' /\
    (forall r u, r < P -> u < dn (d r) -> f (nth r dist 0 + u) = nth r dist 0 + nth u (o2n r) 0) /\
    room_for_ghosts P d' /\ (weights_everywhere P d -> weights_everywhere P d') /\ (ghost_weights P G d -> ghost_weights P G' d') /\
    (forall r, r < P -> dn (d' r) = dn (d r) /\ forall u, u < dn (d r) -> degree_of (dc_nodes (d' r)) u = degree_of (dc_nodes (d r)) (nth u (n2o r) 0)).
Proof.
  intros (threads & bufs & HB & HRk). exists (sig dist o2n), (newG G dist o2n n2o).
  assert (I : isomorphic_by (sig dist o2n) G (newG G dist o2n n2o)) by exact (new_iso P G dist edist d HDs o2n n2o HO).
  split; [exact I|]. split; [exact (iso_closed _ _ _ I HC)|]. split; [exact (iso_symmetric _ _ _ I HS HC)|].
  split; [intros r g Hr O; exact (proj1 (sig_owns P G dist edist d HDs o2n n2o HO r g Hr O))|].
  assert (K : forall r, r < P -> exists je jn jw msgs, length je = length (dc_edges (d r)) /\ length jn = length (dc_nw (d r)) /\ length jw = length (dc_ew (d r)) /\ Permutation msgs (inbox P bufs r) /\
     rearrange_rank (d r) (o2n r) (n2o r) je jn jw msgs = Some (d' r)) by exact HRk.
  assert (RK : forall r, r < P ->
     local_view (newG G dist o2n n2o) dist r (dn (d' r)) (dghost_n (d' r)) (dlocal_to_global (d' r)) (dglobal_to_local (d' r)) (dghost_owner (d' r)) (dcontains (d' r)) (dadj (d' r)) /\
     (forall u, u < dn (d' r) -> dnode_weight (dc_nw (d' r)) u = Some (gvw (newG G dist o2n n2o) (nth r dist 0 + u))) /\
     dc_rank (d' r) = r /\ dc_dist (d' r) = dist /\ dc_edist (d' r) = edist /\ length (dc_edges (d' r)) = length (dc_edges (d r)) /\ csr_arrays (d' r) /\
     dn (d' r) = dn (d r) /\ dghost_n (d' r) = dghost_n (d r) /\ length (dc_nw (d' r)) = length (dc_nw (d r)) /\ length (dc_ew (d' r)) = length (dc_ew (d r)) /\
     (forall u, dn (d r) <= u < dn (d r) + dghost_n (d r) -> dnode_weight (dc_nw (d' r)) u = dnode_weight (dc_nw (d r)) u) /\
     (forall u, u < dn (d r) -> degree_of (dc_nodes (d' r)) u = degree_of (dc_nodes (d r)) (nth u (n2o r) 0)) /\
     (forall l g, dlocal_to_global (d r) l = Some g -> dlocal_to_global (d' r) (if l <? dn (d r) then nth l (o2n r) 0 else l) = Some (sig dist o2n g))).
  { intros r Hr. destruct (K r Hr) as (je & jn & jw & msgs & H1 & H2 & H3 & H4 & E).
    destruct (rank_rearranged P G dist edist d HDs HC HS o2n n2o HO Room threads bufs HB r je jn jw msgs Hr H1 H2 H3 H4) as (d0 & E0 & R). rewrite E in E0. injection E0 as <-. exact R. }
  destruct HDs as (D1 & D2 & D3 & D4).
  assert (NE : forall (a b : list Z), length a = length b -> (a <> [] <-> b <> [])) by (intros [|x a] [|y b] E; cbn in E; split; intros H; congruence || discriminate).
  split.
  { split; [exact D1|]. split; [exact D2|]. split; [exact D3|]. intros r Hr. destruct (RK r Hr) as (V & W & R1 & R2 & R3 & R4 & CA & R5 & R6 & _).
    destruct CA as (C0 & C1 & C2 & C3 & C4). destruct (D4 r Hr) as (_ & _ & _ & _ & _ & Es & _).
    repeat (split; [first [exact V | exact W | exact R1 | exact R2 | exact R3 | rewrite R4; exact Es | lia | assumption]|]). exact C4. }
  split; [intros r u Hr Hu; exact (sig_at P G dist edist d (conj D1 (conj D2 (conj D3 D4))) o2n n2o r u Hr Hu)|].
  split; [intros r Hr; destruct (RK r Hr) as (_ & _ & _ & _ & _ & _ & _ & R5 & R6 & R7 & _); destruct (Room r Hr) as [E|L]; [left; apply length_zero_iff_nil; rewrite R7, E; reflexivity|right; lia]|].
  split.
  { intros (W1 & W2). split; intros (q & Hq & N) r Hr.
    - destruct (RK q Hq) as (_ & _ & _ & _ & _ & _ & _ & _ & _ & Q7 & _). destruct (RK r Hr) as (_ & _ & _ & _ & _ & _ & _ & R5 & _ & R7 & _). rewrite R5.
      destruct (W1 (ex_intro _ q (conj Hq (proj1 (NE _ _ Q7) N))) r Hr) as [X|X]; [left; apply (NE _ _ R7); exact X|right; exact X].
    - destruct (RK q Hq) as (_ & _ & _ & _ & _ & _ & _ & _ & _ & _ & Q8 & _). destruct (RK r Hr) as (_ & _ & _ & _ & _ & R4 & _ & _ & _ & _ & R8 & _).
      destruct (W2 (ex_intro _ q (conj Hq (proj1 (NE _ _ Q8) N))) r Hr) as [X|X]; [left; apply (NE _ _ R8); exact X|right; apply length_zero_iff_nil; rewrite R4, X; reflexivity]. }
  split.
  { intros GW r u x Hr Hu Ex. destruct (RK r Hr) as (V & _ & _ & _ & _ & _ & _ & R5 & R6 & _ & _ & R9 & _ & Tr). rewrite R5, R6 in Hu. rewrite (R9 u Hu).
    destruct (D4 r Hr) as (V0 & _). destruct V0 as (_ & _ & V3 & _). destruct (V3 u Hu) as (g & p & Eg & Gh & _). rewrite (GW r u g Hr Hu Eg). f_equal.
    pose proof (Tr u g Eg) as T. rewrite (proj2 (Nat.ltb_ge u (dn (d r)))) in T by lia. rewrite Ex in T. injection T as ->.
    destruct I as (_ & _ & _ & Iw & _). symmetry. apply Iw. destruct Gh as (_ & v & w & Ov & Hin). exact (HC v g w (owns_lt P (gn G) dist D1 r v Hr Ov) Hin). }
  intros r Hr. destruct (RK r Hr) as (_ & _ & _ & _ & _ & _ & _ & R5 & _ & _ & _ & _ & R10 & _). auto.
Qed.

Theorem rearranged_complete threads bufs : (forall r, r < P -> 0 < threads r /\ buffers_outcome P (d r) (fun u => u) (fun _ _ => true) (label_message (o2n r)) (threads r) 0 (dn (d r)) (bufs r)) ->
  forall r je jn jw msgs, r < P -> length je = length (dc_edges (d r)) -> length jn = length (dc_nw (d r)) -> length jw = length (dc_ew (d r)) -> Permutation msgs (inbox P bufs r) ->
  exists d', rearrange_rank (d r) (o2n r) (n2o r) je jn jw msgs = Some d'.
Proof.
  intros HB r je jn jw msgs Hr H1 H2 H3 H4. destruct (rank_rearranged P G dist edist d HDs HC HS o2n n2o HO Room threads bufs HB r je jn jw msgs Hr H1 H2 H3 H4) as (d' & E & _). exists d'. exact E.
Qed.
End System.

Lemma dist_nodes P G dist edist d : distributed P G dist edist d -> forall r, r < P -> 0 < length (dc_nodes (d r)).
Proof. intros (_ & _ & _ & H) r Hr. destruct (H r Hr) as (_ & _ & _ & _ & _ & _ & L & _). lia. Qed.

(** Sorting by degree. *)
Theorem degree_sorted P G dist edist d o2n n2o d' : distributed P G dist edist d -> closed_graph G -> symmetric_adjacency G -> room_for_ghosts P d -> degrees_fit P d ->
  order_outcome P d DegreeBuckets o2n n2o -> rearrange_outcome P d o2n n2o d' ->
  exists f G', isomorphic_by f G G' /\ closed_graph G' /\ symmetric_adjacency G' /\ keeps_ranks P dist f /\ distributed P G' dist edist d' /\
    (forall r u, r < P -> u < dn (d r) -> f (nth r dist 0 + u) = nth r dist 0 + nth u (o2n r) 0) /\
    room_for_ghosts P d' /\ (weights_everywhere P d -> weights_everywhere P d') /\ (ghost_weights P G d -> ghost_weights P G' d') /\
    forall r u v, r < P -> u <= v -> v < dn (d' r) -> degree_class (degree_of (dc_nodes (d' r)) u) <= degree_class (degree_of (dc_nodes (d' r)) v).
Proof.
  intros HDs HC HS HR HF O R. pose proof (order_inverse P d DegreeBuckets o2n n2o HF (dist_nodes _ _ _ _ _ HDs) O) as HO.
  destruct (rearranged_ok P G dist edist d o2n n2o HDs HC HS HR HO d' R) as (f & G' & A1 & A2 & A3 & A4 & A5 & A6 & A7 & A8 & A9 & A10).
  exists f, G'. repeat (split; [assumption|]). intros r u v Hr Hu Hv. destruct (A10 r Hr) as [En Ed]. rewrite En in Hv. rewrite !Ed by lia.
  destruct (O r Hr) as (conc & Hc & E). destruct (HO r Hr) as (_ & _ & _ & B2).
  pose proof (proj2 (degree_order_ok conc (dc_nodes (d r)) (o2n r) (n2o r) Hc (fun x Hx => HF r x Hr Hx) E) u v Hu Hv) as S1.
  rewrite <- !class_bucket; [exact S1| |]; apply HF; try assumption; apply B2; lia.
Qed.

(** Sorting by colour: every colour class is a range of nodes on every rank, and no two nodes of a class are adjacent. *)
Theorem color_sorted P G dist edist d col c colors o1 o2 s d' : distributed P G dist edist d -> closed_graph G -> symmetric_adjacency G -> room_for_ghosts P d ->
  (forall r, r < P -> length (col r) = dn (d r) + dghost_n (d r)) ->
  (forall r l g, r < P -> dlocal_to_global (d r) l = Some g -> nth l (col r) 0 = c g) ->
  num_colors (map col (seq 0 P)) = Some colors ->
  (forall r, r < P -> Permutation (o1 r) (seq 0 (dn (d r))) /\ Permutation (o2 r) (seq 0 (dn (d r))) /\ color_order colors (dn (d r)) (col r) (o1 r) (o2 r) = Some (s r)) ->
  rearrange_outcome P d (fun r => pl_o2n (s r)) (fun r => pl_n2o (s r)) d' ->
  exists f G', isomorphic_by f G G' /\ closed_graph G' /\ symmetric_adjacency G' /\ keeps_ranks P dist f /\ distributed P G' dist edist d' /\
    (forall r u, r < P -> u < dn (d r) -> f (nth r dist 0 + u) = nth r dist 0 + nth u (pl_o2n (s r)) 0) /\
    (forall r, r < P -> length (pl_sizes (s r)) = colors + 1 /\ nth 0 (pl_sizes (s r)) 0 = 0 /\ nth colors (pl_sizes (s r)) 0 = dn (d' r) /\
       forall a, a < colors -> nth a (pl_sizes (s r)) 0 <= nth (S a) (pl_sizes (s r)) 0) /\
    (forall r g, r < P -> owns dist r g -> c g < colors /\ nth (c g) (pl_sizes (s r)) 0 <= f g - nth r dist 0 < nth (S (c g)) (pl_sizes (s r)) 0) /\
    ((forall g h w, g < gn G -> In (h, w) (gadj G g) -> c g <> c h) ->
     forall a r q u v w, a < colors -> r < P -> q < P -> nth a (pl_sizes (s r)) 0 <= u < nth (S a) (pl_sizes (s r)) 0 -> nth a (pl_sizes (s q)) 0 <= v < nth (S a) (pl_sizes (s q)) 0 ->
       ~ In (nth q dist 0 + v, w) (gadj G' (nth r dist 0 + u))).
Proof.
  intros HDs HC HS HR HL Hc Ec Hs R.
  assert (OK : forall r, r < P -> inverse_orders (dn (d r)) (pl_o2n (s r)) (pl_n2o (s r)) /\ length (pl_sizes (s r)) = colors + 1 /\
    (forall a, a <= colors -> nth a (pl_sizes (s r)) 0 = cnt (fun u => nth u (col r) 0 <? a) (seq 0 (dn (d r)))) /\
    forall u, u < dn (d r) -> nth (nth u (col r) 0) (pl_sizes (s r)) 0 <= nth u (pl_o2n (s r)) 0 < nth (S (nth u (col r) 0)) (pl_sizes (s r)) 0).
  { intros r Hr. destruct (Hs r Hr) as (P1 & P2 & E). pose proof (HL r Hr) as Lr.
    destruct (color_order_ok colors (dn (d r)) (col r)) with (order1 := o1 r) (order2 := o2 r) as (s' & E' & X); try assumption; [lia| |].
    - intros u Hu. apply (num_colors_bound P col colors r u Ec Hr). lia.
    - rewrite E in E'. injection E' as <-. exact X. }
  destruct (rearranged_ok P G dist edist d _ _ HDs HC HS HR (fun r Hr => proj1 (OK r Hr)) d' R) as (f & G' & A1 & A2 & A3 & A4 & A5 & A6 & _ & _ & _ & A10).
  exists f, G'. repeat (split; [assumption|]).
  assert (CB : forall r u, r < P -> u < dn (d r) -> nth u (col r) 0 < colors) by (intros r u Hr Hu; apply (num_colors_bound P col colors r u Ec Hr); rewrite (HL r Hr); lia).
  assert (Mono : forall r, r < P -> forall a, a < colors -> nth a (pl_sizes (s r)) 0 <= nth (S a) (pl_sizes (s r)) 0).
  { intros r Hr a Ha. destruct (OK r Hr) as (_ & _ & Sz & _). rewrite !Sz by lia. apply cnt_impl. intros u _ H. apply Nat.ltb_lt in H. apply Nat.ltb_lt. lia. }
  assert (Own : forall r g, r < P -> owns dist r g -> exists u, u < dn (d r) /\ g = nth r dist 0 + u /\ nth u (col r) 0 = c g).
  { intros r g Hr O. apply (owned P G dist edist d HDs r g Hr) in O. destruct O as (u & Hu & ->). exists u. split; [exact Hu|]. split; [reflexivity|]. apply Hc; [exact Hr|].
    destruct HDs as (_ & _ & _ & D4). destruct (D4 r Hr) as ((_ & V2 & _) & _). apply V2. exact Hu. }
  assert (Cls : forall r g, r < P -> owns dist r g -> c g < colors /\ nth (c g) (pl_sizes (s r)) 0 <= f g - nth r dist 0 < nth (S (c g)) (pl_sizes (s r)) 0).
  { intros r g Hr O. destruct (Own r g Hr O) as (u & Hu & -> & <-). rewrite (A6 r u Hr Hu). destruct (OK r Hr) as (_ & _ & _ & X). split; [apply CB; assumption|]. specialize (X u Hu). lia. }
  split; [|split; [exact Cls|]].
  - intros r Hr. destruct (OK r Hr) as (_ & L & Sz & _). split; [exact L|]. split; [rewrite Sz by lia; apply cnt_zero; reflexivity|]. split; [|exact (Mono r Hr)].
    rewrite Sz by lia. rewrite (proj1 (A10 r Hr)). rewrite cnt_all; [apply seq_length|]. intros u Hu. apply in_seq in Hu. apply Nat.ltb_lt. apply CB; [exact Hr|lia].
  - intros Pr a r q u v w Ha Hr Hq Hu Hv Hin.
    assert (Top : forall r, r < P -> nth colors (pl_sizes (s r)) 0 <= dn (d r)) by (intros r' Hr'; destruct (OK r' Hr') as (_ & _ & Sz & _); rewrite Sz by lia; etransitivity; [apply cnt_le|rewrite seq_length; reflexivity]).
    assert (Mono2 : forall r, r < P -> forall i j, i <= j -> j <= colors -> nth i (pl_sizes (s r)) 0 <= nth j (pl_sizes (s r)) 0) by (intros r' Hr'; apply monotone_le; exact (Mono r' Hr')).
    assert (Pre : forall r x, r < P -> nth a (pl_sizes (s r)) 0 <= x < nth (S a) (pl_sizes (s r)) 0 -> exists g, owns dist r g /\ g < gn G /\ f g = nth r dist 0 + x /\ c g = a).
    { intros r' x Hr' Hx. destruct (OK r' Hr') as ((_ & _ & _ & B2) & _). assert (Hxd : x < dn (d r')) by (pose proof (Mono2 r' Hr' (S a) colors ltac:(lia) ltac:(lia)); pose proof (Top r' Hr'); lia).
      destruct (B2 x Hxd) as [Y1 Y2]. set (y := nth x (pl_n2o (s r')) 0) in *. exists (nth r' dist 0 + y).
      assert (O : owns dist r' (nth r' dist 0 + y)) by (apply (owned P G dist edist d HDs r' _ Hr'); exists y; auto). split; [exact O|].
      split; [exact (owns_lt P (gn G) dist (proj1 HDs) r' _ Hr' O)|]. assert (Ef : f (nth r' dist 0 + y) = nth r' dist 0 + x) by (rewrite (A6 r' y Hr' Y1), Y2; reflexivity). split; [exact Ef|].
      destruct (Cls r' _ Hr' O) as [C1 C2]. rewrite Ef in C2. destruct (Nat.lt_trichotomy (c (nth r' dist 0 + y)) a) as [C|[C|C]]; [|exact C|].
      - pose proof (Mono2 r' Hr' (S (c (nth r' dist 0 + y))) a C ltac:(lia)). lia.
      - pose proof (Mono2 r' Hr' (S a) (c (nth r' dist 0 + y)) C ltac:(lia)). lia. }
    destruct (Pre r u Hr Hu) as (g & _ & Hg & Eg & Cg). destruct (Pre q v Hq Hv) as (h & _ & Hh & Eh & Ch). rewrite <- Eg, <- Eh in Hin.
    destruct A1 as (_ & _ & Inj & _ & Ia). apply (Permutation_in _ (Ia g Hg)) in Hin. apply in_map_iff in Hin. destruct Hin as ([h' w'] & E & Hin). cbn [fst snd] in E. injection E as E1 E2.
    pose proof (Inj h' h (HC g h' w' Hg Hin) Hh E1) as ->. apply (Pr g h w' Hg Hin). congruence.
Qed.

(** A history of calls. *)
Lemma prepare_one P G dist edist ord f0 f : distributed P G dist edist (df_graph f0) -> closed_graph G -> symmetric_adjacency G -> room_for_ghosts P (df_graph f0) -> degrees_fit P (df_graph f0) ->
  df_rearranged f0 = false -> prepare P ord f0 f -> f = f0 \/ df_rearranged f = true /\ exists s G', isomorphic_by s G G' /\ distributed P G' dist edist (df_graph f) /\
    forall r, r < P -> length (df_perm f r) = dn (df_graph f r) /\ forall u, u < dn (df_graph f r) -> nth u (df_perm f r) 0 < dn (df_graph f r) /\ s (nth r dist 0 + u) = nth r dist 0 + nth u (df_perm f r) 0.
Proof.
  intros HDs HC HS HR HF F Pp. destruct Pp as [K|o2n n2o d' E O R]; [left; reflexivity|]. right. cbn [df_graph df_perm df_rearranged] in *. split; [reflexivity|].
  pose proof (order_inverse P (df_graph f0) ord o2n n2o HF (dist_nodes _ _ _ _ _ HDs) O) as HO.
  destruct (rearranged_ok P G dist edist (df_graph f0) o2n n2o HDs HC HS HR HO d' R) as (f & G' & A1 & A2 & A3 & A4 & A5 & A6 & A7 & A8 & A9 & A10).
  exists f, G'. split; [exact A1|]. split; [exact A5|]. intros r Hr. rewrite (proj1 (A10 r Hr)). destruct (HO r Hr) as (L & _ & B1 & _). split; [exact L|]. intros u Hu. split; [apply B1; exact Hu|apply A6; assumption].
Qed.
Lemma prepares_done P ords f0 f : df_rearranged f0 = true -> prepares P ords f0 f -> f = f0.
Proof. intros F H. revert F. induction H as [f|ord t f f' f'' H1 H2 IH]; intros F; [reflexivity|]. destruct H1 as [K|o2n n2o d' E O R]; [exact (IH F)|]. rewrite F in E. discriminate. Qed.

Theorem returned_ok P G dist edist d ords f parts part : distributed P G dist edist d -> closed_graph G -> undirected G -> symmetric_adjacency G -> room_for_ghosts P d -> degrees_fit P d ->
  prepares P ords (df_import d) f ->
  (forall r l g, r < P -> dlocal_to_global (df_graph f r) l = Some g -> nth_error (parts r) l = Some (part g)) ->
  exists out, (forall r, r < P -> written_blocks f r (parts r) = Some (map (fun u => out (nth r dist 0 + u)) (seq 0 (nth (S r) dist 0 - nth r dist 0)))) /\
    dist_edge_cut (map (df_graph f) (seq 0 P)) (map parts (seq 0 P)) = Some (cut_weight G out) /\
    forall k, (forall g, g < gn G -> part g < k) -> (forall g, g < gn G -> out g < k) /\
      exists bw, dist_block_weights k (map (df_graph f) (seq 0 P)) (map parts (seq 0 P)) = Some bw /\ length bw = k /\ forall b, b < k -> nth b bw 0%Z = block_weight G out b.
Proof.
  intros HDs HC HU HS HR HF Hp Hparts.
  assert (X : f = df_import d \/ df_rearranged f = true /\ exists s G', isomorphic_by s G G' /\ distributed P G' dist edist (df_graph f) /\
    forall r, r < P -> length (df_perm f r) = dn (df_graph f r) /\ forall u, u < dn (df_graph f r) -> nth u (df_perm f r) 0 < dn (df_graph f r) /\ s (nth r dist 0 + u) = nth r dist 0 + nth u (df_perm f r) 0).
  { clear Hparts. remember (df_import d) as f0 eqn:Ef. induction Hp as [f|ord t f f' f'' H1 H2 IH]; [left; reflexivity|]. subst f.
    destruct (prepare_one P G dist edist ord (df_import d) f' HDs HC HS HR HF eq_refl H1) as [->|Y]; [exact (IH eq_refl)|]. rewrite (prepares_done P t f' f'' (proj1 Y) H2). right. exact Y. }
  destruct X as [->|(_ & s & G' & I & D' & Pm)].
  - cbn [df_graph df_import] in *. pose proof HDs as (D1 & _ & _ & D4). assert (V : forall r, r < P -> local_view G dist r (dn (d r)) (dghost_n (d r)) (dlocal_to_global (d r)) (dglobal_to_local (d r)) (dghost_owner (d r)) (dcontains (d r)) (dadj (d r))) by (intros r Hr; exact (proj1 (D4 r Hr))).
    exists part. split; [intros r Hr; exact (written_ok P G dist d V parts part Hparts r Hr)|]. split; [exact (dist_cut_ok P G dist D1 d V parts part Hparts HC HU)|].
    intros k Hk. split; [exact Hk|]. exact (dist_block_weights_ok P G dist D1 d V parts part Hparts (fun r u Hr Hu => proj1 (proj2 (D4 r Hr)) u Hu) k Hk).
  - pose proof D' as (D1 & _ & _ & D4). assert (V : forall r, r < P -> local_view G' dist r (dn (df_graph f r)) (dghost_n (df_graph f r)) (dlocal_to_global (df_graph f r)) (dglobal_to_local (df_graph f r)) (dghost_owner (df_graph f r)) (dcontains (df_graph f r)) (dadj (df_graph f r))) by (intros r Hr; exact (proj1 (D4 r Hr))).
    exists (fun g => part (s g)). split; [|split].
    + intros r Hr. destruct (Pm r Hr) as [L N]. destruct (V r Hr) as (Vn & V2 & _). unfold written_blocks. destruct (df_perm f r) as [|p0 pt] eqn:Ep.
      * rewrite (written_ok P G' dist (df_graph f) V parts part Hparts r Hr). rewrite <- Vn, <- L. reflexivity.
      * rewrite <- Ep in *. clear Ep. rewrite <- Vn. apply traverse_ok. intros u Hu. apply in_seq in Hu. destruct (N u ltac:(lia)) as [Q1 Q2]. rewrite (nth_error_nth' _ 0) by lia. cbn [bind].
        rewrite Q2. apply Hparts; [exact Hr|]. apply V2. exact Q1.
    + rewrite (dist_cut_ok P G' dist D1 (df_graph f) V parts part Hparts (iso_closed _ _ _ I HC) (iso_undirected _ _ _ I HC HU)). rewrite (iso_cut s G G' part I HC HU). reflexivity.
    + destruct I as (In_ & Im & I'). assert (I : isomorphic_by s G G') by (split; [exact In_|split; [exact Im|exact I']]). intros k Hk. split; [intros g Hg; apply Hk; apply Im; exact Hg|].
      destruct (dist_block_weights_ok P G' dist D1 (df_graph f) V parts part Hparts (fun r u Hr Hu => proj1 (proj2 (D4 r Hr)) u Hu) k) as (bw & E & L & N); [intros g Hg; apply Hk; rewrite <- In_; exact Hg|].
      exists bw. split; [exact E|]. split; [exact L|]. intros b Hb. rewrite (N b Hb). apply iso_block_weight. exact I.
Qed.
