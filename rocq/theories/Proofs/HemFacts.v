(* Heavy edge matching: the graphs of the ranks, seen through the functions of the model. *)
From Verif Require Import Lib.Prelude Model.GridModel Model.DistGraphModel Model.RearrangeModel Model.HemModel Spec.Graph Spec.DistGraphSpec Spec.ReplicateSpec Spec.RearrangeSpec Spec.ColoringSpec
  Proofs.DistViewProofs Proofs.ExchangeProofs Proofs.RearrangeRank Proofs.RearrangeSystem Proofs.ColoringSystem Proofs.HemLocal.

Section Facts.
Variables (P : nat) (G : graph) (dist edist : list nat) (d : nat -> dcsr).
Hypothesis HDs : distributed P G dist edist d.
Hypothesis HC : closed_graph G.
Hypothesis HS : symmetric_adjacency G.
Notation from r := (nth r dist 0).
Notation own := (find_owner dist).
Definition tot (r : nat) : nat := dn (d r) + dghost_n (d r).

Lemma f_view r : r < P -> local_view G dist r (dn (d r)) (dghost_n (d r)) (dlocal_to_global (d r)) (dglobal_to_local (d r)) (dghost_owner (d r)) (dcontains (d r)) (dadj (d r)).
Proof. intros Hr. destruct HDs as (_ & _ & _ & H). destruct (H r Hr) as (V & _). exact V. Qed.
Lemma f_l2g r l : r < P -> l < tot r -> dlocal_to_global (d r) l = Some (glob (d r) l).
Proof.
  intros Hr Hl. destruct (f_view r Hr) as (_ & V2 & V3 & _). unfold glob. destruct (Nat.lt_ge_cases l (dn (d r))) as [L|L]; [rewrite (V2 l L); reflexivity|].
  destruct (V3 l (conj L Hl)) as (g & q & A & _). rewrite A. reflexivity.
Qed.
Lemma f_own r l : r < P -> l < dn (d r) -> glob (d r) l = from r + l.
Proof. intros Hr Hl. destruct (f_view r Hr) as (_ & V2 & _). unfold glob. rewrite (V2 l Hl). reflexivity. Qed.
Lemma f_glob r l : r < P -> l < tot r -> glob (d r) l < gn G /\ dis_ghost (d r) l = negb (own (glob (d r) l) =? r).
Proof. intros Hr Hl. destruct (local_facts P G dist edist d HDs HC r l _ Hr (f_l2g r l Hr Hl)) as (A & B & _). auto. Qed.
Lemma f_ghost r l : r < P -> dn (d r) <= l < tot r -> ghost_of G dist r (glob (d r) l) /\ own (glob (d r) l) <> r /\ dghost_owner (d r) l = Some (own (glob (d r) l)).
Proof.
  intros Hr Hl. destruct (f_view r Hr) as (_ & _ & V3 & _). destruct (V3 l Hl) as (g & q & A & B & C & D). unfold glob. rewrite A.
  assert (Hg : g < gn G) by (destruct B as (_ & v & w & B2 & B3); exact (HC v g w (owns_lt P (gn G) dist (proj1 HDs) r v Hr B2) B3)).
  assert (Q : own g = q).
  { destruct (find_owner_owns P (gn G) dist g (proj1 HDs) Hg) as [X Y]. apply (owns_unique P (gn G) dist (proj1 HDs) _ _ g X); [|exact Y|exact D].
    destruct (Nat.lt_ge_cases q P) as [L|L]; [exact L|]. exfalso. destruct D as [_ D]. destruct (proj1 HDs) as (L0 & _). rewrite (nth_overflow dist 0 (n := S q)) in D by lia. lia. }
  split; [exact B|]. split; [|rewrite Q; exact C]. intros E. apply (proj1 B). rewrite <- E. exact (proj2 (find_owner_owns P (gn G) dist g (proj1 HDs) Hg)).
Qed.
Lemma f_inj r l l' : r < P -> l < tot r -> l' < tot r -> glob (d r) l = glob (d r) l' -> l = l'.
Proof. intros Hr A B E. apply (l2g_inj P G dist edist d HDs r l l' (glob (d r) l) Hr); [exact (f_l2g r l Hr A)|rewrite E; exact (f_l2g r l' Hr B)]. Qed.
Lemma f_loc r l : r < P -> l < tot r -> loc (d r) (glob (d r) l) = l.
Proof. intros Hr Hl. destruct (f_view r Hr) as (_ & _ & _ & _ & V5 & _). pose proof (f_l2g r l Hr Hl) as E. apply V5 in E. unfold loc. rewrite E. reflexivity. Qed.
Lemma f_off r q : r < P -> q < P -> offset (d r) q = from q.
Proof.
  intros Hr Hq. destruct HDs as (D & _ & _ & H). destruct (H r Hr) as (_ & _ & _ & E & _). unfold offset, doffset. rewrite E. rewrite (nth_error_nth' dist 0); [reflexivity|]. destruct D as (L & _). lia.
Qed.
Lemma f_row r u v w : r < P -> u < dn (d r) -> In (v, w) (row (d r) u) -> v < tot r /\ In (glob (d r) v, w) (gadj G (from r + u)).
Proof.
  intros Hr Hu Hin. destruct (row_facts P G dist edist d HDs r u Hr Hu) as (nbs & E & _ & M). unfold row in Hin. rewrite E in Hin.
  assert (H : In (dlocal_to_global (d r) v, w) (map (fun e => (dlocal_to_global (d r) (fst e), snd e)) nbs)) by (apply in_map_iff; exists (v, w); auto).
  rewrite M in H. apply in_map_iff in H. destruct H as ([g w'] & H1 & H2). cbn [fst snd] in H1. injection H1 as H1 ->.
  assert (L : v < tot r). { destruct (Nat.lt_ge_cases v (tot r)) as [L|L]; [exact L|]. destruct (f_view r Hr) as (_ & _ & _ & V4 & _). rewrite (V4 v L) in H1. discriminate. }
  split; [exact L|]. rewrite (f_l2g r v Hr L) in H1. injection H1 as ->. exact H2.
Qed.
Lemma f_row_of r u g w : r < P -> u < dn (d r) -> In (g, w) (gadj G (from r + u)) -> exists v, v < tot r /\ glob (d r) v = g /\ In (v, w) (row (d r) u).
Proof.
  intros Hr Hu Hin. destruct (row_facts P G dist edist d HDs r u Hr Hu) as (nbs & E & _ & M).
  assert (H : In (Some g, w) (map (fun e => (Some (fst e), snd e)) (gadj G (from r + u)))) by (apply in_map_iff; exists (g, w); auto).
  rewrite <- M in H. apply in_map_iff in H. destruct H as ([v w'] & H1 & H2). cbn [fst snd] in H1. injection H1 as H1 ->. exists v.
  assert (R : In (v, w) (row (d r) u)) by (unfold row; rewrite E; exact H2). destruct (f_row r u v w Hr Hu R) as [L _]. split; [exact L|]. split; [|exact R].
  rewrite (f_l2g r v Hr L) in H1. injection H1 as ->. reflexivity.
Qed.
Lemma f_node g : g < gn G -> own g < P /\ g - from (own g) < dn (d (own g)) /\ from (own g) + (g - from (own g)) = g.
Proof. exact (at_node P G dist edist d HDs g). Qed.
Lemma f_at r u : r < P -> u < dn (d r) -> from r + u < gn G /\ own (from r + u) = r.
Proof. exact (at_own P G dist edist d HDs r u). Qed.
(** A node with a neighbour on rank [q] is known there. *)
Lemma f_known r u q v w : r < P -> u < dn (d r) -> q < P -> q <> r -> In (v, w) (gadj G (from r + u)) -> own v = q -> exists l, dn (d q) <= l < tot q /\ glob (d q) l = from r + u.
Proof.
  intros Hr Hu Hq N Hin Hv. destruct (f_at r u Hr Hu) as [A B]. destruct (HS _ v w A Hin) as [w' Hw]. pose proof (HC _ v w A Hin) as Lv.
  destruct (f_node v Lv) as (N1 & N2 & N3). rewrite Hv in N2, N3. rewrite <- N3 in Hw. destruct (f_row_of q _ _ w' Hq N2 Hw) as (l & L1 & L2 & _). exists l. split; [|exact L2]. split; [|exact L1].
  destruct (f_glob q l Hq L1) as [_ Gh]. rewrite L2, B in Gh. unfold dis_ghost in Gh. destruct (Nat.eqb_spec r q); [congruence|]. cbn [negb] in Gh. apply Nat.leb_le in Gh. exact Gh.
Qed.
Lemma f_owner_is r q l : r < P -> dn (d r) <= l < tot r -> owner_is (d r) q l = (own (glob (d r) l) =? q).
Proof. intros Hr Hl. unfold owner_is. destruct (f_ghost r l Hr Hl) as (_ & _ & E). rewrite E. reflexivity. Qed.
Lemma f_wt : ghost_weights P G d -> forall r l, r < P -> l < tot r -> wt (d r) l = gvw G (glob (d r) l).
Proof.
  intros HW r l Hr Hl. unfold wt. destruct (Nat.lt_ge_cases l (dn (d r))) as [L|L].
  - destruct HDs as (_ & _ & _ & H). destruct (H r Hr) as (_ & W & _). rewrite (W l L), (f_own r l Hr L). reflexivity.
  - rewrite (HW r l _ Hr (conj L Hl) (f_l2g r l Hr Hl)). reflexivity.
Qed.
End Facts.
